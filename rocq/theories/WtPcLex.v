(** * lex_count and lex_smaller_count of a wavelet tree whose leaves are ordered *)
From Coq Require Import NArith List Arith Bool Lia Permutation Sorting.Sorted.
From Verif Require Import Base SpecBits RankSelect AbsVec WtBase SpecWt WtProofs WtPc WtPcProofs WtPcQ.
Import ListNotations.

Definition ltc (c x : N) : bool := (x <? c)%N.
Definition gtc (c x : N) : bool := (c <? x)%N.
Lemma ss_app : forall (a b : list nat), StronglySorted lt (a ++ b) -> StronglySorted lt a /\ StronglySorted lt b /\ forall x y, In x a -> In y b -> x < y.
Proof.
  induction a as [|z a IH]; intros b H; cbn [app] in H. { split; [constructor|]. split; auto. intros x y []. } inversion H as [|z' l' H1 H2]; subst. destruct (IH _ H1) as (A & B & C). rewrite Forall_forall in H2. split; [|split]; auto.
  - constructor; auto. apply Forall_forall. intros x X. apply H2. apply in_or_app. auto.
  - intros x y [<- | X] Y. { apply H2. apply in_or_app. auto. } auto.
Qed.
Lemma ss_nodup : forall (a : list nat), StronglySorted lt a -> NoDup a.
Proof. induction 1 as [|a l H IH F]; constructor; auto. intros I. rewrite Forall_forall in F. pose proof (F a I). lia. Qed.
Lemma cnt_disj : forall (f g h : N -> bool) T k, (forall x, In x T -> h x = f x || g x) -> (forall x, In x T -> f x = true -> g x = false) -> cnt h T k = cnt f T k + cnt g T k.
Proof.
  intros f g h T. unfold cnt. induction T as [|a T IH]; intros k H D; destruct k; auto. cbn [firstn filter].
  rewrite (H a) by (left; auto). pose proof (D a (or_introl eq_refl)) as DA. specialize (IH k (fun x X => H x (or_intror X)) (fun x X => D x (or_intror X))).
  destruct (f a), (g a); cbn [orb length]; try lia.
Qed.
Lemma cnt_slice : forall f (T : list N) i j, i <= j -> length (filter f (slice T i j)) = cnt f T j - cnt f T i.
Proof.
  intros f T i j I. unfold slice. assert (E : cnt f T j = cnt f T i + length (filter f (firstn (j - i) (skipn i T)))).
  { unfold cnt. rewrite <- app_length, <- filter_app. f_equal. f_equal. rewrite <- (firstn_skipn i (firstn j T)). rewrite firstn_firstn, Nat.min_l by lia. f_equal. rewrite skipn_firstn_comm. auto. } lia.
Qed.

Section L.
Variables (S : list N) (t : ct) (w : wtpc) (pth : list (list bool)).
Hypothesis SS : StronglySorted lt (leaves t).
Hypothesis CV : forall x, In x S -> mem t x = true.
Hypothesis LA : laid t (w_ns w) pth.
Hypothesis FI : filled S t (w_ns w) pth (w_bv w).
Hypothesis WN : w_n w = length S.
Hypothesis WS : w_sigma w = length (leaves t).
Hypothesis CODE : forall c p, sub t p = Some (CL (N.to_nat c)) ->
  code_ok (w_byte w) (w_path w) c p /\ exists v, c_to_leaf (w_byte w) (w_cl w) c = Some (Some v) /\ nth_error pth v = Some p.
Hypothesis ABS : forall c, mem t c = false -> (w_byte w = true -> (c < 256)%N) -> c_to_leaf (w_byte w) (w_cl w) c = Some None.
Hypothesis PREV : forall c, mem t c = false -> (w_byte w = true -> (c < 256)%N) ->
  exists x, bit_path (w_byte w) (w_path w) c = Some x /\ N.to_nat (shr x 56) = 0 /\ (w_byte w = true -> (cast_sym (w_byte w) x < 256)%N) /\
    let c' := cast_sym (w_byte w) x in
    ((c' < c)%N /\ mem t c' = true /\ forall y, mem t y = true -> (y < c)%N -> (y <= c')%N) \/ (c' = 0%N /\ forall y, mem t y = true -> (c < y)%N).
Notation at_ i p := (nth_error pth i = Some p).
Notation sq := (sq S).
Let ND := ss_nodup _ SS.

Lemma ord : forall p l r x y, sub t p = Some (CN l r) -> mem l x = true -> mem r y = true -> (x < y)%N.
Proof.
  intros p l r x y U X Y. assert (H : forall q u v, StronglySorted lt (leaves u) -> sub u q = Some v -> StronglySorted lt (leaves v)).
  { clear. induction q as [|b q IH]; intros u v D E; destruct u; cbn [sub] in E; try discriminate; try (injection E as <-; auto). cbn [leaves] in D. apply ss_app in D. destruct D as (D1 & D2 & _). destruct b; [apply (IH u2) | apply (IH u1)]; auto. }
  apply (H p t _ SS) in U. cbn [leaves] in U. apply ss_app in U. destruct U as (_ & _ & U). apply mem_in in X. apply mem_in in Y. specialize (U _ _ X Y). lia.
Qed.
(* smaller and greater symbols of a node *)
Lemma ltc_r : forall p l r c k, sub t p = Some (CN l r) -> mem r c = true -> cnt (ltc c) (sq (CN l r)) k = cnt (mem l) (sq (CN l r)) k + cnt (ltc c) (sq r) (cnt (mem r) (sq (CN l r)) k).
Proof.
  intros p l r c k U M. rewrite (cnt_disj (mem l) (fun x => mem r x && ltc c x) (ltc c)).
  - f_equal. rewrite <- (sq_child S l r true). rewrite <- (cnt_child (fun x => mem r x && ltc c x) (mem r)). 2: { intros x _ X. apply andb_true_iff in X. tauto. }
    unfold cnt. f_equal. apply filter_ext_in2. intros x X. apply In_firstn in X. apply filter_In in X. destruct X as [_ X]. rewrite X. auto.
  - intros x X. apply sq_in in X. rewrite mem_CN in X. destruct (mem l x) eqn:L; cbn [orb] in *. { apply N.ltb_lt. eapply ord; eauto. } rewrite X. auto.
  - intros x X L. apply sq_in in X. rewrite (mem_split l r x) in L; auto. { destruct (mem r x); [discriminate|auto]. } eapply sub_nodup; eauto.
Qed.
Lemma ltc_l : forall p l r c k, sub t p = Some (CN l r) -> mem l c = true -> cnt (ltc c) (sq (CN l r)) k = cnt (ltc c) (sq l) (cnt (mem l) (sq (CN l r)) k).
Proof.
  intros p l r c k U M. rewrite <- (sq_child S l r false). symmetry. apply cnt_child. intros x X L. apply sq_in in X. rewrite mem_CN in X. destruct (mem l x) eqn:E; auto. cbn [orb] in X. pose proof (ord p l r c x U M X). apply N.ltb_lt in L. lia.
Qed.
Lemma gtc_l : forall p l r c k, sub t p = Some (CN l r) -> mem l c = true -> cnt (gtc c) (sq (CN l r)) k = cnt (mem r) (sq (CN l r)) k + cnt (gtc c) (sq l) (cnt (mem l) (sq (CN l r)) k).
Proof.
  intros p l r c k U M. rewrite (cnt_disj (mem r) (fun x => mem l x && gtc c x) (gtc c)).
  - f_equal. rewrite <- (sq_child S l r false). rewrite <- (cnt_child (fun x => mem l x && gtc c x) (mem l)). 2: { intros x _ X. apply andb_true_iff in X. tauto. }
    unfold cnt. f_equal. apply filter_ext_in2. intros x X. apply In_firstn in X. apply filter_In in X. destruct X as [_ X]. rewrite X. auto.
  - intros x X. apply sq_in in X. rewrite mem_CN in X. destruct (mem r x) eqn:R; cbn [orb] in *. { apply N.ltb_lt. eapply ord; eauto. } rewrite orb_false_r in X. rewrite X. auto.
  - intros x X L. apply sq_in in X. rewrite (mem_split l r x); auto. { rewrite L. auto. } eapply sub_nodup; eauto.
Qed.
Lemma gtc_r : forall p l r c k, sub t p = Some (CN l r) -> mem r c = true -> cnt (gtc c) (sq (CN l r)) k = cnt (gtc c) (sq r) (cnt (mem r) (sq (CN l r)) k).
Proof.
  intros p l r c k U M. rewrite <- (sq_child S l r true). symmetry. apply cnt_child. intros x X L. apply sq_in in X. rewrite mem_CN in X. destruct (mem r x) eqn:E; auto. rewrite orb_false_r in X. pose proof (ord p l r x c U X M). apply N.ltb_lt in L. lia.
Qed.
Lemma cnt_none : forall (f : N -> bool) T k, (forall x, In x T -> f x = false) -> cnt f T k = 0.
Proof. intros f T k H. unfold cnt. rewrite filter_nil; auto. intros x X. apply H. eapply In_firstn; eauto. Qed.
Lemma leaf_lt : forall c x, In x (sq (CL (N.to_nat c))) -> x = c.
Proof. intros c x X. apply leaf_all in X. lia. Qed.

Lemma lc_ok : forall q u p v wd c i j sm gr, at_ v p -> sub t p = Some u -> sub u q = Some (CL (N.to_nat c)) -> bits_are wd q -> i <= j -> j <= length (sq u) ->
  lc_loop (length q) w wd v i j sm gr = Some (occ (sq u) c i, sm + (cnt (ltc c) (sq u) j - cnt (ltc c) (sq u) i), gr + (cnt (gtc c) (sq u) j - cnt (gtc c) (sq u) i)).
Proof.
  induction q as [|b q IH]; intros u p v wd c i j sm gr A U Q B I J; cbn [length lc_loop].
  - destruct u; cbn in Q; [|discriminate]. injection Q as ->. rewrite !(cnt_none (ltc c)), !(cnt_none (gtc c)). { f_equal. f_equal; [|lia]. f_equal; [|lia]. unfold occ. rewrite filter_all. { rewrite firstn_length. lia. } intros x X. apply In_firstn in X. apply leaf_lt in X. apply N.eqb_eq. auto. }
    all: intros x X; apply leaf_lt in X; subst x; apply N.ltb_irrefl.
  - destruct u as [|l r]; [discriminate|]. cbn [sub] in Q. rewrite (rnk1_ok S t w pth LA FI v p l r i) by (auto; lia). cbn [obind]. rewrite (rnk1_ok S t w pth LA FI v p l r j) by auto. cbn [obind]. apply bits_are_tl in B. destruct B as [-> B].
    destruct (child_ok t w pth LA v p l r b A U) as (v' & -> & AJ & UJ). cbn [obind].
    pose proof (split_cnt S t ND p l r i U ltac:(lia)) as SI. pose proof (split_cnt S t ND p l r j U J) as SJ. pose proof (cnt_le (mem r) (sq (CN l r)) i) as LI. pose proof (cnt_le (mem r) (sq (CN l r)) j) as LJ.
    pose proof (cnt_mono (mem r) (sq (CN l r)) i j I) as MR. pose proof (cnt_mono (mem l) (sq (CN l r)) i j I) as ML.
    assert (MC : mem (if b then r else l) c = true). { eapply sub_mem; eauto. rewrite mem_leaf. apply N.eqb_refl. }
    assert (OC : forall k, occ (sq (if b then r else l)) c (cnt (mem (if b then r else l)) (sq (CN l r)) k) = occ (sq (CN l r)) c k).
    { intros k. rewrite <- !cnt_leaf. rewrite <- (sq_child S l r b) at 1. apply cnt_child. intros x _ X. rewrite mem_leaf in X. apply N.eqb_eq in X. subst x. auto. }
    assert (LE : cnt (mem (if b then r else l)) (sq (CN l r)) j <= length (sq (if b then r else l))). { rewrite <- (sq_child S l r b). apply cnt_le_all. }
    pose proof (cnt_mono (ltc c) (sq (if b then r else l)) _ _ (cnt_mono (mem (if b then r else l)) (sq (CN l r)) i j I)) as ML2.
    pose proof (cnt_mono (gtc c) (sq (if b then r else l)) _ _ (cnt_mono (mem (if b then r else l)) (sq (CN l r)) i j I)) as MG2.
    destruct b.
    + rewrite (csub_some j _ (cnt (mem l) (sq (CN l r)) j)) by lia. cbn [obind]. rewrite (csub_some _ i (cnt (mem l) (sq (CN l r)) j - cnt (mem l) (sq (CN l r)) i)) by lia. cbn [obind].
      rewrite (IH r (p ++ [true]) v' _ c) by (auto; lia). rewrite OC. rewrite !(ltc_r p l r c), !(gtc_r p l r c) by auto. f_equal. f_equal. f_equal. lia.
    + rewrite (csub_some _ _ (cnt (mem r) (sq (CN l r)) j - cnt (mem r) (sq (CN l r)) i)) by lia. cbn [obind]. rewrite (csub_some i _ (cnt (mem l) (sq (CN l r)) i)) by lia. cbn [obind]. rewrite (csub_some j _ (cnt (mem l) (sq (CN l r)) j)) by lia. cbn [obind].
      rewrite (IH l (p ++ [false]) v' _ c) by (auto; lia). rewrite OC. rewrite !(ltc_l p l r c), !(gtc_l p l r c) by auto. f_equal. f_equal. lia.
Qed.
Lemma ls_ok : forall q u p v wd c i r0, at_ v p -> sub t p = Some u -> sub u q = Some (CL (N.to_nat c)) -> bits_are wd q -> i <= length (sq u) ->
  ls_loop (length q) w wd v i r0 = Some (occ (sq u) c i, r0 + cnt (ltc c) (sq u) i).
Proof.
  induction q as [|b q IH]; intros u p v wd c i r0 A U Q B I; cbn [length ls_loop].
  - destruct u; cbn in Q; [|discriminate]. injection Q as ->. rewrite (cnt_none (ltc c)). { f_equal. f_equal; [|lia]. unfold occ. rewrite filter_all. { rewrite firstn_length. lia. } intros x X. apply In_firstn in X. apply leaf_lt in X. apply N.eqb_eq. auto. }
    intros x X; apply leaf_lt in X; subst x; apply N.ltb_irrefl.
  - destruct (Nat.eqb_spec i 0) as [-> | Z]. { rewrite cnt_0. unfold occ. cbn [firstn filter length]. rewrite Nat.add_0_r. auto. }
    destruct u as [|l r]; [discriminate|]. cbn [sub] in Q. rewrite (rnk1_ok S t w pth LA FI v p l r i) by (auto; lia). cbn [obind]. apply bits_are_tl in B. destruct B as [-> B].
    destruct (child_ok t w pth LA v p l r b A U) as (v' & -> & AJ & UJ). cbn [obind].
    pose proof (split_cnt S t ND p l r i U ltac:(lia)) as SI. pose proof (cnt_le (mem r) (sq (CN l r)) i) as LI. rewrite (csub_some i _ (cnt (mem l) (sq (CN l r)) i)) by lia. cbn [obind].
    assert (MC : mem (if b then r else l) c = true). { eapply sub_mem; eauto. rewrite mem_leaf. apply N.eqb_refl. }
    assert (OC : forall k, occ (sq (if b then r else l)) c (cnt (mem (if b then r else l)) (sq (CN l r)) k) = occ (sq (CN l r)) c k).
    { intros k. rewrite <- !cnt_leaf. rewrite <- (sq_child S l r b) at 1. apply cnt_child. intros x _ X. rewrite mem_leaf in X. apply N.eqb_eq in X. subst x. auto. }
    assert (LE : cnt (mem (if b then r else l)) (sq (CN l r)) i <= length (sq (if b then r else l))). { rewrite <- (sq_child S l r b). apply cnt_le_all. }
    destruct b.
    + rewrite (IH r (p ++ [true]) v' _ c) by auto. rewrite OC. rewrite (ltc_r p l r c) by auto. f_equal. f_equal. lia.
    + rewrite (IH l (p ++ [false]) v' _ c) by auto. rewrite OC. rewrite (ltc_l p l r c) by auto. auto.
Qed.

Lemma cnt_total : forall c k, k <= length S -> occ S c k + cnt (ltc c) S k + cnt (gtc c) S k = k.
Proof.
  intros c k K. pose proof (cnt_disj (ltc c) (gtc c) (fun x => ltc c x || gtc c x) S k) as E1. pose proof (cnt_disj (N.eqb c) (fun x => ltc c x || gtc c x) (fun _ => true) S k) as E2.
  assert (E3 : cnt (fun _ : N => true) S k = k). { unfold cnt. rewrite filter_all by auto. rewrite firstn_length. lia. }
  rewrite E3 in E2. unfold occ. unfold cnt in *. rewrite E1 in E2; auto.
  - rewrite Nat.add_assoc in E2. symmetry. apply E2; intros x _; unfold ltc, gtc. { destruct (N.eqb_spec c x), (N.ltb_spec x c), (N.ltb_spec c x); auto; lia. } intros E. apply N.eqb_eq in E. subst x. rewrite N.ltb_irrefl. auto.
  - intros x _ X. unfold ltc, gtc in *. apply N.ltb_lt in X. apply N.ltb_ge. lia.
Qed.
Lemma prev_lt : forall c c' k, mem t c = false -> (c' < c)%N -> mem t c' = true -> (forall y, mem t y = true -> (y < c)%N -> (y <= c')%N) -> cnt (gtc c') S k = cnt (gtc c) S k /\ cnt (ltc c) S k = occ S c' k + cnt (ltc c') S k.
Proof.
  intros c c' k M L M' P. split.
  - unfold cnt. f_equal. apply filter_ext_in2. intros x X. apply In_firstn in X. apply CV in X. unfold gtc. specialize (P x X). destruct (N.eqb_spec x c) as [-> | Z]; [congruence|]. destruct (N.ltb_spec c' x), (N.ltb_spec c x); auto; lia.
  - change (occ S c' k) with (cnt (N.eqb c') S k). apply cnt_disj.
    + intros x X. apply CV in X. specialize (P x X). unfold ltc. destruct (N.eqb_spec c' x), (N.ltb_spec x c), (N.ltb_spec x c'); cbn; auto; lia.
    + intros x _ X. apply N.eqb_eq in X. subst x. apply N.ltb_irrefl.
Qed.
Lemma first_lt : forall c k, k <= length S -> (forall y, mem t y = true -> (c < y)%N) -> cnt (ltc c) S k = 0 /\ cnt (gtc c) S k = k /\ occ S c k = 0.
Proof.
  intros c k K P. assert (E : cnt (ltc c) S k = 0). { apply cnt_none. intros x X. apply CV in X. apply P in X. apply N.ltb_ge. lia. }
  assert (E2 : occ S c k = 0). { change (occ S c k) with (cnt (N.eqb c) S k). apply cnt_none. intros x X. apply CV in X. apply P in X. apply N.eqb_neq. lia. } pose proof (cnt_total c k K). lia.
Qed.

Lemma one_occ : forall s k, t = CL s -> k <= length S -> forall c, occ S c k = (if (c =? N.of_nat s)%N then k else 0) /\ cnt (ltc c) S k = (if (N.of_nat s <? c)%N then k else 0) /\ cnt (gtc c) S k = (if (c <? N.of_nat s)%N then k else 0).
Proof.
  intros s k E K c. assert (O : forall x, In x S -> x = N.of_nat s). { intros x X. pose proof (CV x X) as M. rewrite E in M. apply mem_in in M. destruct M as [M|[]]. lia. }
  assert (G : forall f : N -> bool, cnt f S k = if f (N.of_nat s) then k else 0).
  { intros f. unfold cnt. destruct (f (N.of_nat s)) eqn:F. { rewrite filter_all. { rewrite firstn_length. lia. } intros x X. apply In_firstn in X. rewrite (O x X). auto. } rewrite filter_nil; auto. intros x X. apply In_firstn in X. rewrite (O x X). auto. }
  change (occ S c k) with (cnt (N.eqb c) S k). rewrite !G. unfold ltc, gtc. auto.
Qed.
Lemma root_sym : forall s, t = CL s -> leaf_sym w 0 = Some (N.of_nat s).
Proof.
  intros s E. destruct (node_ex t w pth LA 0 [] (la_0 _ _ _ LA)) as [d D]. unfold leaf_sym. rewrite D. cbn [obind]. destruct (la_leaf _ _ _ LA 0 [] s d (la_0 _ _ _ LA)) as [_ R]; auto. { rewrite E. auto. } rewrite R. auto.
Qed.
Definition lc_spec (i j : nat) (c : N) := (occ S c i, smaller c (slice S i j), greater c (slice S i j)).
Lemma lc_spec_eq : forall i j c, i <= j -> lc_spec i j c = (occ S c i, cnt (ltc c) S j - cnt (ltc c) S i, cnt (gtc c) S j - cnt (gtc c) S i).
Proof. intros. unfold lc_spec, smaller, greater. rewrite <- !cnt_slice by auto. auto. Qed.

Lemma lc_present : forall f i j c, mem t c = true -> i <= j -> j <= length S -> (w_byte w = true -> (c < 256)%N) -> wp_lex_count (Datatypes.S f) w i j c = Some (lc_spec i j c).
Proof.
  intros f i j c M I J CB. cbn [wp_lex_count]. rewrite WS. destruct (Nat.eqb_spec (length (leaves t)) 1) as [Z1|Z1].
  { destruct (one_leaf t Z1) as [s E]. rewrite (root_sym s E). cbn [obind]. rewrite (csub_some j i (j - i)) by lia. cbn [obind]. f_equal. rewrite lc_spec_eq by auto.
    destruct (one_occ s i E ltac:(lia) c) as (-> & -> & ->). destruct (one_occ s j E ltac:(lia) c) as (_ & -> & ->).
    destruct (N.eqb_spec c (N.of_nat s)), (N.ltb_spec c (N.of_nat s)), (N.ltb_spec (N.of_nat s) c); try lia; rewrite ?Nat.sub_diag, ?Nat.sub_0_r; auto. }
  destruct (Nat.eqb_spec i j) as [Z2|Z2].
  { subst j. rewrite (rank_ok S t w pth ND CV LA FI WN WS CODE ABS) by auto. cbn [obind]. rewrite lc_spec_eq by auto. rewrite !Nat.sub_diag. auto. }
  destruct (leaf_path t (N.to_nat c)) as [p P]. { apply mem_in. auto. } destruct (CODE c p P) as [(wd & B & L & BA & L56 & WD) _]. rewrite B. cbn [obind]. rewrite L. destruct (Nat.eqb_spec (length p) 0) as [Y|Y].
  { destruct p; [|discriminate]. cbn in P. injection P as P. rewrite P in Z1. cbn in Z1. lia. }
  rewrite (lc_ok p t [] 0 wd c) by (auto; try apply (la_0 _ _ _ LA); rewrite (sq_all S t); auto). rewrite (sq_all S t) by auto. rewrite lc_spec_eq by auto. auto.
Qed.
Theorem lex_count_ok : forall i j c, i <= j -> j <= length S -> (w_byte w = true -> (c < 256)%N) -> wp_lex_count 3 w i j c = Some (lc_spec i j c).
Proof.
  intros i j c I J CB. destruct (mem t c) eqn:M. { apply lc_present; auto. }
  assert (STEP : forall f c, mem t c = false -> (w_byte w = true -> (c < 256)%N) -> (forall c', (w_byte w = true -> (c' < 256)%N) -> (mem t c' = true \/ (c' = 0%N /\ c <> 0%N /\ forall y, mem t y = true -> (c' < y)%N)) -> wp_lex_count f w i j c' = Some (lc_spec i j c')) -> wp_lex_count (Datatypes.S f) w i j c = Some (lc_spec i j c)).
  { clear c CB M. intros f c M CB REC. cbn [wp_lex_count]. rewrite WS. destruct (Nat.eqb_spec (length (leaves t)) 1) as [Z1|Z1].
    { destruct (one_leaf t Z1) as [s E]. rewrite (root_sym s E). cbn [obind]. rewrite (csub_some j i (j - i)) by lia. cbn [obind]. f_equal. rewrite lc_spec_eq by auto.
      destruct (one_occ s i E ltac:(lia) c) as (-> & -> & ->). destruct (one_occ s j E ltac:(lia) c) as (_ & -> & ->).
      destruct (N.eqb_spec c (N.of_nat s)), (N.ltb_spec c (N.of_nat s)), (N.ltb_spec (N.of_nat s) c); try lia; rewrite ?Nat.sub_diag, ?Nat.sub_0_r; auto. }
    destruct (Nat.eqb_spec i j) as [Z2|Z2]. { subst j. rewrite (rank_ok S t w pth ND CV LA FI WN WS CODE ABS) by auto. cbn [obind]. rewrite lc_spec_eq by auto. rewrite !Nat.sub_diag. auto. }
    destruct (PREV c M CB) as (x & -> & L & CB' & P). cbn [obind]. rewrite L. change (0 =? 0) with true. cbn iota. rewrite (csub_some j i (j - i)) by lia. cbn [obind]. cbv zeta in P. set (c' := cast_sym (w_byte w) x) in *.
    destruct P as [(P1 & P2 & P3)|(P1 & P2)].
    - destruct (N.eqb_spec c c') as [Z|Z]; [lia|]. rewrite (REC c' CB' (or_introl P2)). cbn [obind]. rewrite !lc_spec_eq by auto. cbn [snd].
      destruct (prev_lt c c' i M P1 P2 P3) as [G1 L1]. destruct (prev_lt c c' j M P1 P2 P3) as [G2 L2].
      assert (OI : forall k, occ S c k = 0) by (intros; apply (absent_occ S t CV); auto). pose proof (cnt_total c i ltac:(lia)) as T1. pose proof (cnt_total c j ltac:(lia)) as T2. rewrite OI in T1, T2. rewrite OI, G1, G2.
      pose proof (cnt_mono (gtc c) S i j I). pose proof (cnt_mono (ltc c) S i j I). rewrite (csub_some _ _ (cnt (ltc c) S j - cnt (ltc c) S i)) by lia. cbn [obind]. auto.
    - destruct (first_lt c i ltac:(lia) P2) as (F1 & F2 & F3). destruct (first_lt c j ltac:(lia) P2) as (F4 & F5 & F6). rewrite lc_spec_eq by auto. rewrite F1, F2, F3, F4, F5.
      destruct (N.eqb_spec c c') as [Z|Z]. { auto. }
      assert (P2' : forall y, mem t y = true -> (c' < y)%N). { intros y Y. apply P2 in Y. lia. } rewrite (REC c' CB'). 2: { right. split; auto. split; auto. lia. } cbn [obind]. rewrite lc_spec_eq by auto. cbn [snd].
      destruct (first_lt c' i ltac:(lia) P2') as (_ & E2 & _). destruct (first_lt c' j ltac:(lia) P2') as (_ & E5 & _). rewrite E2, E5. rewrite (csub_some _ _ 0) by lia. cbn [obind]. auto. }
  apply STEP; auto. intros c' CB' [M'|(E0 & NZ & P)]. { apply lc_present; auto. }
  assert (M0 : mem t c' = false). { destruct (mem t c') eqn:X; auto. apply P in X. lia. }
  apply STEP; auto. intros c'' CB'' [M''|(E1 & NZ' & _)]. { apply lc_present; auto. } lia.
Qed.

Definition ls_spec (i : nat) (c : N) := (occ S c i, smaller c (firstn i S)).
Lemma ls_present : forall f i c, mem t c = true -> i <= length S -> wp_lex_smaller (Datatypes.S f) w i c = Some (ls_spec i c).
Proof.
  intros f i c M I. cbn [wp_lex_smaller]. rewrite WS. destruct (Nat.eqb_spec (length (leaves t)) 1) as [Z1|Z1].
  { destruct (one_leaf t Z1) as [s E]. rewrite (root_sym s E). cbn [obind]. f_equal. unfold ls_spec. change (smaller c (firstn i S)) with (cnt (ltc c) S i).
    destruct (one_occ s i E ltac:(lia) c) as (-> & -> & _).
    destruct (N.eqb_spec c (N.of_nat s)), (N.ltb_spec c (N.of_nat s)), (N.ltb_spec (N.of_nat s) c); try lia; auto. }
  destruct (leaf_path t (N.to_nat c)) as [p P]. { apply mem_in. auto. } destruct (CODE c p P) as [(wd & B & L & BA & L56 & WD) _]. rewrite B. cbn [obind]. rewrite L. destruct (Nat.eqb_spec (length p) 0) as [Y|Y].
  { destruct p; [|discriminate]. cbn in P. injection P as P. rewrite P in Z1. cbn in Z1. lia. }
  rewrite (ls_ok p t [] 0 wd c) by (auto; try apply (la_0 _ _ _ LA); rewrite (sq_all S t); auto). rewrite (sq_all S t) by auto. auto.
Qed.
Theorem lex_smaller_ok : forall i c, i <= length S -> (w_byte w = true -> (c < 256)%N) -> wp_lex_smaller 3 w i c = Some (ls_spec i c).
Proof.
  intros i c I CB. destruct (mem t c) eqn:M. { apply ls_present; auto. }
  assert (STEP : forall f c, mem t c = false -> (w_byte w = true -> (c < 256)%N) -> (forall c', (w_byte w = true -> (c' < 256)%N) -> (mem t c' = true \/ (c' = 0%N /\ c <> 0%N /\ forall y, mem t y = true -> (c' < y)%N)) -> wp_lex_smaller f w i c' = Some (ls_spec i c')) -> wp_lex_smaller (Datatypes.S f) w i c = Some (ls_spec i c)).
  { clear c CB M. intros f c M CB REC. cbn [wp_lex_smaller]. rewrite WS. assert (SE : forall c, ls_spec i c = (occ S c i, cnt (ltc c) S i)) by auto. rewrite SE. destruct (Nat.eqb_spec (length (leaves t)) 1) as [Z1|Z1].
    { destruct (one_leaf t Z1) as [s E]. rewrite (root_sym s E). cbn [obind]. f_equal.
      destruct (one_occ s i E ltac:(lia) c) as (-> & -> & _).
      destruct (N.eqb_spec c (N.of_nat s)), (N.ltb_spec c (N.of_nat s)), (N.ltb_spec (N.of_nat s) c); try lia; auto. }
    destruct (PREV c M CB) as (x & -> & L & CB' & P). cbn [obind]. rewrite L. change (0 =? 0) with true. cbn iota. cbv zeta in P. set (c' := cast_sym (w_byte w) x) in *.
    destruct P as [(P1 & P2 & P3)|(P1 & P2)].
    - destruct (N.eqb_spec c c') as [Z|Z]; [lia|]. rewrite (REC c' CB' (or_introl P2)). cbn [obind]. rewrite SE. cbn [fst snd].
      destruct (prev_lt c c' i M P1 P2 P3) as [G1 L1]. rewrite L1. rewrite (absent_occ S t CV c i M). auto.
    - destruct (first_lt c i ltac:(lia) P2) as (F1 & F2 & F3). rewrite F1, F3.
      destruct (N.eqb_spec c c') as [Z|Z]. { auto. }
      assert (P2' : forall y, mem t y = true -> (c' < y)%N). { intros y Y. apply P2 in Y. lia. } rewrite (REC c' CB'). 2: { right. split; auto. split; auto. lia. } cbn [obind]. rewrite SE. cbn [fst snd].
      destruct (first_lt c' i ltac:(lia) P2') as (E1 & _ & E3). rewrite E1, E3. auto. }
  apply STEP; auto. intros c' CB' [M'|(E0 & NZ & P)]. { apply ls_present; auto. }
  assert (M0 : mem t c' = false). { destruct (mem t c') eqn:X; auto. apply P in X. lia. }
  apply STEP; auto. intros c'' CB'' [M''|(E1 & NZ' & _)]. { apply ls_present; auto. } lia.
Qed.
End L.
