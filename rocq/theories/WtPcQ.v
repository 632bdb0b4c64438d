(** * rank, select, interval_symbols and the order queries of a laid out wavelet tree *)
From Coq Require Import NArith List Arith Bool Lia Permutation Sorting.Sorted.
From Verif Require Import Base SpecBits RankSelect AbsVec WtBase SpecWt WtProofs WtPc WtPcProofs.
Import ListNotations.

Lemma nd_fun : forall (pth : list (list bool)) i j p, NoDup pth -> nth_error pth i = Some p -> nth_error pth j = Some p -> i = j.
Proof. intros pth i j p D I J. apply (proj1 (NoDup_nth_error pth) D). { apply nth_error_Some. congruence. } congruence. Qed.

Lemma mem_leaf : forall c x, mem (CL (N.to_nat c)) x = (c =? x)%N.
Proof. intros. unfold mem. cbn [leaves existsb]. rewrite orb_false_r. destruct (N.eqb_spec c x) as [-> | Z]. { apply Nat.eqb_refl. } apply Nat.eqb_neq. lia. Qed.
Lemma cnt_leaf : forall c T k, cnt (mem (CL (N.to_nat c))) T k = occ T c k.
Proof. intros. unfold cnt, occ. f_equal. apply filter_ext. apply mem_leaf. Qed.
Lemma leaves_pos : forall u, 0 < length (leaves u).
Proof. induction u; cbn [leaves]; rewrite ?app_length; cbn; lia. Qed.
Lemma one_leaf : forall u, length (leaves u) = 1 -> exists s, u = CL s.
Proof. intros [s|l r] L; eauto. cbn [leaves] in L. rewrite app_length in L. pose proof (leaves_pos l). pose proof (leaves_pos r). lia. Qed.

Section Q2.
Variables (S : list N) (t : ct) (w : wtpc) (pth : list (list bool)).
Hypothesis ND : NoDup (leaves t).
Hypothesis CV : forall x, In x S -> mem t x = true.
Hypothesis LA : laid t (w_ns w) pth.
Hypothesis FI : filled S t (w_ns w) pth (w_bv w).
Hypothesis WN : w_n w = length S.
Hypothesis WS : w_sigma w = length (leaves t).
Hypothesis CODE : forall c p, sub t p = Some (CL (N.to_nat c)) ->
  code_ok (w_byte w) (w_path w) c p /\ exists v, c_to_leaf (w_byte w) (w_cl w) c = Some (Some v) /\ nth_error pth v = Some p.
Hypothesis ABS : forall c, mem t c = false -> (w_byte w = true -> (c < 256)%N) -> c_to_leaf (w_byte w) (w_cl w) c = Some None.
Notation at_ i p := (nth_error pth i = Some p).
Notation sq := (sq S).

Lemma sub_mem_t : forall c p, sub t p = Some (CL (N.to_nat c)) -> mem t c = true.
Proof. intros. eapply sub_mem; eauto. rewrite mem_leaf. apply N.eqb_refl. Qed.
Lemma mem_path : forall c, mem t c = true -> exists p, sub t p = Some (CL (N.to_nat c)).
Proof. intros c M. apply leaf_path. apply mem_in. auto. Qed.
Lemma absent_occ : forall c k, mem t c = false -> occ S c k = 0.
Proof.
  intros c k M. unfold occ. rewrite filter_nil; auto. intros x X. apply N.eqb_neq. intros ->. apply In_firstn in X. apply CV in X. congruence.
Qed.
Lemma one_sym : forall s x, t = CL s -> In x S -> N.to_nat x = s.
Proof. intros s x -> X. apply CV in X. apply mem_in in X. destruct X as [-> | []]. auto. Qed.
Lemma occ_one : forall s c i, t = CL s -> N.to_nat c = s -> i <= length S -> occ S c i = i.
Proof.
  intros s c i E C I. unfold occ. rewrite filter_all. { rewrite firstn_length. lia. } intros x X. apply In_firstn in X. pose proof (one_sym _ _ E X). apply N.eqb_eq. lia.
Qed.

Theorem rank_ok : forall i c, i <= length S -> (w_byte w = true -> (c < 256)%N) -> wp_rank w i c = Some (occ S c i).
Proof.
  intros i c I CB. unfold wp_rank. destruct (mem t c) eqn:M.
  - destruct (mem_path c M) as [p P]. destruct (CODE c p P) as [(wd & B & L & BA & L56 & WD) (v & -> & AV)]. cbn [obind is_some negb]. rewrite WS. destruct (Nat.eqb_spec (length (leaves t)) 1) as [Z|Z].
    + destruct (one_leaf t Z) as [s E]. rewrite E in P. destruct p; [|discriminate]. injection P as ->. rewrite (occ_one (N.to_nat c)); auto.
    + rewrite B. cbn [obind]. rewrite L. rewrite (rank_loop_ok S t w pth ND CV LA FI p t [] 0 wd (N.to_nat c) i); auto. { rewrite (sq_all S t) by auto. rewrite cnt_leaf. auto. } { apply (la_0 _ _ _ LA). } rewrite (sq_all S t) by auto. auto.
  - rewrite (ABS c M CB). cbn [obind is_some negb]. rewrite absent_occ; auto.
Qed.
Theorem select_ok : forall i c, 1 <= i -> i <= occ S c (length S) -> exists q, wp_select w i c = Some q /\ nth_error S q = Some c /\ occ S c q + 1 = i.
Proof.
  intros i c I O. assert (M : mem t c = true). { destruct (mem t c) eqn:M; auto. rewrite (absent_occ c _ M) in O. lia. }
  destruct (mem_path c M) as [p P]. destruct (CODE c p P) as [(wd & B & L & BA & L56 & WD) (v & E & AV)]. unfold wp_select. rewrite E. cbn [obind]. rewrite (csub_some i 1 (i - 1)) by lia. cbn [obind].
  rewrite WS. destruct (Nat.eqb_spec (length (leaves t)) 1) as [Z|Z].
  - destruct (one_leaf t Z) as [s Es]. pose proof P as P'. rewrite Es in P'. destruct p; [|discriminate]. injection P' as ->.
    assert (i <= length S). { etransitivity; [apply O|]. apply (cnt_le (N.eqb c) S (length S)). }
    exists (i - 1). rewrite WN, Nat.min_l by lia. split; auto. split. 2: { rewrite (occ_one (N.to_nat c)); auto; lia. }
    rewrite (nth_error_nth' S 0%N) by lia. f_equal. assert (X : In (nth (i - 1) S 0%N) S) by (apply nth_In; lia). pose proof (one_sym _ _ Es X). lia.
  - rewrite B. cbn [obind]. rewrite L. destruct (Nat.eqb_spec (length p) 0) as [Y|Y].
    { destruct p; [|discriminate]. cbn in P. injection P as P. rewrite P in Z. cbn in Z. lia. }
    destruct (sel_loop_ok S t w pth ND CV LA FI p (CL (N.to_nat c)) v (shl wd (64 - length p)) (i - 1)) as (q & Q1 & Q2 & Q3 & Q4 & Q5); auto.
    { intros j J. rewrite tb_shl. destruct (Nat.ltb_spec (63 - j) 64); [|lia]. destruct (Nat.leb_spec (64 - length p) (63 - j)); [|lia]. cbn [andb]. rewrite <- BA by lia. f_equal. lia. }
    { apply is_word_shl. }
    { unfold sq. rewrite (filter_ext _ _ (mem_leaf c)). unfold occ in O. rewrite firstn_all in O. lia. }
    exists q. split; auto. split. { rewrite (nth_error_nth' S 0%N) by auto. f_equal. rewrite mem_leaf in Q3. apply N.eqb_eq in Q3. auto. } rewrite <- cnt_leaf, Q4. lia.
Qed.

(** ** interval_symbols *)
Definition entry (i j : nat) (s : nat) : N * nat * nat := (N.of_nat s, occ S (N.of_nat s) i, occ S (N.of_nat s) j).
(* for a node u and its interval *)
Definition entryu (u : ct) (i j : nat) (s : nat) : N * nat * nat := (N.of_nat s, cnt (N.eqb (N.of_nat s)) (sq u) i, cnt (N.eqb (N.of_nat s)) (sq u) j).
Definition inside (T : list N) (i j : nat) (s : nat) : bool := cnt (N.eqb (N.of_nat s)) T i <? cnt (N.eqb (N.of_nat s)) T j.
Definition ents (u : ct) (i j : nat) : list (N * nat * nat) := map (entryu u i j) (filter (inside (sq u) i j) (leaves u)).
Lemma ents_empty : forall u i, ents u i i = [].
Proof. intros. unfold ents. rewrite filter_nil; auto. intros x _. unfold inside. apply Nat.ltb_irrefl. Qed.
Lemma memN : forall u s, In s (leaves u) -> mem u (N.of_nat s) = true.
Proof. intros. apply mem_in. rewrite Nat2N.id. auto. Qed.
Lemma ents_child : forall l r (b : bool) i j, let u := CN l r in let x := if b then r else l in
  ents x (cnt (mem x) (sq u) i) (cnt (mem x) (sq u) j) = map (entryu u i j) (filter (inside (sq u) i j) (leaves x)).
Proof.
  intros l r b i j u x. unfold ents. assert (C : forall s k, In s (leaves x) -> cnt (N.eqb (N.of_nat s)) (sq x) (cnt (mem x) (sq u) k) = cnt (N.eqb (N.of_nat s)) (sq u) k).
  { intros s k I. unfold x, u. rewrite <- (sq_child S l r b) at 1. apply cnt_child. intros y _ Y. apply N.eqb_eq in Y. subst y. apply memN. auto. }
  rewrite (filter_ext_in2 nat (inside (sq x) (cnt (mem x) (sq u) i) (cnt (mem x) (sq u) j)) (inside (sq u) i j)). 2: { intros s I. unfold inside. rewrite !C; auto. }
  apply map_ext_in. intros s I. apply filter_In in I. unfold entryu. rewrite !C; tauto.
Qed.
Lemma leaf_ents : forall s i j, i < j -> j <= length (sq (CL s)) -> ents (CL s) i j = [(N.of_nat s, i, j)].
Proof.
  intros s i j I J. unfold ents. cbn [leaves filter]. assert (E : forall k, k <= length (sq (CL s)) -> cnt (N.eqb (N.of_nat s)) (sq (CL s)) k = k).
  { intros k K. unfold cnt. rewrite filter_all. { rewrite firstn_length. lia. } intros x X. apply In_firstn in X. apply leaf_all in X. apply N.eqb_eq. lia. }
  unfold inside, entryu. rewrite !E by lia. destruct (Nat.ltb_spec i j); [|lia]. cbn [map]. rewrite !E by lia. auto.
Qed.
Lemma is_loop_ok : forall u f p v i j, at_ v p -> sub t p = Some u -> (exists l r, u = CN l r) -> depth u <= f -> i <= j -> j <= length (sq u) -> is_loop f w i j v = Some (ents u i j).
Proof.
  induction u as [s|l IHl r IHr]; intros f p v i j A U (l' & r' & EQ) F I J; [discriminate|]. clear EQ l' r'. cbn [depth] in F. destruct f as [|f]; [lia|]. cbn [is_loop].
  rewrite (rnk1_ok S t w pth LA FI v p l r i) by (auto; lia). cbn [obind]. rewrite (rnk1_ok S t w pth LA FI v p l r j) by (auto; lia). cbn [obind].
  rewrite (csub_some i _ (cnt (mem l) (sq (CN l r)) i)). 2: { rewrite (split_cnt S t ND p) by (auto; lia). pose proof (cnt_le (mem r) (sq (CN l r)) i). lia. }
  cbn [obind]. rewrite (csub_some j _ (cnt (mem l) (sq (CN l r)) j)). 2: { rewrite (split_cnt S t ND p) by (auto; lia). pose proof (cnt_le (mem r) (sq (CN l r)) j). lia. }
  cbn [obind].
  assert (G : forall (b : bool) x, x = (if b then r else l) -> (forall f p v i j, at_ v p -> sub t p = Some x -> (exists l r, x = CN l r) -> depth x <= f -> i <= j -> j <= length (sq x) -> is_loop f w i j v = Some (ents x i j)) -> 
    (if cnt (mem x) (sq (CN l r)) i =? cnt (mem x) (sq (CN l r)) j then Some [] else
       let* v' := child (w_ns w) v b in let* lf := is_leaf w v' in
       if negb lf then is_loop f w (cnt (mem x) (sq (CN l r)) i) (cnt (mem x) (sq (CN l r)) j) v' else let* c := leaf_sym w v' in Some [(c, cnt (mem x) (sq (CN l r)) i, cnt (mem x) (sq (CN l r)) j)])
    = Some (ents x (cnt (mem x) (sq (CN l r)) i) (cnt (mem x) (sq (CN l r)) j))).
  { intros b x EX IH. destruct (Nat.eqb_spec (cnt (mem x) (sq (CN l r)) i) (cnt (mem x) (sq (CN l r)) j)) as [Z|Z]. { rewrite Z, ents_empty. auto. }
    destruct (child_ok t w pth LA v p l r b A U) as (v' & -> & AV & UV). rewrite <- EX in UV. cbn [obind]. destruct (node_ex t w pth LA _ _ AV) as [d D]. unfold is_leaf. rewrite D. cbn [obind].
    pose proof (cnt_mono (mem x) (sq (CN l r)) i j I) as MN. assert (LE : cnt (mem x) (sq (CN l r)) j <= length (sq x)). { rewrite EX. rewrite <- (sq_child S l r b). apply cnt_le_all. }
    destruct x as [s|xl xr].
    - destruct (la_leaf _ _ _ LA v' _ s d AV UV D) as [C0 R]. rewrite C0. cbn [is_some negb]. unfold leaf_sym. rewrite D. cbn [obind]. rewrite R. rewrite leaf_ents by (auto; lia). auto.
    - destruct (la_node _ _ _ LA v' _ xl xr d AV UV D) as (i0 & i1 & C0 & _). rewrite C0. cbn [is_some negb]. apply (IH f (p ++ [b]) v'); eauto. destruct b; subst; lia. }
  rewrite (G false l) by auto. cbn [obind]. rewrite (G true r) by auto. cbn [obind]. f_equal. rewrite (ents_child l r false i j), (ents_child l r true i j). unfold ents. cbn [leaves]. rewrite filter_app, map_app. auto.
Qed.

Lemma inside_slice : forall i j s, i <= j -> inside S i j s = true <-> In (N.of_nat s) (slice S i j).
Proof.
  intros i j s I. unfold inside, slice. rewrite Nat.ltb_lt.
  assert (E : cnt (N.eqb (N.of_nat s)) S j = cnt (N.eqb (N.of_nat s)) S i + length (filter (N.eqb (N.of_nat s)) (firstn (j - i) (skipn i S)))).
  { unfold cnt. rewrite <- app_length, <- filter_app. f_equal. f_equal. rewrite <- (firstn_skipn i (firstn j S)). rewrite firstn_firstn, Nat.min_l by lia. f_equal. rewrite skipn_firstn_comm. auto. }
  split.
  - intros L. assert (0 < length (filter (N.eqb (N.of_nat s)) (firstn (j - i) (skipn i S)))) by lia. destruct (filter (N.eqb (N.of_nat s)) (firstn (j - i) (skipn i S))) as [|x q] eqn:F; [cbn in *; lia|].
    assert (X : In x (x :: q)) by (left; auto). rewrite <- F in X. apply filter_In in X. destruct X as [X Y]. apply N.eqb_eq in Y. congruence.
  - intros X. assert (Y : In (N.of_nat s) (filter (N.eqb (N.of_nat s)) (firstn (j - i) (skipn i S)))) by (apply filter_In; split; auto; apply N.eqb_refl). destruct (filter (N.eqb (N.of_nat s)) (firstn (j - i) (skipn i S))); [destruct Y|]. cbn in E. lia.
Qed.
Lemma entry_in : forall i j r, i <= j -> r = ents t i j -> forall c a b, In (c, a, b) r <-> In c (slice S i j) /\ a = occ S c i /\ b = occ S c j.
Proof.
  intros i j r I -> c a b. unfold ents. rewrite (sq_all S t) by auto. rewrite in_map_iff. split.
  - intros (s & E & X). apply filter_In in X. destruct X as [X Y]. unfold entryu in E. rewrite (sq_all S t) in E by auto. injection E as <- <- <-. split; auto. apply inside_slice in Y; auto.
  - intros (X & -> & ->). exists (N.to_nat c). unfold entryu. rewrite (sq_all S t) by auto. rewrite N2Nat.id. split; auto. apply filter_In. split.
    + apply mem_in. apply CV. unfold slice in X. apply In_firstn in X. apply In_skipn in X. auto.
    + apply inside_slice; auto. rewrite N2Nat.id. auto.
Qed.
Lemma nth_step : forall c i, i < length S -> occ S c (i + 1) = occ S c i + (if N.eqb c (nth i S 0%N) then 1 else 0).
Proof.
  intros c i I. rewrite Nat.add_1_r. pose proof (cnt_S (N.eqb c) S i 0%N I) as E. unfold cnt in E. unfold occ. rewrite E. auto.
Qed.
Lemma slice1 : forall i, i < length S -> slice S i (i + 1) = [nth i S 0%N].
Proof.
  intros i I. unfold slice. replace (i + 1 - i) with 1 by lia. pose proof (skipn_length i S) as L. destruct (skipn i S) as [|x q] eqn:E. { cbn in L. lia. }
  cbn [firstn]. f_equal. rewrite <- (firstn_skipn i S), E. rewrite app_nth2; rewrite firstn_length, Nat.min_l by lia; [|lia]. rewrite Nat.sub_diag. auto.
Qed.
Lemma slice2 : forall i, i + 1 < length S -> slice S i (i + 2) = [nth i S 0%N; nth (i + 1) S 0%N].
Proof.
  intros i I. pose proof (slice1 i ltac:(lia)) as E1. pose proof (slice1 (i + 1) ltac:(lia)) as E2. unfold slice in *. replace (i + 2 - i) with 2 by lia. replace (i + 1 - i) with 1 in * by lia. replace (i + 1 + 1 - (i + 1)) with 1 in * by lia.
  replace (skipn (i + 1) S) with (skipn 1 (skipn i S)) in E2. 2: { clear. rewrite Nat.add_1_r. revert S. induction i; intros [|x S']; auto. cbn [skipn]. apply IHi. }
  destruct (skipn i S) as [|x q]; [discriminate|]. cbn in E1. injection E1 as ->. cbn [skipn] in E2. destruct q as [|y q]; [discriminate|]. cbn in E2. injection E2 as ->. auto.
Qed.

Theorem interval_symbols_ok : forall lex i j, i <= j -> j <= length S -> (lex = true -> StronglySorted lt (leaves t)) ->
  exists r, wp_interval_symbols lex w i j = Some r /\ NoDup (map (fun z => fst (fst z)) r) /\ (lex = true -> StronglySorted N.lt (map (fun z => fst (fst z)) r)) /\
    (forall c a b, In (c, a, b) r <-> In c (slice S i j) /\ a = occ S c i /\ b = occ S c j).
Proof.
  intros lex i j I J SO. unfold wp_interval_symbols. destruct (Nat.eqb_spec i j) as [Z|Z].
  { subst j. exists []. split; auto. split; [constructor|]. split; [constructor|]. intros. unfold slice. rewrite Nat.sub_diag. cbn. tauto. }
  assert (GEN : exists r, Some (ents t i j) = Some r /\ NoDup (map (fun z => fst (fst z)) r) /\ (lex = true -> StronglySorted N.lt (map (fun z => fst (fst z)) r)) /\
    (forall c a b, In (c, a, b) r <-> In c (slice S i j) /\ a = occ S c i /\ b = occ S c j)).
  { exists (ents t i j). split; auto. assert (E : map (fun z => fst (fst z)) (ents t i j) = map N.of_nat (filter (inside (sq t) i j) (leaves t))). { unfold ents. rewrite map_map. apply map_ext. auto. } rewrite E.
    split. { apply FinFun.Injective_map_NoDup. { intros x y. apply Nat2N.inj. } apply NoDup_filter. auto. }
    split. { intros L. apply SO in L. clear - L. induction L as [|a l L IH F]; cbn [filter]; [constructor|]. destruct (inside (sq t) i j a); auto. cbn [map]. constructor; auto. apply Forall_forall. intros x X. apply in_map_iff in X. destruct X as (y & <- & Y). apply filter_In in Y. rewrite Forall_forall in F. pose proof (F y (proj1 Y)). lia. }
    apply entry_in; auto. }
  rewrite WS. destruct (Nat.eqb_spec (length (leaves t)) 1) as [Z1|Z1].
  { destruct (one_leaf t Z1) as [s E]. destruct (node_ex t w pth LA 0 [] (la_0 _ _ _ LA)) as [d D]. unfold leaf_sym. rewrite D. cbn [obind].
    destruct (la_leaf _ _ _ LA 0 [] s d (la_0 _ _ _ LA)) as [_ R]; auto. { rewrite E. auto. } rewrite R. rewrite WN, !Nat.min_l by lia. rewrite <- (leaf_ents s i j). { rewrite <- E. auto. } lia. rewrite <- E, (sq_all S t) by auto. auto. }
  rewrite (csub_some j i (j - i)) by lia. cbn [obind]. destruct (Nat.eqb_spec (j - i) 1) as [Z2|Z2].
  { rewrite (inverse_select_ok S t w pth ND CV LA FI i) by lia. cbn [obind fst snd]. eexists. split; eauto. split. { repeat constructor. intros []. } split. { intros _. repeat constructor. }
    assert (j = i + 1) by lia. subst j. rewrite slice1 by lia. intros c a b. cbn [In]. rewrite nth_step by lia. split.
    - intros [E|[]]. injection E as <- <- <-. rewrite N.eqb_refl. auto.
    - intros ([<- | []] & -> & ->). rewrite N.eqb_refl. auto. }
  destruct (Nat.eqb_spec (j - i) 2) as [Z3|Z3].
  { rewrite (inverse_select_ok S t w pth ND CV LA FI i) by lia. cbn [obind fst snd]. rewrite (inverse_select_ok S t w pth ND CV LA FI (i + 1)) by lia. cbn [obind fst snd].
    assert (j = i + 2) by lia. subst j. rewrite slice2 by lia. assert (O2 : forall c, occ S c (i + 2) = occ S c i + (if N.eqb c (nth i S 0%N) then 1 else 0) + (if N.eqb c (nth (i + 1) S 0%N) then 1 else 0)).
    { intros c. replace (i + 2) with (i + 1 + 1) by lia. rewrite nth_step, nth_step by lia. auto. }
    pose proof (nth_step (nth (i + 1) S 0%N) i ltac:(lia)) as O1.
    set (x := nth i S 0%N) in *. set (y := nth (i + 1) S 0%N) in *. destruct (N.eqb_spec x y) as [Y|Y].
    - eexists. split; eauto. split. { repeat constructor. intros []. } split. { intros _. repeat constructor. } intros c a b. cbn [In]. rewrite O2. rewrite <- Y. split.
      + intros [E|[]]. injection E as <- <- <-. rewrite N.eqb_refl. split; auto. split; auto. lia.
      + intros ([<- | [<- | []]] & -> & ->); rewrite N.eqb_refl; left; f_equal; lia.
    - destruct (N.eqb_spec y x) as [Y'|_]; [congruence|]. rewrite Nat.add_0_r in O1.
      assert (ANY : forall c a b, (c, a, b) = (x, occ S x i, occ S x i + 1) \/ (c, a, b) = (y, occ S y (i + 1), occ S y (i + 1) + 1) <-> (x = c \/ y = c \/ False) /\ a = occ S c i /\ b = occ S c (i + 2)).
      { intros c a b. rewrite O2, O1. split.
        - intros [E|E]; injection E as -> -> ->; rewrite N.eqb_refl. { destruct (N.eqb_spec x y); [congruence|]. repeat split; auto; lia. } destruct (N.eqb_spec y x); [congruence|]. repeat split; auto; lia.
        - intros ([<- | [<- | []]] & -> & ->); rewrite N.eqb_refl; [left|right]. { destruct (N.eqb_spec x y); [congruence|]. f_equal; lia. } destruct (N.eqb_spec y x); [congruence|]. f_equal; lia. }
      destruct (lex && (y <? x)%N) eqn:SW.
      + eexists. split; eauto. cbn [map fst snd]. apply andb_true_iff in SW. destruct SW as [_ SW]. apply N.ltb_lt in SW. split. { repeat constructor; cbn; intuition. } split. { intros _. repeat constructor; auto. }
        intros c a b. cbn [In]. rewrite <- ANY. split; [intros [E|[E|[]]]|intros [E|E]]; auto.
      + eexists. split; eauto. cbn [map fst snd]. split. { repeat constructor; cbn; intuition. } split. { intros ->. cbn in SW. apply N.ltb_ge in SW. repeat constructor. lia. }
        intros c a b. cbn [In]. rewrite <- ANY. split; [intros [E|[E|[]]]|intros [E|E]]; auto. }
  rewrite (is_loop_ok t (Datatypes.S (length (w_ns w))) [] 0 i j); auto. { apply (la_0 _ _ _ LA). } { destruct t as [s|l r]; eauto. cbn in Z1. lia. } { rewrite (la_size _ _ _ LA). pose proof (depth_size t). lia. } rewrite (sq_all S t) by auto. auto.
Qed.
End Q2.
