(** * Character counts, the Huffman shape and the balanced shape *)
From Coq Require Import NArith List Arith Bool Lia Permutation Sorting.Sorted.
From Verif Require Import Base SpecBits RankSelect AbsVec WtBase SpecWt WtProofs WtPc WtPcProofs WtPcQ WtPcLex WtPcLay WtPcBuild.
Import ListNotations.

(** ** Counting *)
Definition count (T : list N) (s : nat) : nat := length (filter (N.eqb (N.of_nat s)) T).
Lemma nth_ext0 : forall (C : list nat) k s, nth s (C ++ repeat 0 k) 0 = nth s C 0.
Proof. intros. destruct (Nat.lt_ge_cases s (length C)) as [H|H]. { apply app_nth1. auto. } rewrite app_nth2, nth_repeat, nth_overflow by auto. auto. Qed.
Lemma occ_loop_ok : forall T C, exists C', occ_loop C T = Some C' /\ forall s, nth s C' 0 = nth s C 0 + count T s.
Proof.
  induction T as [|c T IH]; intros C; cbn [occ_loop]. { exists C. split; auto. }
  set (c' := N.to_nat c). set (D := if length C <=? c' then C ++ repeat 0 (c' + 1 - length C) else C).
  assert (DL : c' < length D). { unfold D. destruct (Nat.leb_spec (length C) c'); auto. rewrite app_length, repeat_length. lia. }
  assert (DN : forall s, nth s D 0 = nth s C 0). { intros. unfold D. destruct (length C <=? c'); auto. apply nth_ext0. }
  rewrite (nth_error_nth' D 0 DL). cbn [obind]. rewrite aset_some by auto. cbn [obind]. destruct (IH (upd D c' (nth c' D 0 + 1))) as (C' & -> & H). exists C'. split; auto.
  intros s. rewrite H, nth_upd, DN. unfold count. cbn [filter]. destruct (Nat.eqb_spec s c') as [-> | Z].
  - destruct (Nat.ltb_spec c' (length D)); [|lia]. cbn [andb]. unfold c' at 4. rewrite N2Nat.id, N.eqb_refl. cbn [length]. lia.
  - cbn [andb]. rewrite ?DN. destruct (N.eqb_spec (N.of_nat s) c); [|lia]. subst c. unfold c' in Z. lia.
Qed.
Lemma symbols_in : forall C c s, In s (symbols_of C c) <-> c <= s /\ 0 < nth (s - c) C 0.
Proof.
  induction C as [|f C IH]; intros c s; cbn [symbols_of]. { split; [intros []|]. intros [_ H]. destruct (s - c); cbn in H; lia. }
  assert (X : In s (symbols_of C (S c)) <-> S c <= s /\ 0 < nth (s - c) (f :: C) 0). { rewrite IH. split; intros [A B]; (split; [auto|]); replace (s - c) with (S (s - S c)) in * by lia; auto. }
  destruct (Nat.ltb_spec 0 f) as [F|F].
  - cbn [In]. rewrite X. split. { intros [-> |[A B]]; [|split; [lia|auto]]. split; auto. rewrite Nat.sub_diag. auto. } intros [A B]. destruct (Nat.eq_dec c s); auto. right. split; auto. lia.
  - rewrite X. split; intros [A B]; (split; [|auto]). { lia. } destruct (Nat.eq_dec c s) as [-> |]; [|lia]. rewrite Nat.sub_diag in B. cbn in B. lia.
Qed.
Lemma symbols_sorted : forall C c, StronglySorted lt (symbols_of C c).
Proof.
  induction C as [|f C IH]; intros c; cbn [symbols_of]. { constructor. } destruct (0 <? f); auto. constructor; auto. apply Forall_forall. intros x X. apply symbols_in in X. lia.
Qed.
Lemma symbols_sigma : forall C c, length (symbols_of C c) = eff_sigma C.
Proof. induction C as [|f C IH]; intros c; auto. unfold eff_sigma. cbn [symbols_of filter]. destruct (0 <? f); cbn [length]; rewrite IH; auto. Qed.

(** ** Weights *)
Lemma skip_add : forall {A} a b (l : list A), skipn (a + b) l = skipn b (skipn a l).
Proof. induction a as [|a IH]; intros b [|x l]; cbn [Nat.add skipn]; auto. rewrite skipn_nil. auto. Qed.
Section W.
Variable T : list N.
Notation wt := (wts T).
Lemma wt_leaf : forall s, wt (CL s) = count T s.
Proof. intros. unfold wts, count. f_equal. apply filter_ext. intros x. rewrite <- (Nat2N.id s) at 1. apply mem_leaf. Qed.
Lemma wt_node : forall l r, NoDup (leaves l ++ leaves r) -> wt (CN l r) = wt l + wt r.
Proof.
  intros l r D. unfold wts. induction T as [|x X IH]; auto. cbn [filter]. rewrite mem_CN. destruct (mem l x) eqn:L, (mem r x) eqn:R; cbn [orb length]; try lia.
  exfalso. apply mem_in in L. apply mem_in in R. eapply nodup_app; eauto.
Qed.

(** ** Huffman *)
Definition entry_ok (tn : list pcn) (e : nat * nat) (u : ct) : Prop := fst e = wt u /\ rep wt tn u (snd e).
Fixpoint fl (us : list ct) : list nat := match us with [] => [] | u :: us' => leaves u ++ fl us' end.
Fixpoint fs (us : list ct) : nat := match us with [] => 0 | u :: us' => csize u + fs us' end.
Lemma fl_perm : forall a b, Permutation a b -> Permutation (fl a) (fl b).
Proof. induction 1; cbn [fl]; auto. { apply Permutation_app_head. auto. } { rewrite !app_assoc. apply Permutation_app_tail. apply Permutation_app_comm. } etransitivity; eauto. Qed.
Lemma fs_perm : forall a b, Permutation a b -> fs a = fs b.
Proof. induction 1; cbn [fs]; lia. Qed.
Lemma push_ok : forall (R : nat * nat -> ct -> Prop) q us a u, Forall2 R q us -> R a u -> exists us', Forall2 R (pq_push a q) us' /\ Permutation us' (u :: us).
Proof.
  induction 1 as [|b x q us B F IH]; intros RA; cbn [pq_push]. { exists [u]. split; auto. }
  destruct (pair_le a b). { exists (u :: x :: us). split; auto. } destruct (IH RA) as (us' & F' & P). exists (x :: us'). split; auto. etransitivity; [apply perm_skip; apply P|]. apply perm_swap.
Qed.
Lemma push_in : forall a q, Permutation (pq_push a q) (a :: q).
Proof. induction q as [|b q IH]; cbn [pq_push]; auto. destruct (pair_le a b); auto. etransitivity; [apply perm_skip; apply IH|]. apply perm_swap. Qed.
Lemma rep_app : forall tn x u i, rep wt tn u i -> rep wt (tn ++ x) u i.
Proof. intros tn x u i. apply rep_mono. intros j v V. exists v. split; auto. apply nth_app_l. auto. Qed.
Lemma entry_app : forall tn x q us, Forall2 (entry_ok tn) q us -> Forall2 (entry_ok (tn ++ x)) q us.
Proof. induction 1 as [|b u q us B F IH]; constructor; auto. destruct B. split; auto. apply rep_app. auto. Qed.
Lemma rep_lt : forall tn u i, rep wt tn u i -> i < length tn.
Proof. intros tn u i R. apply nth_error_Some. destruct u; destruct R as (v & V & _); congruence. Qed.

Lemma huff_leaves_ok : forall C i pq tn us, Forall2 (entry_ok tn) pq us -> (forall k, k < length C -> nth k C 0 = count T (i + k)) -> fs us = length tn -> (tn <> [] -> In (length tn - 1) (map snd pq)) ->
  exists us', Forall2 (entry_ok (snd (huff_leaves C i pq tn))) (fst (huff_leaves C i pq tn)) us' /\ Permutation (fl us') (fl us ++ symbols_of C i) /\ fs us' = length (snd (huff_leaves C i pq tn)) /\
    (snd (huff_leaves C i pq tn) <> [] -> In (length (snd (huff_leaves C i pq tn)) - 1) (map snd (fst (huff_leaves C i pq tn)))) /\ length (fst (huff_leaves C i pq tn)) = length pq + length (symbols_of C i).
Proof.
  induction C as [|f C IH]; intros i pq tn us F CN' SZ LI; cbn [huff_leaves symbols_of fst snd]. { exists us. rewrite app_nil_r. repeat split; auto. }
  pose proof (CN' 0 ltac:(cbn; lia)) as F0. rewrite Nat.add_0_r in F0. cbn [nth] in F0.
  assert (CC : forall k, k < length C -> nth k C 0 = count T (S i + k)). { intros k K. specialize (CN' (S k) ltac:(cbn; lia)). cbn [nth] in CN'. rewrite CN'. f_equal. lia. }
  destruct (0 <? f).
  - destruct (push_ok (entry_ok (tn ++ [mkpcn f i None None None])) pq us (f, length tn) (CL i)) as (us1 & F1 & P1). { apply entry_app; auto. }
    { split; cbn [fst snd]. { rewrite wt_leaf. auto. } eexists. split. { rewrite nth_error_app2, Nat.sub_diag by auto. reflexivity. } cbn [p_freq p_c0 p_sym]. rewrite wt_leaf. auto. }
    destruct (IH (S i) _ _ us1 F1 CC) as (us' & A & B & C' & D & E).
    { rewrite (fs_perm _ _ P1), app_length. cbn [fs csize length]. lia. }
    { intros _. rewrite app_length. cbn [length]. replace (length tn + 1 - 1) with (length tn) by lia. eapply Permutation_in. { apply Permutation_map. apply Permutation_sym. apply push_in. } left. auto. }
    exists us'. split; auto. split. { etransitivity; [apply B|]. etransitivity; [apply Permutation_app_tail; apply (fl_perm _ _ P1)|]. cbn [fl leaves app]. apply Permutation_middle. } split; auto. split; auto. rewrite E. rewrite (Permutation_length (push_in (f, length tn) pq)). cbn [length]. lia.
  - apply IH; auto.
Qed.
Lemma set_par_ok : forall tn i p, i < length tn -> exists tn', set_par tn i p = Some tn' /\ length tn' = length tn /\ forall u j, rep wt tn u j -> rep wt tn' u j.
Proof.
  intros tn i p I. unfold set_par. destruct (nth_error tn i) as [v|] eqn:V. 2: { apply nth_error_None in V. lia. } cbn [obind]. rewrite aset_some by auto. eexists. split; eauto. split. { apply upd_length. }
  intros u j. apply rep_mono. intros k w W. destruct (Nat.eq_dec k i) as [-> | Z].
  - rewrite nth_error_upd_eq by auto. eexists. split; eauto. rewrite V in W. injection W as <-. auto.
  - rewrite nth_error_upd_neq by auto. exists w. auto.
Qed.
Lemma huff_loop_ok : forall fuel pq tn us, Forall2 (entry_ok tn) pq us -> NoDup (fl us) -> fs us = length tn -> In (length tn - 1) (map snd pq) -> length pq < fuel -> 0 < length pq ->
  exists tn' t, huff_loop fuel pq tn = Some tn' /\ rep wt tn' t (length tn' - 1) /\ Permutation (leaves t) (fl us) /\ length tn' = csize t.
Proof.
  induction fuel as [|fuel IH]; intros pq tn us F D SZ LI FU NE; [lia|]. cbn [huff_loop]. destruct F as [|v1 u1 q1 us1 E1 F1]; [cbn in NE; lia|]. destruct F1 as [|v2 u2 pq us E2 F].
  - exists tn, u1. split; auto. cbn [map In] in LI. destruct LI as [LI|[]]. split. { rewrite <- LI. apply E1. } cbn [fl fs] in *. rewrite app_nil_r. split; auto. lia.
  - set (m := length tn). destruct E1 as [W1 R1]. destruct E2 as [W2 R2].
    destruct (set_par_ok tn (snd v1) m (rep_lt _ _ _ R1)) as (tn1 & -> & L1 & M1). cbn [obind].
    destruct (set_par_ok tn1 (snd v2) m) as (tn2 & -> & L2 & M2). { rewrite L1. eapply rep_lt; eauto. } cbn [obind].
    set (nd := mkpcn (fst v1 + fst v2) 0 None (Some (snd v1)) (Some (snd v2))). assert (LM : length tn2 = m) by (unfold m; lia).
    cbn [fl] in D. rewrite app_assoc in D. pose proof (proj1 (nd_app _ _ D)) as D12.
    assert (WN : fst v1 + fst v2 = wt (CN u1 u2)) by (rewrite wt_node by auto; lia).
    assert (RN : rep wt (tn2 ++ [nd]) (CN u1 u2) m). { exists nd. split. { rewrite nth_error_app2 by lia. rewrite LM, Nat.sub_diag. auto. } split; auto. exists (snd v1), (snd v2). split; auto. split; auto. split; apply rep_app; apply M2; apply M1; auto. }
    assert (F' : Forall2 (entry_ok (tn2 ++ [nd])) pq us). { clear - F M1 M2. induction F as [|b u q us B F IH]; constructor; auto. destruct B. split; auto. apply rep_app. apply M2, M1. auto. }
    destruct (push_ok (entry_ok (tn2 ++ [nd])) pq us (fst v1 + fst v2, m) (CN u1 u2) F') as (us' & F2 & P2). { split; auto. }
    assert (PL : length (pq_push (fst v1 + fst v2, m) pq) = S (length pq)) by (rewrite (Permutation_length (push_in _ _)); auto).
    pose proof (fl_perm _ _ P2) as PF. cbn [fl leaves] in PF.
    destruct (IH (pq_push (fst v1 + fst v2, m) pq) (tn2 ++ [nd]) us' F2) as (tn' & t & A & B & C & E).
    { eapply Permutation_NoDup; [apply Permutation_sym; apply PF|]. auto. }
    { rewrite (fs_perm _ _ P2), app_length. cbn [fs csize length] in *. lia. }
    { rewrite app_length. cbn [length]. rewrite LM. replace (m + 1 - 1) with m by lia. eapply Permutation_in. { apply Permutation_map. apply Permutation_sym. apply push_in. } left. auto. }
    { rewrite PL. cbn in FU. lia. } { rewrite PL. lia. }
    exists tn', t. split; auto. split; auto. split; auto. etransitivity; [apply C|]. cbn [fl]. rewrite app_assoc. auto.
Qed.
Lemma nd_sym : forall C c, NoDup (symbols_of C c). Proof. intros. apply ss_nodup. apply symbols_sorted. Qed.
Theorem huff_ok : forall C, (forall s, nth s C 0 = count T s) -> symbols_of C 0 <> [] -> exists tn t, huff_tree C = Some tn /\ rep wt tn t (length tn - 1) /\ length tn = csize t /\ Permutation (leaves t) (symbols_of C 0).
Proof.
  intros C CN' NE. unfold huff_tree. destruct (huff_leaves_ok C 0 [] [] []) as (us & F & P & SZ & LI & LN); auto. { intros []; auto. }
  destruct (huff_leaves C 0 [] []) as [pq tn]. cbn [fst snd fl app length] in *.
  assert (0 < length pq). { destruct (symbols_of C 0); [congruence|]. cbn in LN. lia. }
  destruct (huff_loop_ok (S (length pq)) pq tn us F) as (tn' & t & A & B & D & E); auto.
  - eapply Permutation_NoDup; [apply Permutation_sym; apply P|]. apply nd_sym.
  - apply LI. intros ->. destruct F; cbn in *; [lia|]. destruct y; cbn in SZ; lia.
  - exists tn', t. split; auto. split; auto. split; auto. etransitivity; eauto.
Qed.

(** ** Balanced *)
Lemma bal_ok : forall fuel par sy lb sg C tn, (forall s, nth s C 0 = count T s) -> NoDup sy -> (forall s, In s sy -> s < length C) -> 1 <= sg -> lb + sg <= length sy -> sg <= fuel ->
  exists u root rest, bal_rec fuel par sy lb sg C tn = Some (wt u, length tn, tn ++ root :: rest) /\ leaves u = firstn sg (skipn lb sy) /\ length (root :: rest) = csize u /\
    p_par root = par /\ (forall v, In v rest -> p_par v <> None) /\ (forall v, In v (root :: rest) -> (forall a, p_c0 v = Some a -> 1 <= a) /\ (forall a, p_c1 v = Some a -> 1 <= a)) /\
    (forall pre, length pre = length tn -> rep wt (pre ++ root :: rest) u (length tn)) /\ (forall d, sg <= 2 ^ d -> depth u <= d).
Proof.
  induction fuel as [|fuel IH]; intros par sy lb sg C tn CN' ND LT S1 LB FU; [lia|]. cbn [bal_rec]. destruct (Nat.eqb_spec sg 1) as [-> | Z].
  - assert (LL : lb < length sy) by lia. rewrite (nth_error_nth' sy 0 LL). cbn [obind]. set (s := nth lb sy 0). assert (IS : In s sy) by (apply nth_In; auto). rewrite (nth_error_nth' C 0 (LT s IS)). cbn [obind]. rewrite CN'.
    exists (CL s), (mkpcn (count T s) s par None None), []. rewrite wt_leaf. split; auto. split. { cbn [leaves]. rewrite (skipn_cons _ sy lb s) by (apply nth_error_nth'; auto). auto. }
    split; auto. split; auto. split. { intros v []. } split. { intros v [<- | []]. cbn. split; discriminate. } split. 2: { intros. cbn. lia. }
    intros pre PL. eexists. split. { rewrite nth_error_app2 by lia. rewrite PL, Nat.sub_diag. reflexivity. } cbn [p_freq p_c0 p_sym]. rewrite wt_leaf. auto.
  - set (ls := (sg + 1) / 2). assert (LS : 1 <= ls /\ ls < sg /\ sg <= 2 * ls /\ 2 * ls <= sg + 1). { unfold ls. pose proof (Nat.div_mod (sg + 1) 2 ltac:(lia)). pose proof (Nat.mod_upper_bound (sg + 1) 2 ltac:(lia)). lia. }
    clearbody ls. destruct LS as (LS1 & LS2 & LS3 & LS4).
    set (ph := mkpcn 0 0 par None None). set (id := length tn).
    destruct (IH (Some id) sy lb ls C (tn ++ [ph]) CN' ND LT) as (ul & rl & rsl & -> & LV & LN & PR & PRS & CH & RP & DP); try lia. cbn [obind].
    rewrite (csub_some sg ls (sg - ls)) by lia. cbn [obind].
    destruct (IH (Some id) sy (lb + ls) (sg - ls) C ((tn ++ [ph]) ++ rl :: rsl) CN' ND LT) as (ur & rr & rsr & -> & LV' & LN' & PR' & PRS' & CH' & RP' & DP'); try lia. cbn [obind].
    assert (NID : nth_error (((tn ++ [ph]) ++ rl :: rsl) ++ rr :: rsr) id = Some ph). { rewrite <- !app_assoc. rewrite nth_error_app2 by (unfold id; lia). unfold id. rewrite Nat.sub_diag. auto. }
    rewrite NID. cbn [obind]. rewrite aset_some by (apply nth_error_Some; congruence). cbn [obind].
    assert (L1 : length (tn ++ [ph]) = id + 1) by (rewrite app_length; auto). assert (L2 : length ((tn ++ [ph]) ++ rl :: rsl) = id + 1 + csize ul) by (rewrite app_length; lia).
    assert (LEAF : leaves (CN ul ur) = firstn sg (skipn lb sy)). { cbn [leaves]. rewrite LV, LV'. clear - LB LS2. rewrite skip_add.
      rewrite <- (firstn_skipn ls (firstn sg (skipn lb sy))). rewrite firstn_firstn, Nat.min_l by lia. f_equal. rewrite skipn_firstn_comm. auto. }
    assert (ND2 : NoDup (leaves ul ++ leaves ur)). { change (NoDup (leaves (CN ul ur))). rewrite LEAF. rewrite <- (firstn_skipn lb sy) in ND. apply nd_app in ND. destruct ND as [_ ND]. rewrite <- (firstn_skipn sg (skipn lb sy)) in ND. apply nd_app in ND. tauto. }
    set (root := mkpcn (wt ul + wt ur) (p_sym ph) (p_par ph) (Some (length (tn ++ [ph]))) (Some (length ((tn ++ [ph]) ++ rl :: rsl)))).
    assert (UP : upd (((tn ++ [ph]) ++ rl :: rsl) ++ rr :: rsr) id root = tn ++ root :: (rl :: rsl) ++ rr :: rsr). { rewrite <- !app_assoc. rewrite upd_app_r by (unfold id; lia). unfold id. rewrite Nat.sub_diag. cbn [app upd]. auto. }
    rewrite UP. exists (CN ul ur), root, ((rl :: rsl) ++ rr :: rsr). rewrite wt_node by auto. split; auto. split; auto. split. { cbn [length csize]. rewrite app_length, LN, LN'. auto. }
    split; auto. split. { intros v V. apply in_app_or in V. destruct V as [[<- |V]|[<- |V]]; try congruence; auto. }
    split. { intros v [<- | V]. { unfold root. cbn [p_c0 p_c1]. rewrite L1, L2. split; intros a E; injection E as <-; lia. } apply in_app_or in V. destruct V; auto. }
    split.
    + intros pre PL. exists root. split. { rewrite nth_error_app2 by (fold id in PL; lia). rewrite PL. unfold id. rewrite Nat.sub_diag. auto. } split. { cbn [root p_freq]. rewrite wt_node; auto. }
      exists (length (tn ++ [ph])), (length ((tn ++ [ph]) ++ rl :: rsl)). split; auto. split; auto. split.
      * replace (pre ++ root :: (rl :: rsl) ++ rr :: rsr) with (((pre ++ [root]) ++ rl :: rsl) ++ rr :: rsr) by (rewrite <- !app_assoc; auto). apply rep_app. apply RP. rewrite !app_length. cbn. lia.
      * replace (pre ++ root :: (rl :: rsl) ++ rr :: rsr) with ((pre ++ [root] ++ rl :: rsl) ++ rr :: rsr) by (rewrite <- !app_assoc; auto). apply RP'. rewrite !app_length. cbn. lia.
    + intros [|d] D; cbn in D; [lia|]. cbn [depth]. specialize (DP d ltac:(lia)). specialize (DP' d ltac:(lia)). lia.
Qed.
Definition shift (v : pcn) (par : option nat) : pcn := mkpcn (p_freq v) (p_sym v) par (dec1 (p_c0 v)) (dec1 (p_c1 v)).
Lemma rot_ok : forall m l, (forall v, In v l -> p_par v <> None) -> exists l', rot_rest m l = Some l' /\ length l' = length l /\ forall i v, nth_error l i = Some v -> exists par, nth_error l' i = Some (shift v par).
Proof.
  induction l as [|v l IH]; intros H; cbn [rot_rest]. { exists []. split; auto. split; auto. intros []; discriminate. }
  pose proof (H v (or_introl eq_refl)) as HV. destruct (p_par v) as [p|]; [|congruence]. cbn [obind]. destruct IH as (l' & -> & LL & L). { intros x X. apply H. right; auto. } cbn [obind]. eexists. split; eauto. split. { cbn. lia. }
  intros [|i] w W; cbn [nth_error] in *; eauto. injection W as <-. eexists. reflexivity.
Qed.
Lemma rep_rot : forall u tn rot i, (forall v, In v tn -> (forall a, p_c0 v = Some a -> 1 <= a) /\ (forall a, p_c1 v = Some a -> 1 <= a)) ->
  (forall j v, 1 <= j -> nth_error tn j = Some v -> exists par, nth_error rot (j - 1) = Some (shift v par)) -> 1 <= i -> rep wt tn u i -> rep wt rot u (i - 1).
Proof.
  induction u as [s|l IHl r IHr]; intros tn rot i CH RO I (v & V & F & M); destruct (RO i v I V) as [par P]; eexists; (split; [exact P|]); (split; [exact F|]).
  - destruct M as [C0 SY]. cbn [shift p_c0 p_sym]. rewrite C0. auto.
  - destruct M as (a & b & C0 & C1 & RA & RB). cbn [shift p_c0 p_c1]. rewrite C0, C1. exists (a - 1), (b - 1). split; auto. split; auto. destruct (CH v (nth_error_In _ _ V)) as [HA HB]. split; [eapply IHl | eapply IHr]; eauto.
Qed.
Theorem balanced_ok : forall C, (forall s, nth s C 0 = count T s) -> symbols_of C 0 <> [] ->
  exists tn t, bal_tree C = Some tn /\ rep wt tn t (length tn - 1) /\ length tn = csize t /\ leaves t = symbols_of C 0 /\ (forall d, length (symbols_of C 0) <= 2 ^ d -> depth t <= d).
Proof.
  intros C CN' NE. unfold bal_tree. set (sy := symbols_of C 0) in *. assert (0 < length sy) by (destruct sy; [congruence|cbn; lia]). destruct (Nat.ltb_spec 0 (length sy)); [|lia].
  destruct (bal_ok (S (length sy)) None sy 0 (length sy) C []) as (u & root & rest & -> & LV & LN & PR & PRS & CH & RP & DP); auto; try lia.
  { apply nd_sym. } { intros s I. apply symbols_in in I. destruct I as [_ I]. rewrite Nat.sub_0_r in I. destruct (Nat.lt_ge_cases s (length C)); auto. rewrite nth_overflow in I by auto. lia. }
  cbn [obind snd app]. destruct (rot_ok (length (root :: rest)) rest PRS) as (r & -> & RL & RN). cbn [obind]. set (rt := mkpcn _ _ _ _ _). exists (r ++ [rt]), u. split; auto.
  cbn [skipn] in LV. rewrite firstn_all in LV. cbn [length] in LN.
  assert (LEN : length (r ++ [rt]) = csize u) by (rewrite app_length; cbn; lia). split; [|split; [|split]]; auto.
  assert (RO : forall j v, 1 <= j -> nth_error (root :: rest) j = Some v -> exists par, nth_error (r ++ [rt]) (j - 1) = Some (shift v par)).
  { intros [|j] v J V; [lia|]. cbn [nth_error] in V. destruct (RN j v V) as [par P]. exists par. replace (S j - 1) with j by lia. apply nth_app_l. auto. }
  replace (length (r ++ [rt]) - 1) with (length r) by (rewrite app_length; cbn; lia).
  pose proof (RP [] eq_refl) as R0. cbn [app length] in R0. assert (NL : nth_error (r ++ [rt]) (length r) = Some rt) by (rewrite nth_error_app2, Nat.sub_diag by auto; auto).
  destruct u as [s|l r'].
  - destruct R0 as (v & V & F & C0 & SY). cbn in V. injection V as <-. exists rt. split; auto. split; auto. cbn [rt p_c0 p_sym]. rewrite C0. auto.
  - destruct R0 as (v & V & F & a & b & C0 & C1 & RA & RB). cbn in V. injection V as <-. exists rt. split; auto. split; auto. exists (a - 1), (b - 1). cbn [rt p_c0 p_c1]. rewrite C0, C1. split; auto. split; auto.
    destruct (CH root (or_introl eq_refl)) as [HA HB]. split; (eapply rep_rot; [exact CH|exact RO| |]; auto).
Qed.
End W.
