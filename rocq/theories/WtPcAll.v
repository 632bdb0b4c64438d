(** * The constructor of wt_pc and all queries *)
From Coq Require Import NArith List Arith Bool Lia Permutation Sorting.Sorted.
From Verif Require Import Base SpecBits RankSelect AbsVec WtBase SpecWt WtProofs WtPc WtPcProofs WtPcQ WtPcLex WtPcLay WtPcBuild WtPcShape.
Import ListNotations.

Definition in_dom (byte : bool) (c : N) : Prop := byte = true -> (c < 256)%N.
Lemma depth_leaves : forall t, depth t < length (leaves t).
Proof. induction t; cbn [depth leaves length]; [lia|]. rewrite app_length. assert (forall u, 0 < length (leaves u)). { induction u; cbn [leaves length]; [lia|]. rewrite app_length. lia. } pose proof (H t1). pose proof (H t2). lia. Qed.
Lemma leaves_ne : forall t, exists s, In s (leaves t).
Proof. induction t as [s|l [s IH] r _]. { exists s. left. auto. } exists s. cbn [leaves]. apply in_or_app. auto. Qed.
Lemma shr_small : forall m, (m < 2 ^ 56)%N -> N.to_nat (shr m 56) = 0.
Proof. intros m H. unfold shr. rewrite N.shiftr_div_pow2. change (N.of_nat 56) with 56%N. rewrite N.div_small; auto. Qed.
Lemma wsub_pred : forall m, (N.of_nat m < 2 ^ 56)%N -> wsub (N.of_nat (m + 1)) 1 = N.of_nat m.
Proof. intros m H. rewrite wsub_small. { lia. } { lia. } { red. eapply N.lt_trans with (2 ^ 57)%N; [|reflexivity]. change (2 ^ 57)%N with (2 * 2 ^ 56)%N. assert (1 <= 2 ^ 56)%N by (apply N.leb_le; reflexivity). lia. } Qed.

Record good (T : list N) (w : wtpc) (t : ct) (pth : list (list bool)) : Prop := mk_good {
  g_nd : NoDup (leaves t);
  g_cv : forall x, In x T -> mem t x = true;
  g_la : laid t (w_ns w) pth;
  g_fi : filled T t (w_ns w) pth (w_bv w);
  g_wn : w_n w = length T;
  g_ws : w_sigma w = length (leaves t);
  g_code : forall c p, sub t p = Some (CL (N.to_nat c)) -> code_ok (w_byte w) (w_path w) c p /\ exists v, c_to_leaf (w_byte w) (w_cl w) c = Some (Some v) /\ nth_error pth v = Some p;
  g_abs : forall c, mem t c = false -> (w_byte w = true -> (c < 256)%N) -> c_to_leaf (w_byte w) (w_cl w) c = Some None;
  g_prev : (forall x, In x T -> (x < 2 ^ 56)%N) -> forall c, mem t c = false -> (w_byte w = true -> (c < 256)%N) -> exists x, bit_path (w_byte w) (w_path w) c = Some x /\ N.to_nat (shr x 56) = 0 /\
    (w_byte w = true -> (cast_sym (w_byte w) x < 256)%N) /\ let c' := cast_sym (w_byte w) x in
    ((c' < c)%N /\ mem t c' = true /\ (forall y, mem t y = true -> (y < c)%N -> (y <= c')%N)) \/ (c' = 0%N /\ forall y, mem t y = true -> (c < y)%N) }.

Lemma occ_count : forall T s, In (N.of_nat s) T <-> 0 < count T s.
Proof.
  intros T s. unfold count. split; intros H.
  - destruct (filter (N.eqb (N.of_nat s)) T) eqn:E; [|cbn; lia]. assert (X : In (N.of_nat s) (filter (N.eqb (N.of_nat s)) T)) by (apply filter_In; split; auto; apply N.eqb_refl). rewrite E in X. destruct X.
  - destruct (filter (N.eqb (N.of_nat s)) T) eqn:E; [cbn in H; lia|]. assert (X : In n (filter (N.eqb (N.of_nat s)) T)) by (rewrite E; left; auto). apply filter_In in X. destruct X as [X Y]. apply N.eqb_eq in Y. congruence.
Qed.
Lemma sym_set : forall T C, (forall s, nth s C 0 = count T s) -> forall s, In s (symbols_of C 0) <-> In (N.of_nat s) T.
Proof. intros T C H s. rewrite symbols_in, Nat.sub_0_r, H, <- occ_count. split; [tauto|]. intros; split; auto. lia. Qed.
Lemma sigma_distinct : forall T C, (forall s, nth s C 0 = count T s) -> length (symbols_of C 0) = distinct T.
Proof.
  intros T C H. unfold distinct. rewrite <- (map_length N.of_nat). apply Permutation_length. apply NoDup_Permutation.
  - apply FinFun.Injective_map_NoDup. { intros a b. apply Nat2N.inj. } apply nd_sym.
  - apply NoDup_nodup.
  - intros x. rewrite nodup_In, in_map_iff. split. { intros (s & <- & S). apply (sym_set T C H). auto. } intros X. exists (N.to_nat x). rewrite N2Nat.id. split; auto. apply (sym_set T C H). rewrite N2Nat.id. auto.
Qed.

Section Asm.
Variables (T : list N) (sh : shape) (byte : bool).
Hypothesis NE : T <> [].
Hypothesis DOM : forall x, In x T -> in_dom byte x.

Lemma shape_ok : forall C, (forall s, nth s C 0 = count T s) -> exists tn t, construct_shape sh C = Some tn /\ rep (wts T) tn t (length tn - 1) /\ length tn = csize t /\ Permutation (leaves t) (symbols_of C 0) /\
  (sh = Balanced -> StronglySorted lt (leaves t) /\ forall d, length (symbols_of C 0) <= 2 ^ d -> depth t <= d).
Proof.
  intros C H. assert (SN : symbols_of C 0 <> []). { destruct T as [|x T'] eqn:E; [congruence|]. assert (In (N.to_nat x) (symbols_of C 0)). { apply (sym_set T C). { rewrite E. auto. } rewrite N2Nat.id, E. left. auto. } intros Z. rewrite Z in *. destruct H0. }
  destruct sh; cbn [construct_shape].
  - destruct (huff_ok T C H SN) as (tn & t & A & B & D & E). exists tn, t. split; auto. split; auto. split; auto. split; auto. discriminate.
  - destruct (balanced_ok T C H SN) as (tn & t & A & B & D & E & F). exists tn, t. split; auto. split; auto. split; auto. split. { rewrite E. auto. } intros _. split; auto. rewrite E. apply symbols_sorted.
Qed.

Theorem make_ok : (wp_make sh byte false T = Some Throw /\ 57 < distinct T /\ (sh = Balanced -> ~ distinct T <= 2 ^ 56)) \/
  exists w t pth, wp_make sh byte false T = Some (Ok w) /\ w_byte w = byte /\ w_sigma w = distinct T /\ good T w t pth /\ (sh = Balanced -> StronglySorted lt (leaves t)).
Proof.
  unfold wp_make. destruct T as [|c0 T'] eqn:ET; [congruence|]. rewrite <- ET in *. pose proof NE as NT.
  destruct (occ_loop_ok T []) as (C & -> & HC). assert (HC' : forall s, nth s C 0 = count T s) by (intros s; rewrite HC; destruct s; auto). clear HC. cbn [obind].
  destruct (shape_ok C HC') as (tn & t & -> & RP & LN & PM & SSD). cbn [obind].
  assert (ND : NoDup (leaves t)) by (eapply Permutation_NoDup; [apply Permutation_sym; apply PM|apply nd_sym]).
  assert (LV : forall s, In s (leaves t) <-> In (N.of_nat s) T). { intros s. rewrite <- (sym_set T C HC'). split; apply Permutation_in; auto. apply Permutation_sym. auto. }
  assert (CV : forall x, In x T -> mem t x = true). { intros x X. apply mem_in. apply LV. rewrite N2Nat.id. auto. }
  assert (BY : byte = true -> forall x, In x (leaves t) -> x < 256). { intros B x X. apply LV in X. specialize (DOM _ X B). clear - DOM. lia. }
  assert (SG : length (leaves t) = distinct T). { rewrite (Permutation_length PM). apply sigma_distinct. auto. }
  destruct (lay_ok (wts T) t tn LN RP) as (ns & size & pth & -> & LY). cbn [obind]. pose proof (ly_laid _ _ _ _ _ LY) as LA.
  destruct (c_to_leaf_ok T t ns size pth byte ND LY BY) as (cl & -> & CLL & CL1 & CL2 & CL3). cbn [obind].
  assert (PA : forall p u, sub t p = Some u -> exists v, nth_error pth v = Some p) by (intros; eapply path_at; eauto).
  assert (CIN : forall s v, nth_error cl s = Some (Some v) -> In s (leaves t)). { intros s v V. destruct (in_dec Nat.eq_dec s (leaves t)) as [I|I]; auto. rewrite CL2 in V; auto; try discriminate. rewrite <- CLL. apply nth_error_Some. congruence. }
  assert (CP : forall s v, nth_error cl s = Some (Some v) -> exists p, nth_error pth v = Some p /\ sub t p = Some (CL s)).
  { intros s v V. pose proof (CIN s v V) as I. destruct (leaf_path t s I) as [p P]. destruct (PA _ _ P) as [v' V']. rewrite (CL1 v' s) in V by (exists p; auto). injection V as ->. exists p. auto. }
  destruct (path_loop_ok T t ns size pth byte CV LY BY cl 0 0) as [(path & -> & PL & P1 & P2)|(-> & v & p & I & V & L)].
  { intros v V. apply In_nth_error in V. destruct V as [s V]. destruct (CP s v V) as (p & P & _). eauto. }
  2: { left. cbn [obind]. split; auto. destruct (sub t p) as [u|] eqn:U. 2: { exfalso. eapply la_sub; eauto. } pose proof (sub_depth _ _ _ U) as D. pose proof (depth_leaves t) as DL. rewrite SG in DL. split. { clear - L D DL. lia. }
    intros B N. destruct (SSD B) as [_ Q]. rewrite (sigma_distinct T C HC') in Q. specialize (Q 56 N). clear - Q L D. lia. }
  cbn [obind]. right.
  assert (BP : forall c p, sub t p = Some (CL (N.to_nat c)) -> exists w, bit_path byte path c = Some w /\ packed w p).
  { intros c p S. destruct (PA _ _ S) as [v V]. assert (I : In (N.to_nat c) (leaves t)). { apply mem_in. eapply sub_mem; eauto. rewrite mem_leaf. apply N.eqb_refl. }
    destruct (P1 (N.to_nat c) v p) as (w & W & PK); auto. { apply CL1. exists p. auto. } exists w. split; auto. unfold bit_path. pose proof (CL3 _ I). rewrite PL, CLL. destruct (Nat.leb_spec (cl_len ns byte) (N.to_nat c)); [exfalso; clear - H H0; lia|]. rewrite andb_false_r. auto. }
  destruct (bits_ok T t ns size pth byte ND CV LY BY path BP NT) as (bv & ns' & TL & IR & LA' & FI). replace (nth 0 T 0%N) with c0 in TL by (rewrite ET; auto). rewrite TL. cbn [obind]. rewrite IR. cbn [obind].
  eexists. exists t, pth. split; [reflexivity|]. cbn [w_byte w_sigma]. split; auto. split. { rewrite <- (symbols_sigma C 0). apply sigma_distinct. auto. } split; [|intros B; apply SSD; auto].
  assert (LC : forall c, in_dom byte c -> negb byte = false -> N.to_nat c < cl_len ns byte). { intros c D B. destruct byte; [|discriminate]. unfold cl_len. specialize (D eq_refl). clear - D. lia. }
  split; cbn [w_byte w_ns w_bv w_n w_sigma w_path w_cl]; auto.
  - rewrite SG. rewrite <- (symbols_sigma C 0). apply sigma_distinct. auto.
  - intros c p S. destruct (BP c p S) as (w & W & PK). split. { exists w. split; auto. } destruct (PA _ _ S) as [v V]. exists v. split; auto. unfold c_to_leaf.
    assert (I : In (N.to_nat c) (leaves t)). { apply mem_in. eapply sub_mem; eauto. rewrite mem_leaf. apply N.eqb_refl. } pose proof (CL3 _ I). rewrite CLL. destruct (Nat.leb_spec (cl_len ns byte) (N.to_nat c)); [exfalso; clear - H H0; lia|]. rewrite andb_false_r. apply CL1. exists p. auto.
  - intros c M D. unfold c_to_leaf. rewrite CLL. destruct (negb byte && (cl_len ns byte <=? N.to_nat c)) eqn:E; auto. apply CL2.
    + destruct (negb byte) eqn:NB; [|apply LC; auto]. cbn [andb] in E. apply Nat.leb_gt in E. auto.
    + intros I. apply mem_in in I. congruence.
  - intros SM c M D. assert (LSM : forall s, In s (leaves t) -> (N.of_nat s < 2 ^ 56)%N) by (intros s I; apply SM; apply LV; auto).
    assert (CA : forall s, In s (leaves t) -> cast_sym byte (N.of_nat s) = N.of_nat s). { intros s I. unfold cast_sym. destruct byte eqn:EB; auto. apply N.mod_small. specialize (BY eq_refl s I). clear - BY. lia. }
    assert (CB : byte = true -> forall x, (cast_sym byte x < 256)%N). { intros -> x. unfold cast_sym. apply N.mod_lt. discriminate. }
    assert (NM : forall y, mem t y = true -> y <> c) by (intros y Y ->; congruence).
    unfold bit_path. rewrite PL, CLL. destruct (negb byte && (cl_len ns byte <=? N.to_nat c)) eqn:E.
    + apply andb_true_iff in E. destruct E as [NB E]. apply Nat.leb_le in E. destruct byte eqn:EB; [discriminate|]. unfold cl_len in E, CL3 |- *. set (m := max_sym ns) in *.
      assert (MI : In m (leaves t)).
      { destruct (max_sym_in ns) as [Z|(d & I & C0 & RK)].
        - destruct (leaves_ne t) as [s I]. pose proof (CL3 s I) as X. fold m in Z. replace m with s; auto. clear - X Z. lia.
        - apply In_nth_error in I. destruct I as [i I]. destruct (nth_error pth i) as [p|] eqn:P. 2: { apply nth_error_None in P. rewrite <- (la_len _ _ _ LA) in P. apply nth_error_None in P. congruence. }
          destruct (sub t p) as [[s|l r]|] eqn:U. 3: { exfalso. eapply la_sub; eauto. }
          + destruct (la_leaf _ _ _ LA i p s d P U I) as [_ RS]. eapply sub_leaves; eauto. left. fold m in RK. congruence.
          + destruct (la_node _ _ _ LA i p l r d P U I) as (i0 & i1 & X & _). congruence. }
      exists (N.of_nat m). rewrite wsub_pred by auto. split; auto. split. { apply shr_small. auto. } split; [discriminate|]. left. rewrite CA by auto. split. { clear - E. lia. } split. { apply mem_in. rewrite Nat2N.id. auto. }
      intros y Y _. apply mem_in in Y. apply CL3 in Y. clear - Y. lia.
    + assert (CLT : N.to_nat c < cl_len ns byte). { destruct (negb byte) eqn:NB; [|apply LC; auto]. cbn [andb] in E. apply Nat.leb_gt in E. auto. }
      assert (CN0 : nth_error cl (N.to_nat c) = Some None). { apply CL2; auto. intros I. apply mem_in in I. congruence. }
      rewrite (P2 _ CN0). eexists. split; [reflexivity|].
      destruct (prev_of_spec t byte BY cl (N.to_nat c) 0 0) as [(j & v & J & V & -> & BT)|[-> BT]]; auto.
      * cbn [Nat.add]. pose proof (CIN j v V) as I. split. { apply shr_small. auto. } split; [intros B; apply CB; auto|]. left. rewrite CA by auto. split. { clear - J. lia. } split. { apply mem_in. rewrite Nat2N.id. auto. }
        intros y Y YC. destruct (N.le_gt_cases y (N.of_nat j)) as [Z|Z]; auto. exfalso. apply mem_in in Y. pose proof (CL3 _ Y) as Y3. rewrite <- CLL in Y3. assert (Q : nth_error cl (N.to_nat y) = Some None) by (apply BT; auto; clear - Z YC; lia).
        destruct (leaf_path t _ Y) as [p P]. destruct (PA _ _ P) as [v' V']. rewrite (CL1 v' (N.to_nat y)) in Q by (exists p; auto). discriminate.
      * split. { reflexivity. } split; [intros B; apply CB; auto|]. right. split. { unfold cast_sym. destruct byte; auto. }
        intros y Y. destruct (N.lt_trichotomy y c) as [Z|[Z|Z]]; auto; exfalso. 2: { apply (NM y); auto. } apply mem_in in Y. pose proof (CL3 _ Y) as Y3. rewrite <- CLL in Y3. assert (Q : nth_error cl (N.to_nat y) = Some None) by (apply BT; auto; clear - Z; lia).
        destruct (leaf_path t _ Y) as [p P]. destruct (PA _ _ P) as [v' V']. rewrite (CL1 v' (N.to_nat y)) in Q by (exists p; auto). discriminate.
Qed.
End Asm.

Section Out.
Variables (T : list N) (sh : shape) (byte : bool) (w : wtpc).
Hypothesis DOM : forall x, In x T -> byte = true -> (x < 256)%N.
Hypothesis MK : wp_make sh byte false T = Some (Ok w).
Lemma made : exists t pth, w_byte w = byte /\ w_sigma w = distinct T /\ good T w t pth /\ (sh = Balanced -> StronglySorted lt (leaves t)).
Proof.
  assert (NE : T <> []). { intros E. rewrite E in MK. discriminate. }
  destruct (make_ok T sh byte NE DOM) as [(E & _)|(w' & t & pth & E & R)]; rewrite MK in E; [discriminate|]. injection E as <-. exists t, pth. auto.
Qed.
Lemma o_size : w_n w = length T /\ w_sigma w = distinct T.
Proof. destruct made as (t & pth & B & S & G & L). split; auto. apply (g_wn _ _ _ _ G). Qed.
Lemma o_isel : forall i x, nth_error T i = Some x -> wp_inverse_select w i = Some (occ T x i, x).
Proof.
  intros i x X. destruct made as (t & pth & B & S & G & L). assert (i < length T) by (apply nth_error_Some; congruence). rewrite <- (nth_error_nth _ _ 0%N X). eapply inverse_select_ok; eauto; apply G.
Qed.
Lemma o_access : forall i x, nth_error T i = Some x -> wp_access w i = Some x.
Proof. intros i x X. unfold wp_access. rewrite (o_isel i x X). auto. Qed.
Lemma o_rank : forall i c, i <= length T -> (byte = true -> (c < 256)%N) -> wp_rank w i c = Some (occ T c i).
Proof. intros i c I D. destruct made as (t & pth & B & S & G & L). rewrite <- B in D. eapply rank_ok; eauto; apply G. Qed.
Lemma o_select : forall i c, 1 <= i -> i <= occ T c (length T) -> exists q, wp_select w i c = Some q /\ nth_error T q = Some c /\ occ T c q + 1 = i.
Proof. intros i c I D. destruct made as (t & pth & B & S & G & L). eapply select_ok; eauto; apply G. Qed.
Lemma o_isym : forall lex i j, i <= j -> j <= length T -> (lex = true -> sh = Balanced) -> exists r, wp_interval_symbols lex w i j = Some r /\ NoDup (map (fun z => fst (fst z)) r) /\
  (lex = true -> StronglySorted N.lt (map (fun z => fst (fst z)) r)) /\ forall c a b, In (c, a, b) r <-> In c (slice T i j) /\ a = occ T c i /\ b = occ T c j.
Proof. intros lex i j I J X. destruct made as (t & pth & B & S & G & L). eapply interval_symbols_ok; eauto; apply G. Qed.
Lemma o_lex : forall i j c, sh = Balanced -> (forall x, In x T -> (x < 2 ^ 56)%N) -> i <= j -> j <= length T -> (byte = true -> (c < 256)%N) ->
  wp_lex_count 3 w i j c = Some (occ T c i, smaller c (slice T i j), greater c (slice T i j)).
Proof. intros i j c SB SM I J D. destruct made as (t & pth & B & S & G & L). rewrite <- B in D. eapply lex_count_ok; eauto; try apply G; auto. Qed.
Lemma o_lexs : forall i c, sh = Balanced -> (forall x, In x T -> (x < 2 ^ 56)%N) -> i <= length T -> (byte = true -> (c < 256)%N) ->
  wp_lex_smaller 3 w i c = Some (occ T c i, smaller c (firstn i T)).
Proof. intros i c SB SM I D. destruct made as (t & pth & B & S & G & L). rewrite <- B in D. eapply lex_smaller_ok; eauto; try apply G; auto. Qed.
End Out.
Lemma o_build : forall T sh byte, T <> [] -> (forall x, In x T -> byte = true -> (x < 256)%N) -> distinct T <= 57 \/ (sh = Balanced /\ (N.of_nat (distinct T) <= 2 ^ 56)%N) ->
  exists w, wp_make sh byte false T = Some (Ok w).
Proof.
  intros T sh byte NE D X. destruct (make_ok T sh byte NE D) as [(E & A & B)|(w & t & pth & E & _)]; eauto. exfalso. destruct X as [X|[X Y]]. { clear - A X. lia. } apply (B X). clear - Y. assert (N.of_nat (distinct T) <= N.of_nat (2 ^ 56))%N; [|lia]. rewrite Nat2N.inj_pow. exact Y.
Qed.
Lemma o_total : forall T sh byte, T <> [] -> (forall x, In x T -> byte = true -> (x < 256)%N) -> wp_make sh byte false T <> None.
Proof. intros T sh byte NE D. destruct (make_ok T sh byte NE D) as [(E & _)|(w & t & pth & E & _)]; congruence. Qed.
