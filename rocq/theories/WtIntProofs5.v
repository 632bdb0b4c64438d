(** * wt_int: the order queries and the range search of a whole tree *)
From Coq Require Import NArith ZArith List Lia Bool Arith Permutation Sorted.
From Verif Require Import Base SpecBits RankSelect AbsVec WtBase SpecWt WtProofs WtInt WtIntProofs WtIntProofs2 WtIntProofs3.
Import ListNotations.

Section Q.
Variable w : wt. Variable S0 : list N.
Hypothesis HW : wt_holds w S0.
Notation L := (wt_L w).

Lemma le_sg : forall c l, Forall (fun x => (x < c)%N) l -> smaller c l = length l /\ greater c l = 0.
Proof.
  unfold smaller, greater. induction l; simpl; intros; auto. inversion H; subst. destruct (IHl H3) as [A B].
  destruct (N.ltb_spec a c); [|lia]. destruct (N.ltb_spec c a); [lia|]. simpl. lia.
Qed.
Lemma occ_big : forall c i, (2 ^ N.of_nat L <= c)%N -> occ S0 c i = 0.
Proof.
  intros. destruct HW as (_ & _ & F & _). unfold occ. rewrite filter_nil; auto. intros x Hx. apply In_firstn in Hx.
  rewrite Forall_forall in F. specialize (F x Hx). apply N.eqb_neq. lia.
Qed.

Theorem wt_lex_count_ok : forall i j c, i <= j -> j <= length S0 ->
  wt_lex_count w i j c = Some (occ S0 c i, smaller c (slice S0 i j), greater c (slice S0 i j)).
Proof.
  intros i j c Hi Hj. pose proof HW as (HN & HA & HF & HL). unfold wt_lex_count. rewrite shl_c_pow by lia. cbn [obind].
  destruct (N.leb_spec (2 ^ N.of_nat L) c) as [C|C].
  - rewrite csub_some with (c := j - i) by lia. cbn [obind]. rewrite occ_big by auto.
    destruct (le_sg c (slice S0 i j)) as [-> ->].
    { rewrite Forall_forall in *. intros x Hx. unfold slice in Hx. apply In_firstn, In_skipn in Hx. specialize (HF x Hx). lia. }
    rewrite slice_len by auto. auto.
  - destruct (mask_some w S0 HW) as (l1 & -> & E). cbn [obind]. rewrite E. cbn [obind]. rewrite HN.
    rewrite lex_ok; auto. apply (pre_top w S0 HW). auto.
Qed.
Theorem wt_lex_smaller_count_ok : forall i c, i <= length S0 ->
  wt_lex_smaller_count w i c = Some (occ S0 c i, smaller c (firstn i S0)).
Proof.
  intros i c Hi. pose proof HW as (HN & HA & HF & HL). unfold wt_lex_smaller_count. rewrite shl_c_pow by lia. cbn [obind].
  destruct (N.leb_spec (2 ^ N.of_nat L) c) as [C|C].
  - rewrite occ_big by auto. destruct (le_sg c (firstn i S0)) as [-> _].
    { rewrite Forall_forall in *. intros x Hx. apply In_firstn in Hx. specialize (HF x Hx). lia. }
    rewrite firstn_length, Nat.min_l by auto. auto.
  - destruct (mask_some w S0 HW) as (l1 & -> & E). cbn [obind]. rewrite E. cbn [obind]. rewrite HN.
    rewrite lsc_ok; auto. apply (pre_top w S0 HW). auto.
Qed.

Lemma isym_distinct : forall i j r, isym_spec S0 i j r -> length r <= distinct S0.
Proof.
  intros i j r [A B]. rewrite <- (map_length (fun z => fst (fst z)) r). unfold distinct. apply NoDup_incl_length.
  - assert (forall l, StronglySorted N.lt l -> NoDup l).
    { induction l; constructor; inversion H; subst; auto. intro. rewrite Forall_forall in H3. apply H3 in H0. lia. }
    apply H. exact A.
  - intros c Hc. apply in_map_iff in Hc. destruct Hc as ([[c' a] b] & E & Hc). simpl in E. subst c'. apply B in Hc.
    apply nodup_In. unfold slice in Hc. destruct Hc as [Hc _]. apply In_firstn, In_skipn in Hc. auto.
Qed.
Theorem wt_interval_symbols_ok : forall i j cap, i <= j -> j <= length S0 -> distinct S0 <= cap ->
  exists r, wt_interval_symbols w i j cap = Some r /\ isym_spec S0 i j r.
Proof.
  intros i j cap Hi Hj HC. pose proof HW as (HN & HA & HF & HL). unfold wt_interval_symbols.
  destruct (Nat.eqb_spec i j) as [E|E].
  { exists []. split; auto. subst. split. constructor. unfold slice. rewrite Nat.sub_diag. simpl. tauto. }
  assert (G : exists r, (if i + 1 =? j then let* r := wt_inverse_select w i in Some [(snd r, fst r, fst r + 1)]
     else isym_rec w L i j 0 (wt_n w) 0 []) = Some r /\ isym_spec S0 i j r).
  { destruct (Nat.eqb_spec (i + 1) j) as [E1|E1].
    - destruct (nth_error S0 i) as [x|] eqn:EX. 2:{ apply nth_error_None in EX. lia. }
      rewrite (wt_inverse_select_ok w S0 HW i x EX). cbn [obind fst snd]. eexists. split; [reflexivity|].
      assert (SL : slice S0 i j = [x]).
      { unfold slice. replace (j - i) with 1 by lia. apply nth_error_split in EX. destruct EX as (l1 & l2 & -> & <-).
        rewrite skipn_app, skipn_all, Nat.sub_diag. auto. }
      assert (OX : occ S0 x j = occ S0 x i + 1).
      { subst j. rewrite Nat.add_1_r. unfold occ. rewrite (firstn_S_nth S0 i 0%N) by lia. rewrite filter_app, app_length.
        rewrite (nth_error_nth _ _ _ EX). simpl. rewrite N.eqb_refl. simpl. lia. }
      split. { simpl. constructor; constructor. }
      intros c a b. rewrite SL. simpl. split.
      + intros [H|[]]. inversion H; subst c a b. auto.
      + intros ([<-|[]] & -> & ->). left. now rewrite OX.
    - destruct (isym_ok w L 0 S0 i j 0%N [] HA) as (r & R1 & R2); auto; try lia.
      + rewrite Forall_forall in *. intros. apply shr_small. auto.
      + rewrite Forall_forall in *. intros. specialize (HF x H). unfold is_word. rewrite W64_pow.
        eapply N.lt_le_trans; [exact HF|]. apply N.pow_le_mono_r; lia.
      + rewrite HN. exists r. rewrite R1. auto. }
  destruct G as (r & -> & R). cbn [obind]. exists r. split; auto.
  pose proof (isym_distinct _ _ _ R). destruct (Nat.leb_spec (length r) cap); auto. lia.
Qed.

Lemma In_points : forall lb rb vlb vrb p x, In (p, x) (points S0 lb rb vlb vrb) <->
  p < length S0 /\ nth p S0 0%N = x /\ lb <= p <= rb /\ (vlb <= x <= vrb)%N.
Proof.
  intros. unfold points. rewrite filter_In. cbn [fst snd].
  assert (G : forall l k, In (p, x) (combine (seq k (length l)) l) <-> k <= p < k + length l /\ nth (p - k) l 0%N = x).
  { induction l; intros; simpl; [lia|]. rewrite IHl. split.
    - intros [H|H]. { inversion H; subst. rewrite Nat.sub_diag. split; [lia|auto]. }
      destruct H. replace (p - k) with (S (p - S k)) by lia. split; [lia|auto].
    - intros [H1 H2]. destruct (Nat.eq_dec p k). { subst. rewrite Nat.sub_diag. auto. }
      right. replace (p - k) with (S (p - S k)) in H2 by lia. split; [lia|auto]. }
  rewrite G, Nat.sub_0_r, !andb_true_iff, !Nat.leb_le, !N.leb_le. intuition lia.
Qed.
Lemma NoDup_points : forall lb rb vlb vrb, NoDup (points S0 lb rb vlb vrb).
Proof.
  intros. unfold points. apply NoDup_filter. apply (NoDup_map_inv fst).
  assert (G : forall (l : list N) k, map fst (combine (seq k (length l)) l) = seq k (length l)) by (induction l; simpl; intros; auto; now rewrite IHl).
  rewrite G. apply seq_NoDup.
Qed.

Theorem wt_range_search_2d_ok : forall lb rb vlb vrb report, (rb < length S0 \/ rb < lb) -> vlb <> (2 ^ N.of_nat L)%N ->
  exists pts, wt_range_search_2d w lb rb vlb vrb report = Some (length (points S0 lb rb vlb vrb), pts) /\
    (if report then Permutation pts (points S0 lb rb vlb vrb) else pts = []).
Proof.
  intros lb rb vlb vrb report HB HV. pose proof HW as (HN & HA & HF & HL). unfold wt_range_search_2d. rewrite shl_c_pow by lia. cbn [obind].
  set (top := (2 ^ N.of_nat L)%N) in *. set (v := if (top <? vrb)%N then top else vrb).
  assert (EMP : forall l : list (nat * N), (forall p x, ~ In (p, x) l) -> l = []).
  { intros l Hl. destruct l as [|[p x] l]; auto. exfalso. apply (Hl p x). left. auto. }
  assert (XT : forall p, p < length S0 -> (nth p S0 0 < top)%N) by (intros; rewrite Forall_forall in HF; apply HF, nth_In; auto).
  assert (Vv : forall x, (x < top)%N -> (x <= vrb)%N <-> (x <= v)%N) by (intros; unfold v; destruct (N.ltb_spec top vrb); lia).
  destruct (N.ltb_spec v vlb) as [VV|VV].
  { exists []. rewrite (EMP (points S0 lb rb vlb vrb)). destruct report; auto.
    intros p x Hp. apply In_points in Hp. destruct Hp as (P1 & P2 & P3 & P4). specialize (XT p P1). rewrite P2 in XT. pose proof (Vv x XT). lia. }
  assert (VT : (vlb < top)%N) by (unfold v in VV; destruct (N.ltb_spec top vrb); lia).
  assert (RD : forall d k lb rb v1 v2 il ns pa r s, rb < lb -> r2_rec w d k lb rb v1 v2 il ns pa r s = Some s).
  { intros. destruct d; cbn [r2_rec]; destruct (Nat.ltb_spec rb0 lb0); auto; lia. }
  destruct (Nat.lt_ge_cases rb lb) as [HR|HR].
  { rewrite RD by auto. cbn [obind r2_cnt r2_pts]. exists []. rewrite (EMP (points S0 lb rb vlb vrb)). destruct report; auto.
    intros p x Hp. apply In_points in Hp. lia. }
  assert (HB' : rb < length S0) by lia. clear HB.
  assert (PN0 : pnode w 0 L 0 0 S0 = (0, S0)) by (destruct L; reflexivity).
  assert (NR : forall x, x <= length S0 -> nr w S0 0 0 x = x).
  { intros. unfold nr. rewrite Nat.sub_0_r. unfold cnt. rewrite filter_all, firstn_length, Nat.min_l; auto.
    intros y Hy. apply In_firstn in Hy. rewrite Forall_forall in HF. rewrite (shr_small y), (shr_small 0); auto. apply N.neq_0_lt_0, N.pow_nonzero. lia. }
  assert (B0 : base 0 L = 0%N). { unfold base. rewrite shr_div, N.div_0_l by (apply N.pow_nonzero; lia). auto. }
  destruct (r2_ok w S0 HW lb rb HB' L 0 0%N vlb v report (mkr2 (repeat 0 (L + 1)) (repeat 0 (L + 1)) [] 0)) as (s' & new & E1 & E2 & E3 & E4 & E5); auto.
  - apply N.neq_0_lt_0, N.pow_nonzero. lia.
  - unfold SI. cbn [r2_offs r2_oos]. rewrite !repeat_length. repeat split; auto; intros; [|lia]. assert (j = 0) by lia. subst. rewrite PN0.
    rewrite Nat.add_1_r. reflexivity.
  - rewrite NR; lia.
  - rewrite B0. lia.
  - rewrite B0. fold top. lia.
  - rewrite PN0, B0, !NR, Nat.add_sub in E1 by lia. cbn [snd] in E1. replace (shr 0 L) with 0%N in E1 by now rewrite shr_small by (apply N.neq_0_lt_0, N.pow_nonzero; lia).
    rewrite <- HN in E1. rewrite E1. cbn [obind]. destruct E2 as [P1 P2]. cbn [r2_pts r2_cnt] in *.
    assert (PE : Permutation new (points S0 lb rb vlb vrb)).
    { apply NoDup_Permutation; auto. apply NoDup_points. intros [p x]. rewrite E5, In_points. unfold pin. split; intros (Q1 & Q2 & Q3 & Q4).
      - destruct Q4. split; [|split; [|split]]; auto. specialize (XT p Q1). rewrite Q2 in XT. pose proof (Vv x XT). lia.
      - split; [|split; [|split; [|split]]]; auto; specialize (XT p Q1); rewrite Q2 in XT; pose proof (Vv x XT); [|lia]. rewrite !shr_small; auto. fold top. lia. }
    rewrite P2, P1. cbn [Nat.add]. exists (if report then new else []). rewrite (Permutation_length PE). destruct report; auto.
Qed.
End Q.
