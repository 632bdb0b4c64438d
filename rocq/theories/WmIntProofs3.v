(** * wm_int: range_search_2d *)
From Coq Require Import NArith ZArith List Lia Bool Arith Permutation Sorted.
From Verif Require Import Base Bits SpecBits RankSelect AbsVec WtBase SpecWt SpecWtAlg WtProofs WtInt WtIntProofs WtIntProofs2 WtIntProofs3 WtIntProofs4 WtIntProofs5 WmInt WmIntProofs WtAlg WtAlgProofs WtAlgProofs2.
Import ListNotations.

Lemma chain_c_ext : forall w is ro c c' U0 k U, chain w is ro c U0 k U -> shr c (wm_L w - k) = shr c' (wm_L w - k) -> chain w is ro c' U0 k U.
Proof.
  induction 1; intros E; [constructor|]. assert (E2 : shr c (wm_L w - k) = shr c' (wm_L w - k) /\ tb c (wm_L w - S k) = tb c' (wm_L w - S k)).
  { replace (wm_L w - k) with (S (wm_L w - S k)) by lia. apply shr_step_inv. auto. }
  destruct E2 as [E2 E3]. rewrite E3. apply (chS _ _ _ _ _ k U o); auto.
Qed.
Lemma perm_split : forall A (f g h : A -> bool) l, (forall x, h x = negb (g x)) -> Permutation (filter f (filter g l) ++ filter f (filter h l)) (filter f l).
Proof.
  intros A f g h l H. induction l as [|a l]; simpl; auto. rewrite (H a). destruct (g a); simpl; destruct (f a); simpl; auto.
  apply Permutation_sym, Permutation_cons_app, Permutation_sym. auto.
Qed.
Lemma filter_none : forall A (f : A -> bool) l, (forall x, In x l -> f x = false) -> filter f l = [].
Proof. induction l; simpl; intros; auto. rewrite H by auto. auto. Qed.
Lemma filter_same : forall A (f g : A -> bool) l, (forall x, In x l -> f x = g x) -> filter f l = filter g l.
Proof. induction l; simpl; intros; auto. rewrite H by auto. rewrite IHl; auto. Qed.
Lemma nth_slice : forall T s e q, s <= e -> e <= length T -> q < e - s -> nth q (slice T s e) 0%N = nth (s + q) T 0%N.
Proof.
  intros. unfold slice. rewrite <- (firstn_skipn s T) at 2. rewrite app_nth2 by (rewrite firstn_length; lia).
  rewrite firstn_length, Nat.min_l by lia. replace (s + q - s) with q by lia.
  rewrite <- (firstn_skipn (e - s) (skipn s T)) at 2. rewrite app_nth1; auto. rewrite firstn_length, skipn_length. lia.
Qed.
Lemma enum_fst : forall (T : list N) k, map fst (combine (seq k (length T)) T) = seq k (length T).
Proof. induction T; simpl; intros; auto. now rewrite IHT. Qed.
Definition inv (vlb vrb : N) (y : nat * N) : bool := ((vlb <=? snd y) && (snd y <=? vrb))%N.

Section R.
Variable w : wm. Variable S0 : list N.
Hypothesis HW : wm_holds w S0.
Hypothesis HNE : S0 <> [].
Notation L := (wm_L w). Notation t := (wm_tree w). Notation p := (PMat w).
Hypothesis HL : L <= 63.
Variable LB : nat. Variable U0 : list (nat * N).
Hypothesis HU0 : forall i y, nth_error U0 i = Some y -> fst y = LB + i.

Definition keep2 (k : nat) (s s' : r2st) : Prop :=
  length (r2_offs s') = length (r2_offs s) /\ length (r2_oos s') = length (r2_oos s) /\
  (forall j, j < k -> nth_error (r2_offs s') j = nth_error (r2_offs s) j) /\
  (forall j, j < k -> nth_error (r2_oos s') j = nth_error (r2_oos s) j).

Lemma report_ok : forall is ro c U, c = c -> chain w is ro c U0 L U -> nth_error is 0 = Some LB -> (forall y, In y U -> snd y = c) ->
  forall pts, m2_report w (seq 1 (length U)) c is ro pts = Some (pts ++ U).
Proof.
  intros is ro c U _ HC H0 HS. assert (HL64 : L <= 64) by lia.
  assert (G : forall U2 U1 pts, U = U1 ++ U2 -> m2_report w (seq (length U1 + 1) (length U2)) c is ro pts = Some (pts ++ U2)).
  { induction U2 as [|y U2]; intros U1 pts EU. { simpl. now rewrite app_nil_r. }
    cbn [length seq m2_report]. unfold wm_L. rewrite (r2_up_eq _ _ _ (wt_L (wm_w w)) _ c c); [| |lia|exact HL].
    2:{ now rewrite Nat.sub_diag, shr_0. }
    assert (NY : nth_error U (length U1) = Some y) by (rewrite EU; apply WtIntProofs4.nth_error_mid).
    destruct (climb_ok w is ro c U0 L U HC (length U1) y (2 ^ N.of_nat (wt_L (wm_w w) - wt_L (wm_w w))) NY) as (i' & C1 & C2); auto.
    unfold wm_L in C1. rewrite C1, H0. cbn [obind]. rewrite (csub_some _ _ (LB + i')) by lia. cbn [obind].
    assert (EY : (LB + i', c) = y). { specialize (HU0 i' y C2). assert (snd y = c) by (apply HS; eapply nth_error_In; eauto). destruct y; simpl in *. congruence. }
    rewrite EY. specialize (IHU2 (U1 ++ [y]) (pts ++ [y])). rewrite app_length in IHU2. simpl in IHU2.
    replace (S (length U1 + 1)) with (length U1 + 1 + 1) by lia. rewrite IHU2, <- app_assoc; auto. rewrite EU, <- app_assoc. auto. }
  intros. apply (G U [] pts eq_refl).
Qed.

Lemma m2_ok : forall d v T s e U vlb vrb report st, nrep p d v T -> s < e -> e <= length T -> map snd U = slice T s e ->
  let c := (nd_sym v * 2 ^ N.of_nat d)%N in
  chain w (r2_offs st) (r2_oos st) c U0 (nd_level v) U -> length (r2_offs st) = L + 1 -> length (r2_oos st) = L + 1 ->
  (if nd_level v =? 0 then nd_off v + s = LB else nth_error (r2_offs st) 0 = Some LB) ->
  (c <= vlb)%N -> (vlb <= vrb)%N -> (vlb < c + 2 ^ N.of_nat d)%N -> (c + 2 ^ N.of_nat d <= 2 ^ N.of_nat L)%N ->
  exists st' new, m2_rec w d v (s, e) vlb vrb c report st = Some st' /\ added report st st' new /\ keep2 (nd_level v) st st' /\
    Permutation new (filter (inv vlb vrb) U).
Proof.
  induction d; intros v T s e U vlb vrb report st R Hs He HU c HC Li Lr H0 V1 V2 V3 VC.
  - cbn [m2_rec]. cbn [fst snd]. destruct (Nat.leb_spec e s); [lia|]. pose proof R as (RL & _). unfold p_L, p_w in RL. fold L in RL. rewrite Nat.add_0_r in RL.
    rewrite aset_some by lia. cbn [obind]. unfold c in *. rewrite N.mul_1_r in *. 
    destruct (leaf_t p v T R) as [_ A].
    assert (UC : forall y, In y U -> snd y = nd_sym v). { intros. apply A. eapply (In_slice T s e). rewrite <- HU. apply in_map. auto. }
    assert (LU : length U = e - s). { rewrite <- (map_length snd), HU. apply slice_len; lia. }
    assert (C2 : chain w (upd (r2_offs st) (nd_level v) (nd_off v + s)) (r2_oos st) (nd_sym v) U0 L U).
    { rewrite <- RL. eapply chain_ext; [exact HC| |]; intros; auto. apply nth_error_upd_neq. lia. }
    assert (LR : 1 <= L) by (destruct HW as (_ & _ & _ & ? & _); lia).
    assert (I0 : nth_error (upd (r2_offs st) (nd_level v) (nd_off v + s)) 0 = Some LB).
    { rewrite nth_error_upd_neq by lia. destruct (Nat.eqb_spec (nd_level v) 0); [lia|auto]. }
    unfold rsize. cbn [fst snd]. rewrite <- LU. rewrite (report_ok _ _ _ _ eq_refl C2 I0 UC).
    exists (mkr2 (upd (r2_offs st) (nd_level v) (nd_off v + s)) (r2_oos st) (if report then r2_pts st ++ U else r2_pts st) (r2_cnt st + length U)), U.
    split. { destruct report; reflexivity. } split. { split; auto. } split.
    + split; [cbn [r2_offs]; apply upd_length|]. split; [auto|]. split; intros; [cbn [r2_offs]; apply nth_error_upd_neq; lia|auto].
    + rewrite (filter_same _ (inv vlb vrb) (fun _ => true)).
      * clear. induction U; simpl; auto.
      * intros y Hy. unfold inv. rewrite (UC y Hy). change (2 ^ N.of_nat 0)%N with 1%N in *. destruct (N.leb_spec vlb (nd_sym v)), (N.leb_spec (nd_sym v) vrb); simpl; auto; lia.
  - cbn [m2_rec]. cbn [fst snd]. destruct (Nat.leb_spec e s); [lia|]. pose proof R as (RL & _ & R3 & _). unfold p_L, p_w in RL. fold L in RL.
    rewrite Forall_forall in R3.
    rewrite aset_some by lia. cbn [obind]. destruct (node_bits_p p S0 HW d v T R) as [NB1 NB2]. unfold p_tree, p_w in NB1, NB2. fold t in NB1, NB2.
    rewrite t_rank_some by lia. cbn [obind]. rewrite aset_some by lia. cbn [obind]. rewrite shl_c_pow by lia. cbn [obind].
    assert (PL : (2 ^ N.of_nat L <= 2 ^ 63)%N) by (apply (N.pow_le_mono_r 2 (N.of_nat L) 63); lia).
    assert (PS : (2 ^ N.of_nat (S d) = 2 * 2 ^ N.of_nat d)%N) by (rewrite Nat2N.inj_succ; apply N.pow_succ_r').
    assert (P0 : (2 ^ N.of_nat d <> 0)%N) by (apply N.pow_nonzero; lia).
    assert (EM : shr (wadd (wadd c (2 ^ N.of_nat (S d))) c) 1 = (c + 2 ^ N.of_nat d)%N).
    { unfold wadd, W64. rewrite !(N.mod_small (c + 2 ^ N.of_nat (S d))), N.mod_small by lia. rewrite shr_div. change (2 ^ N.of_nat 1)%N with 2%N.
      replace (c + 2 ^ N.of_nat (S d) + c)%N with ((c + 2 ^ N.of_nat d) * 2)%N by lia. apply N.div_mul. lia. }
    rewrite EM. set (mid := (c + 2 ^ N.of_nat d)%N) in *.
    destruct (expand_ok p S0 HW HNE d v T R) as (v0 & v1 & EX & R0 & R1 & SY0 & SY1). cbn [p_expand] in EX. rewrite EX. cbn [obind].
    rewrite (expand_r_ok p S0 HW d v T s e R) by lia. cbn [obind fst snd].
    assert (SV : (nd_sym v < 2 ^ 62)%N).
    { unfold c in VC. rewrite PS in VC. change (2 ^ 63)%N with (2 * 2 ^ 62)%N in PL. nia. }
    assert (D0 : shl (nd_sym v) 1 = (2 * nd_sym v)%N).
    { unfold shl. rewrite N.shiftl_mul_pow2. change (2 ^ N.of_nat 1)%N with 2%N. rewrite N.mod_small. lia. unfold W64. lia. }
    assert (D1 : N.lor (shl (nd_sym v) 1) 1 = (2 * nd_sym v + 1)%N) by (rewrite D0; destruct (nd_sym v) as [|[]]; reflexivity).
    assert (C0 : (nd_sym v0 * 2 ^ N.of_nat d = c)%N) by (rewrite SY0, D0; unfold c; rewrite PS; ring).
    assert (C1 : (nd_sym v1 * 2 ^ N.of_nat d = mid)%N) by (rewrite SY1, D1; unfold mid, c; rewrite PS; ring).
    assert (LV : nd_level v0 = S (nd_level v) /\ nd_level v1 = S (nd_level v)).
    { destruct R0 as (Q0 & _). destruct R1 as (Q1 & _). unfold p_L, p_w in Q0, Q1. fold L in Q0, Q1. lia. }
    destruct LV as [LV0 LV1].
    set (k := nd_level v) in *. set (st1 := mkr2 (upd (r2_offs st) k (nd_off v + s)) (upd (r2_oos st) k (rank_of (t_bit t) (nd_off v + s))) (r2_pts st) (r2_cnt st)).
    assert (LU : length U = e - s). { rewrite <- (map_length snd), HU. apply slice_len; lia. }
    assert (UT : forall y, In y U -> In (snd y) T). { intros. eapply (In_slice T s e). rewrite <- HU. apply in_map. auto. }
    assert (BR : forall x, In x T -> (if tb x d then mid <= x < mid + 2 ^ N.of_nat d else c <= x < mid)%N).
    { intros x Hx. assert (H1 : 0 < length [0%N]) by (simpl; lia).
      pose proof (proj1 (base_range [0%N] 0 H1 x x d) eq_refl) as Q. rewrite (base_step [0%N] 0 H1) in Q. unfold base in Q. rewrite (R3 x Hx) in Q. fold c in Q.
      unfold mid. destruct (tb x d); lia. }
    (* a child *)
    assert (CHILD : forall (b : bool) vb sta vl vr, nrep p d vb (filter (fb b d) T) -> nd_level vb = S k -> keep2 (S k) st1 sta ->
       cnt (fb b d) T s < cnt (fb b d) T e ->
       (nd_sym vb * 2 ^ N.of_nat d = if b then mid else c)%N -> ((if b then mid else c) <= vl)%N -> (vl <= vr)%N -> (vl < (if b then mid else c) + 2 ^ N.of_nat d)%N ->
       exists st' new, m2_rec w d vb (cnt (fb b d) T s, cnt (fb b d) T e) vl vr (if b then mid else c) report sta = Some st' /\ added report sta st' new /\ keep2 (S k) sta st' /\
         Permutation new (filter (inv vl vr) (filter (fp b d) U))).
    { intros b vb sta vl vr RB LVB (K1 & K2 & K3 & K4) HN CB W1 W2 W3. destruct (split_slice d T s e ltac:(lia) He b) as (Q1 & Q2 & Q3).
      rewrite <- CB in *. rewrite <- LVB. apply (IHd vb (filter (fb b d) T)); auto.
      - lia.
      - rewrite map_filter_fp, HU. auto.
      - rewrite LVB, CB.
        assert (BC : tb (if b then mid else c) d = b /\ shr (if b then mid else c) (S d) = shr c (S d)).
        { assert (X : forall z : bool, (if z then mid else c) = ((2 * nd_sym v + (if z then 1 else 0)) * 2 ^ N.of_nat d)%N).
          { intros z. unfold mid, c. rewrite PS. destruct z; ring. }
          assert (Y : forall z : bool, shr (if z then mid else c) d = (2 * nd_sym v + (if z then 1 else 0))%N).
          { intros z. rewrite X, shr_div, N.div_mul; auto. }
          split.
          - replace (tb (if b then mid else c) d) with (tb (shr (if b then mid else c) d) 0) by (rewrite tb_shr; auto). rewrite Y. unfold tb. cbn [N.of_nat]. destruct b; [apply N.testbit_odd_0|rewrite N.add_0_r; apply N.testbit_even_0].
          - rewrite !WtAlgProofs2.shr_S_div. rewrite Y. specialize (Y false). cbn iota in Y. rewrite Y.
            replace ((2 * nd_sym v + 0) / 2)%N with (nd_sym v) by (apply (N.div_unique _ 2 _ 0); lia). symmetry. destruct b; [apply (N.div_unique _ 2 _ 1)|apply (N.div_unique _ 2 _ 0)]; lia. }
        destruct BC as [BC1 BC2]. assert (LD : L - S k = d) by lia. rewrite <- BC1 at 2. rewrite <- LD at 1 2.
        apply (chS _ _ _ _ _ k U (nd_off v + s)); try lia.
        + eapply chain_ext.
          * eapply chain_c_ext; [exact HC|]. replace (L - k) with (S d) by lia. symmetry. exact BC2.
          * intros. rewrite K3 by lia. unfold st1. cbn [r2_offs]. apply nth_error_upd_neq. lia.
          * intros. rewrite K4 by lia. unfold st1. cbn [r2_oos]. apply nth_error_upd_neq. lia.
        + rewrite K3 by lia. unfold st1. cbn [r2_offs]. apply nth_error_upd_eq. lia.
        + rewrite K4 by lia. unfold st1. cbn [r2_oos]. apply nth_error_upd_eq. lia.
        + intros q Hq. rewrite LD. rewrite <- Nat.add_assoc, NB2 by lia. rewrite <- nth_map_snd, HU, nth_slice by lia. auto.
      - rewrite K1. unfold st1. cbn [r2_offs]. now rewrite upd_length.
      - rewrite K2. unfold st1. cbn [r2_oos]. now rewrite upd_length.
      - rewrite LVB. cbn [Nat.eqb]. rewrite K3 by lia. unfold st1. cbn [r2_offs]. destruct (Nat.eqb_spec k 0) as [E|E].
        + rewrite E. rewrite nth_error_upd_eq by lia. rewrite H0. auto.
        + rewrite nth_error_upd_neq by lia. auto.
      - rewrite CB. destruct b; unfold mid; lia. }
    assert (FBN : forall y, fp true d y = negb (fp false d y)). { intros. unfold fp. rewrite fb_true, fb_false, negb_involutive. auto. }
    assert (NOE : forall b, cnt (fb b d) T s = cnt (fb b d) T e -> filter (fp b d) U = []).
    { intros b Z. destruct (split_slice d T s e ltac:(lia) He b) as (Q1 & Q2 & Q3). apply length_zero_iff_nil. rewrite <- (map_length snd), map_filter_fp, HU. lia. }
    assert (FI : forall b y, In y (filter (fp b d) U) -> In (snd y) T /\ tb (snd y) d = b).
    { intros b y Hy. apply filter_In in Hy. destruct Hy as [Y1 Y2]. split; auto. unfold fp, fb in Y2. apply eqb_prop in Y2. auto. }
    assert (X0 : exists st2 new0, (if negb (rempty (cnt (fb false d) T s, cnt (fb false d) T e)) && (vlb <? mid)%N && negb (mid =? 0)%N
        then m2_rec w d v0 (cnt (fb false d) T s, cnt (fb false d) T e) vlb (N.min vrb (wsub mid 1)) c report st1 else Some st1) = Some st2 /\
        added report st1 st2 new0 /\ keep2 (S k) st1 st2 /\ Permutation new0 (filter (inv vlb vrb) (filter (fp false d) U))).
    { assert (NO : filter (inv vlb vrb) (filter (fp false d) U) = [] -> exists st2 new0, Some st1 = Some st2 /\ added report st1 st2 new0 /\ keep2 (S k) st1 st2 /\
        Permutation new0 (filter (inv vlb vrb) (filter (fp false d) U))).
      { intros E. exists st1, []. rewrite E. split; auto. split. { split; [destruct report; now rewrite ?app_nil_r|simpl; lia]. } split; [repeat split; auto|auto]. }
      unfold rempty. cbn [fst snd]. destruct (Nat.eqb_spec (cnt (fb false d) T s) (cnt (fb false d) T e)) as [Z|Z]; cbn [negb andb].
      { apply NO. rewrite NOE; auto. }
      destruct (N.ltb_spec vlb mid) as [Y|Y]; cbn [andb].
      2:{ apply NO. apply filter_none. intros y Hy. destruct (FI false y Hy) as [F1 F2]. specialize (BR _ F1). rewrite F2 in BR. unfold inv.
          destruct (N.leb_spec vlb (snd y)); simpl; auto; lia. }
      destruct (N.eqb_spec mid 0) as [M|M]; [unfold mid in M; lia|]. cbn [negb].
      assert (WS : wsub mid 1 = (mid - 1)%N).
      { unfold wsub, W64. assert (mid <= 2 ^ 63)%N by (unfold mid; lia). clearbody mid.
        replace (mid + (18446744073709551616 - 1))%N with (mid - 1 + 1 * 18446744073709551616)%N by lia. rewrite N.mod_add, N.mod_small; lia. }
      rewrite WS. destruct (split_slice d T s e ltac:(lia) He false) as (_ & _ & Q3).
      destruct (CHILD false v0 st1 vlb (N.min vrb (mid - 1)) R0 LV0) as (st2 & new0 & E1 & E2 & E3 & E4); try lia; auto.
      { repeat split; auto. }
      exists st2, new0. split; auto. split; auto. split; auto. rewrite E4. rewrite (filter_same _ (inv vlb (N.min vrb (mid - 1))) (inv vlb vrb)); auto.
      intros y Hy. destruct (FI false y Hy) as [F1 F2]. specialize (BR _ F1). rewrite F2 in BR. unfold inv. f_equal.
      destruct (N.leb_spec (snd y) vrb), (N.leb_spec (snd y) (N.min vrb (mid - 1))); auto; lia. }
    fold st1. destruct X0 as (st2 & new0 & -> & A1 & K1 & PM0). cbn [obind].
    assert (KT : forall st3, keep2 (S k) st1 st3 -> keep2 k st st3).
    { intros st3 (T1 & T2 & T3 & T4). unfold st1 in T1, T2, T3, T4. cbn [r2_offs r2_oos] in *. rewrite !upd_length in *. split; [auto|]. split; [auto|]. split; intros.
      rewrite T3, nth_error_upd_neq by lia; auto. rewrite T4, nth_error_upd_neq by lia; auto. }
    assert (NO : filter (inv vlb vrb) (filter (fp true d) U) = [] -> exists st' new, Some st2 = Some st' /\ added report st st' new /\ keep2 k st st' /\
        Permutation new (filter (inv vlb vrb) U)).
    { intros E. exists st2, new0. split; auto. split. { exact A1. } split; auto.
      rewrite <- (perm_split _ (inv vlb vrb) (fp false d) (fp true d) U FBN). rewrite E, app_nil_r. auto. }
    unfold rempty. cbn [fst snd]. destruct (Nat.eqb_spec (cnt (fb true d) T s) (cnt (fb true d) T e)) as [Z|Z]; cbn [negb andb].
    { apply NO. rewrite NOE; auto. }
    destruct (N.leb_spec mid vrb) as [Y|Y].
    + destruct (split_slice d T s e ltac:(lia) He true) as (_ & _ & Q3).
      destruct (CHILD true v1 st2 (N.max mid vlb) vrb R1 LV1 K1) as (st3 & new1 & E1 & E2 & E3 & E4); try lia.
      exists st3, (new0 ++ new1). split; auto. split.
      { destruct A1 as [A1 A2]. destruct E2 as [E2 E2']. split.
        - rewrite E2, A1. unfold st1. cbn [r2_pts]. destruct report; auto. now rewrite app_assoc.
        - rewrite E2', A2. unfold st1. cbn [r2_cnt]. rewrite app_length. lia. }
      split. { apply KT. destruct K1 as (T1 & T2 & T3 & T4). destruct E3 as (T5 & T6 & T7 & T8). repeat split; intros; try congruence.
        rewrite T7, T3; auto. rewrite T8, T4; auto. }
      rewrite <- (perm_split _ (inv vlb vrb) (fp false d) (fp true d) U FBN). apply Permutation_app; auto. rewrite E4.
      rewrite (filter_same _ (inv (N.max mid vlb) vrb) (inv vlb vrb)); auto.
      intros y Hy. destruct (FI true y Hy) as [F1 F2]. specialize (BR _ F1). rewrite F2 in BR. unfold inv. f_equal.
      destruct (N.leb_spec vlb (snd y)), (N.leb_spec (N.max mid vlb) (snd y)); auto; lia.
    + apply NO. apply filter_none. intros y Hy. destruct (FI true y Hy) as [F1 F2]. specialize (BR _ F1). rewrite F2 in BR. unfold inv.
      destruct (N.leb_spec vlb (snd y)), (N.leb_spec (snd y) vrb); simpl; auto; lia.
Qed.
End R.

Theorem wm_range_search_2d_ok : forall w S0, wm_holds w S0 -> S0 <> [] -> wm_L w <= 63 -> forall lb rb vlb vrb report,
  (rb < length S0 \/ rb < lb) -> vlb <> (2 ^ N.of_nat (wm_L w))%N ->
  exists pts, wm_range_search_2d w lb rb vlb vrb report = Some (length (points S0 lb rb vlb vrb), pts) /\
    (if report then Permutation pts (points S0 lb rb vlb vrb) else pts = []).
Proof.
  intros w S0 HW HNE HL lb rb vlb vrb report HB HV. pose proof HW as (HN & HA & HF & HL1 & _). unfold wm_range_search_2d. rewrite shl_c_pow by lia. cbn [obind].
  set (top := (2 ^ N.of_nat (wm_L w))%N) in *. set (v := if (top <? vrb)%N then top else vrb).
  assert (EMP : forall l : list (nat * N), (forall p x, ~ In (p, x) l) -> l = []).
  { intros l Hl. destruct l as [|[p x] l]; auto. exfalso. apply (Hl p x). left. auto. }
  assert (XT : forall p, p < length S0 -> (nth p S0 0 < top)%N) by (intros; rewrite Forall_forall in HF; apply HF, nth_In; auto).
  assert (Vv : forall x, (x < top)%N -> (x <= vrb)%N <-> (x <= v)%N) by (intros; unfold v; destruct (N.ltb_spec top vrb); lia).
  destruct (N.ltb_spec v vlb) as [VV|VV].
  { exists []. rewrite (EMP (points S0 lb rb vlb vrb)). destruct report; auto.
    intros p x Hp. apply In_points in Hp. destruct Hp as (P1 & P2 & P3 & P4). specialize (XT p P1). rewrite P2 in XT. pose proof (Vv x XT). lia. }
  assert (VT : (vlb < top)%N) by (unfold v in VV; destruct (N.ltb_spec top vrb); lia).
  destruct (Nat.leb_spec lb rb) as [HR|HR].
  2:{ exists []. rewrite (EMP (points S0 lb rb vlb vrb)). destruct report; auto. intros p x Hp. apply In_points in Hp. lia. }
  assert (HB' : rb < length S0) by lia. clear HB.
  set (sl := slice S0 lb (rb + 1)). set (U := combine (seq lb (length sl)) sl).
  assert (SL : length sl = rb + 1 - lb) by (apply slice_len; lia).
  assert (UN : forall i, nth_error U i = option_map (fun x => (lb + i, x)) (nth_error sl i)) by (intros; apply enum_nth).
  destruct (m2_ok w S0 HW HNE HL lb U) with (d := wm_L w) (v := p_root (PMat w)) (T := S0) (s := lb) (e := rb + 1) (U := U) (vlb := vlb) (vrb := v) (report := report)
    (st := mkr2 (repeat 0 (wm_L w + 1)) (repeat 0 (wm_L w + 1)) [] 0) as (st' & new & E1 & E2 & E3 & E4); try lia; cbn [r2_offs r2_oos p_root nd_sym nd_level nd_off]; rewrite ?repeat_length; auto.
  - intros i y Hy. rewrite UN in Hy. destruct (nth_error sl i); [|discriminate]. injection Hy as <-. auto.
  - apply (root_rep (PMat w) S0); auto.
  - unfold U. apply enum_snd.
  - constructor.
  - reflexivity.
  - rewrite N.mul_0_l. lia.
  - rewrite N.mul_0_l. lia.
  - cbn [p_root nd_sym] in E1. rewrite N.mul_0_l in E1. rewrite E1. cbn [obind]. destruct E2 as [P1 P2]. cbn [r2_pts r2_cnt] in *.
    assert (PE : Permutation new (points S0 lb rb vlb vrb)).
    { rewrite E4. apply NoDup_Permutation.
      - apply NoDup_filter. unfold U. apply (NoDup_map_inv fst). rewrite enum_fst. apply seq_NoDup.
      - apply NoDup_points.
      - intros [q x]. rewrite filter_In, In_points. unfold inv. cbn [snd]. rewrite andb_true_iff, !N.leb_le. split.
        + intros (I1 & I2). apply In_nth_error in I1. destruct I1 as [i Hi]. rewrite UN in Hi. destruct (nth_error sl i) as [z|] eqn:Ez; [|discriminate]. injection Hi as <- <-.
          assert (i < length sl) by (apply nth_error_Some; congruence). assert (nth i sl 0%N = z) by now apply nth_error_nth.
          unfold sl in H0. rewrite nth_slice in H0 by lia. pose proof (XT (lb + i) ltac:(lia)) as X. rewrite H0 in X. pose proof (Vv z X). repeat split; auto; try lia.
        + intros (I1 & I2 & I3 & I4 & I5). pose proof (XT q I1) as X. rewrite I2 in X. pose proof (Vv x X). split; [|tauto].
          apply (nth_error_In U (q - lb)). rewrite UN. rewrite (nth_error_nth' sl 0%N) by lia. cbn [option_map]. unfold sl. rewrite nth_slice by lia.
          replace (lb + (q - lb)) with q by lia. congruence. }
    exists (r2_pts st'). rewrite P2, (Permutation_length PE), Nat.add_0_l. split; auto. rewrite P1. destruct report; auto.
Qed.
