(** * Proofs about sd_vector: queries *)
From Coq Require Import NArith List Bool Arith Lia.
From Verif Require Import Base Bits SpecBits RankSelect BitsProofs BitsProofs2 IntVector AbsVec SdVector.
Import ListNotations.
Global Arguments Nat.pow : simpl never.

(** ** ascending sequences *)
Lemma positions_NoDup : forall f n, NoDup (positions f n).
Proof. intros. unfold positions. apply NoDup_filter. apply seq_NoDup. Qed.
Lemma rank_sorted : forall f m (y : nat -> nat) c k, (forall i j, i < j -> j < m -> y i < y j) ->
  (forall q, f q = true <-> exists j, j < m /\ q = y j) -> c <= m ->
  (forall j, j < c -> y j < k) -> (forall j, c <= j -> j < m -> k <= y j) -> rank_of f k = c.
Proof.
  intros f m y c k INC F C LO HI.
  assert (INJ : forall i j, i < m -> j < m -> y i = y j -> i = j).
  { intros i j I J E. destruct (Nat.lt_trichotomy i j) as [L|[L|L]]; auto; [specialize (INC i j L J)|specialize (INC j i L I)]; lia. }
  assert (ND : NoDup (map y (seq 0 c))).
  { clear - INJ C. assert (G : forall l, NoDup l -> (forall x, In x l -> x < m) -> NoDup (map y l)).
    { induction 1; intros B; cbn; constructor. { rewrite in_map_iff. intros [z [Z1 Z2]]. apply H. replace x with z; auto. apply INJ; auto; apply B; cbn; auto. }
      apply IHNoDup. intros. apply B. cbn. auto. }
    apply G; [apply seq_NoDup|]. intros x X. apply in_seq in X. lia. }
  assert (L1 : length (positions f k) <= length (map y (seq 0 c))).
  { apply NoDup_incl_length; [apply positions_NoDup|]. intros q Q. apply positions_In in Q. destruct Q as [Q1 Q2]. apply F in Q2. destruct Q2 as [j [J1 J2]].
    subst q. apply in_map. apply in_seq. destruct (Nat.lt_ge_cases j c); [lia|]. specialize (HI j H J1). lia. }
  assert (L2 : length (map y (seq 0 c)) <= length (positions f k)).
  { apply NoDup_incl_length; auto. intros q Q. apply in_map_iff in Q. destruct Q as [j [J1 J2]]. apply in_seq in J2. apply positions_In. subst q. split; [apply LO; lia|].
    apply F. exists j. split; auto. lia. }
  rewrite map_length, seq_length in *. unfold rank_of. lia.
Qed.
Lemma lsel_is : forall b l i p, is_select (lbit b l) i p -> p < length l -> lsel b l i = Some p.
Proof.
  intros b l i p S0 L. pose proof (is_select_pos _ _ _ S0) as I. pose proof (is_select_le_rank _ _ _ _ S0 L) as I2.
  unfold lsel. destruct i as [|j]; [lia|]. rewrite (nth_error_nth' _ 0) by (unfold rank_of in I2; lia). f_equal.
  rewrite <- (select_positions _ _ _ _ 0 S0 L). f_equal. lia.
Qed.

(** position + carry arithmetic *)
Lemma div_lt_iff : forall x v L, 1 <= L -> (x / L < v <-> x < v * L).
Proof.
  intros x v L HL. assert (E := Nat.div_mod x L ltac:(lia)). assert (M := Nat.mod_upper_bound x L ltac:(lia)). split; intros H.
  - assert (L * (x / L) + L <= L * v) by nia. lia.
  - apply Nat.div_lt_upper_bound; lia.
Qed.
Lemma mod_split : forall x L, 1 <= L -> x = x / L * L + x mod L /\ x mod L < L.
Proof. intros. split. { rewrite Nat.mul_comm. apply Nat.div_mod. lia. } apply Nat.mod_upper_bound. lia. Qed.

Section SD.
Variable B : nat -> bool.
Variable n : nat.
Hypothesis BN : forall k, B k = true -> k < n.
Variable d : sdv.
Variable K : nat.
Let wl := sd_wl d.
Let L := 2 ^ wl.
Let m := rank_of B n.
Let R := rank_of B.
Definition sx (j : nat) : nat := nth j (positions B n) 0.
Definition hix (j : nat) : nat := sx j / 2 ^ sd_wl d.
(** the representation *)
Definition sd_rep : Prop :=
  sd_size d = n /\ n / L < K /\ av_l (sd_low d) = map (fun x => N.of_nat (x mod L)) (positions B n) /\
  length (sd_high d) = m + K /\ (forall k, nth k (sd_high d) false = true <-> exists j, j < m /\ k = hix j + j).
Hypothesis REP : sd_rep.

Lemma L_pos : 1 <= L.
Proof. unfold L. pose proof (Nat.pow_nonzero 2 wl). lia. Qed.
Lemma sx_sel : forall j, j < m -> is_select B (j + 1) (sx j) /\ sx j < n.
Proof. intros. apply nth_positions. auto. Qed.
Lemma sx_lt : forall i j, i < j -> j < m -> sx i < sx j.
Proof. intros. destruct (sx_sel i) as [S1 _]; [lia|]. destruct (sx_sel j) as [S2 _]; [lia|]. eapply is_select_mono; eauto. lia. Qed.
Lemma sx_rank : forall j y, j < m -> (j < R y <-> sx j < y).
Proof.
  intros j y J. destruct (sx_sel j J) as [S1 S2]. split; intros H.
  - eapply is_select_lt; eauto. fold R. lia.
  - pose proof (is_select_le_rank _ _ _ y S1 H). fold R in H0. lia.
Qed.
Lemma R_le_m : forall y, R y <= m.
Proof.
  intros y. destruct (Nat.le_gt_cases y n). { apply rank_of_mono. auto. } unfold R, m. rewrite (rank_of_all_false B n y); auto; [lia|].
  intros j J. destruct (B j) eqn:E; auto. apply BN in E. lia.
Qed.
Lemma B_sx : forall k, B k = true <-> exists j, j < m /\ k = sx j.
Proof.
  intros k. split.
  - intros H. exists (R k). pose proof (BN k H) as KN. pose proof (select_rank B k H) as S1.
    pose proof (is_select_le_rank _ _ _ n S1 KN). fold R m in H0. split. { unfold m, R in *. lia. }
    destruct (sx_sel (R k)) as [S2 _]. { unfold m, R in *. lia. } eapply is_select_unique; eauto.
  - intros [j [J ->]]. destruct (sx_sel j J) as [[S1 _] _]. auto.
Qed.
Lemma hix_le : forall i j, i <= j -> j < m -> hix i <= hix j.
Proof. intros. unfold hix. apply Nat.div_le_mono. { pose proof L_pos. unfold L, wl in *. lia. } destruct (Nat.eq_dec i j) as [->|]; auto. apply Nat.lt_le_incl. apply sx_lt; lia. Qed.
Lemma hix_lt_iff : forall j v, j < m -> (hix j < v <-> j < R (v * L)).
Proof. intros j v J. unfold hix. fold wl. fold L. rewrite div_lt_iff by apply L_pos. rewrite sx_rank by auto. tauto. Qed.

(** the high part: bucket [v] is a run of ones between two zeros *)
Definition H (k : nat) : bool := nth k (sd_high d) false.
Lemma H_true : forall k, H k = true <-> exists j, j < m /\ k = hix j + j.
Proof. destruct REP as [_ [_ [_ [_ E]]]]. exact E. Qed.
Lemma high_len : length (sd_high d) = m + K.
Proof. destruct REP as [_ [_ [_ [E _]]]]. exact E. Qed.
Lemma high_some : forall k, k < m + K -> high_at d k = Some (H k).
Proof. intros. unfold high_at, H. apply nth_error_nth'. rewrite high_len. auto. Qed.
Lemma bucket : forall v k, R (v * L) + v <= k + 1 -> k < v + R ((v + 1) * L) -> H k = (v + R (v * L) <=? k).
Proof.
  intros v k K1 K3. pose proof (R_le_m ((v + 1) * L)) as RM. destruct (Nat.leb_spec (v + R (v * L)) k) as [LE|LE].
  - apply H_true. exists (k - v). split; [lia|]. assert (HV : hix (k - v) = v).
    { assert (~ hix (k - v) < v) by (rewrite hix_lt_iff by lia; lia). assert (hix (k - v) < v + 1) by (rewrite hix_lt_iff by lia; lia). lia. }
    rewrite HV. lia.
  - destruct (H k) eqn:E; auto. apply H_true in E. destruct E as [j [J E]]. exfalso.
    destruct (Nat.lt_ge_cases j (R (v * L))) as [C|C].
    + assert (hix j < v) by (apply hix_lt_iff; auto). lia.
    + assert (~ hix j < v) by (rewrite hix_lt_iff by auto; lia). lia.
Qed.
Lemma zero_sel : forall v, v < K -> lsel false (sd_high d) (v + 1) = Some (v + R ((v + 1) * L)).
Proof.
  intros v VK. set (c := R ((v + 1) * L)). assert (CM : c <= m) by apply R_le_m.
  assert (HF : H (v + c) = false).
  { destruct (H (v + c)) eqn:E; auto. apply H_true in E. destruct E as [j [J E]]. exfalso.
    destruct (Nat.lt_ge_cases j c) as [C|C].
    - assert (hix j < v + 1) by (apply hix_lt_iff; auto). lia.
    - assert (~ hix j < v + 1) by (rewrite hix_lt_iff by auto; fold c; lia). lia. }
  assert (RK : rank_of H (v + c) = c).
  { apply (rank_sorted H m (fun j => hix j + j)); auto.
    - intros i j I J. pose proof (hix_le i j). lia.
    - apply H_true.
    - intros j J. assert (hix j < v + 1) by (apply hix_lt_iff; auto; lia). lia.
    - intros j J1 J2. assert (~ hix j < v + 1) by (rewrite hix_lt_iff by auto; fold c; lia). lia. }
  apply lsel_is; [|rewrite high_len; lia]. split.
  - unfold lbit. rewrite (nth_indep _ (negb false) false) by (rewrite high_len; lia). fold (H (v + c)). rewrite HF. auto.
  - rewrite (rank_of_ext _ (fun k => negb (H k))). { rewrite rank_of_negb, RK. lia. }
    intros j J. unfold lbit. rewrite (nth_indep _ (negb false) false) by (rewrite high_len; lia). fold (H j). destruct (H j); auto.
Qed.
Lemma one_sel : forall j, j < m -> lsel true (sd_high d) (j + 1) = Some (hix j + j) /\ hix j + j < m + K.
Proof.
  intros j J. assert (HB : hix j + j < m + K).
  { destruct (sx_sel j J) as [_ S2]. destruct REP as [_ [NK _]]. assert (hix j <= n / L). { unfold hix. apply Nat.div_le_mono. { pose proof L_pos. unfold L, wl in *. lia. } lia. } lia. }
  split; auto. apply lsel_is; [|rewrite high_len; lia].
  assert (EX : forall k, lbit true (sd_high d) k = H k) by (intros; unfold lbit, H; cbn [negb]; destruct (nth k (sd_high d) false); auto).
  split. { rewrite EX. apply H_true. eauto. }
  rewrite (rank_of_ext _ H) by auto. f_equal. apply (rank_sorted H m (fun j => hix j + j)); try lia.
  - intros i i' I I'. pose proof (hix_le i i'). lia.
  - apply H_true.
  - intros i I. pose proof (hix_le i j). lia.
  - intros i I1 I2. pose proof (hix_le j i). lia.
Qed.
Lemma low_some : forall j, j < m -> low_at d (Some j) = Some (sx j mod L).
Proof.
  intros j J. unfold low_at. cbn [obind]. destruct REP as [_ [_ [E _]]]. unfold av_get. rewrite E.
  rewrite nth_error_map. rewrite (nth_error_nth' _ 0) by exact J. cbn. f_equal. unfold sx. lia.
Qed.

(** ** the backwards scan.  [ow t] is rank_low when [t] elements remain *)
Definition ow (t : nat) : option nat := match t with 0 => None | S k => Some k end.
Lemma decw_ow : forall t, decw (ow (S t)) = ow t.
Proof. intros [|t]; auto. Qed.
Lemma in_bucket : forall v j, j < m -> R (v * L) <= j -> j < R ((v + 1) * L) -> sx j = v * L + sx j mod L.
Proof.
  intros v j J A1 A2. assert (HV : hix j = v).
  { assert (~ hix j < v) by (rewrite hix_lt_iff by lia; lia). assert (hix j < v + 1) by (rewrite hix_lt_iff by lia; lia). lia. }
  rewrite <- HV. unfold hix. fold wl. fold L. apply mod_split. apply L_pos.
Qed.
Lemma R_split : forall v val, val <= L -> R (v * L) <= R (v * L + val) /\ R (v * L + val) <= R ((v + 1) * L).
Proof. intros. split; apply rank_of_mono; lia. Qed.

Lemma scan_ok : forall v val fuel t, v < K -> val < L -> R (v * L + val + 1) <= t -> t <= R ((v + 1) * L) -> 1 <= v + t -> v + t <= fuel ->
  (sd_scan d fuel (v + t - 1) (ow t) val = Some None /\ R (v * L + val + 1) = 0) \/
  (let t' := R (v * L + val + 1) in sd_scan d fuel (v + t - 1) (ow t) val = Some (Some (v + t' - 1, ow t')) /\ 1 <= v + t').
Proof.
  intros v val fuel. induction fuel; intros t VK VL T1 T2 T3 T4; [lia|]. cbn [sd_scan].
  pose proof (R_le_m ((v + 1) * L)) as RM. pose proof (rank_of_mono B (v * L) (v * L + val + 1) ltac:(lia)) as R1. fold R in R1.
  rewrite high_some by lia. cbn [obind]. rewrite (bucket v) by lia.
  destruct (Nat.leb_spec (v + R (v * L)) (v + t - 1)) as [LE|LE].
  - destruct t as [|t]. { exfalso. lia. } cbn [ow]. rewrite low_some by lia. cbn [obind].
    assert (IB := in_bucket v t ltac:(lia)). destruct (Nat.ltb_spec val (sx t mod L)) as [C|C].
    + assert (TN : ~ (t < R (v * L + val + 1))) by (rewrite sx_rank by lia; lia).
      replace (v + S t - 1) with (v + t) by lia. destruct (v + t) as [|q] eqn:EQ.
      * left. split; auto. lia.
      * replace (decw (Some t)) with (ow t) by (destruct t; auto). specialize (IHfuel t). replace (v + t - 1) with q in IHfuel by lia. apply IHfuel; lia.
    + assert (TN : t < R (v * L + val + 1)) by (rewrite sx_rank by lia; lia).
      right. replace (R (v * L + val + 1)) with (S t) by lia. split; auto.
  - right. assert (t = R (v * L)) by lia. replace (R (v * L + val + 1)) with t by lia. split; auto.
Qed.

Lemma split_i : forall i, i = i / L * L + i mod L /\ i mod L < L.
Proof. intros. apply mod_split. apply L_pos. Qed.
Lemma val_K : forall i, i <= n -> i / L < K.
Proof. intros. destruct REP as [_ [E _]]. pose proof (Nat.div_le_mono i n L). pose proof L_pos. lia. Qed.
Lemma R_ge0 : forall v val, val < L -> R ((v + 1) * L) = 0 -> R (v * L + val + 1) = 0.
Proof. intros. assert (R (v * L + val + 1) <= R ((v + 1) * L)) by (apply rank_of_mono; lia). lia. Qed.

Lemma sd_get_ok : forall i, i < n -> sd_get d i = Some (B i).
Proof.
  intros i I. unfold sd_get. fold wl. fold L. destruct (split_i i) as [E1 E2]. set (v := i / L) in *. set (val := i mod L) in *.
  assert (VK : v < K) by (apply val_K; lia). rewrite zero_sel by auto. cbn [obind]. replace (v + R ((v + 1) * L) - v) with (R ((v + 1) * L)) by lia.
  assert (RS : R (v * L + val + 1) = R (v * L + val) + b2nat (B i)). { rewrite Nat.add_1_r. unfold R. rewrite rank_of_S. rewrite <- E1. auto. }
  assert (RL : R (v * L + val + 1) <= R ((v + 1) * L)) by (apply rank_of_mono; lia).
  assert (R1 : R (v * L) <= R (v * L + val)) by (apply rank_of_mono; lia).
  destruct (Nat.eqb_spec (R ((v + 1) * L)) 0) as [Z|Z]. { f_equal. destruct (B i); cbn [b2nat] in RS; auto. lia. }
  replace (Some (R ((v + 1) * L) - 1)) with (ow (R ((v + 1) * L))) by (destruct (R ((v + 1) * L)) as [|c]; [lia|]; cbn; f_equal; lia).
  destruct (scan_ok v val (S (v + R ((v + 1) * L))) (R ((v + 1) * L))) as [[E3 E4]|[E3 E4]]; auto; try lia.
  - rewrite E3. cbn [obind]. f_equal. destruct (B i); cbn [b2nat] in RS; auto. lia.
  - rewrite E3. cbn [obind]. remember (R (v * L + val + 1)) as t' eqn:ET. pose proof (R_le_m ((v + 1) * L)) as RM. rewrite high_some by lia. cbn [obind].
    rewrite (bucket v) by lia. destruct (Nat.leb_spec (v + R (v * L)) (v + t' - 1)) as [LE|LE].
    + destruct t' as [|t]; [exfalso; lia|]. cbn [ow]. rewrite low_some by lia. cbn [obind]. f_equal.
      assert (IB := in_bucket v t ltac:(lia) ltac:(lia) ltac:(lia)).
      assert (T1 : sx t < v * L + val + 1) by (apply sx_rank; lia).
      destruct (B i) eqn:BI; cbn [b2nat] in RS.
      * assert (T2 : ~ (sx t < v * L + val)) by (rewrite <- sx_rank by lia; lia). apply Nat.eqb_eq. lia.
      * assert (T2 : sx t < v * L + val) by (apply sx_rank; lia). apply Nat.eqb_neq. lia.
    + f_equal. destruct (B i); cbn [b2nat] in RS; auto. lia.
Qed.

Lemma rank_loop_ok : forall v val t, v < K -> val < L -> R (v * L + val) <= t -> t <= R ((v + 1) * L) ->
  sd_rank_loop d (v + t) (Some t) val = Some (R (v * L + val)).
Proof.
  intros v val. pose proof (R_le_m ((v + 1) * L)) as RM. induction t; intros VK VL T1 T2.
  - assert (R0 : R (v * L + val) = 0) by lia. rewrite R0. rewrite Nat.add_0_r. destruct v as [|v']; [reflexivity|]. cbn [sd_rank_loop decw].
    rewrite high_some by lia. cbn [obind]. assert (R (S v' * L) <= R (S v' * L + val)) by (apply rank_of_mono; lia).
    rewrite (bucket (S v')) by lia. replace (S v' + R (S v' * L) <=? v') with false by lia. reflexivity.
  - replace (v + S t) with (S (v + t)) by lia. cbn [sd_rank_loop decw]. rewrite high_some by lia. cbn [obind].
    assert (R1 : R (v * L) <= R (v * L + val)) by (apply rank_of_mono; lia).
    rewrite (bucket v) by lia. destruct (Nat.leb_spec (v + R (v * L)) (v + t)) as [LE|LE].
    + rewrite low_some by lia. cbn [obind]. assert (IB := in_bucket v t ltac:(lia) ltac:(lia) ltac:(lia)).
      destruct (Nat.leb_spec val (sx t mod L)) as [C|C].
      * assert (TN : ~ (t < R (v * L + val))) by (rewrite sx_rank by lia; lia). apply IHt; auto; lia.
      * assert (TN : t < R (v * L + val)) by (rewrite sx_rank by lia; lia). f_equal. lia.
    + cbn [obind]. f_equal. lia.
Qed.
Lemma sd_rank1_ok : forall i, i <= n -> sd_rank1 d i = Some (R i).
Proof.
  intros i I. unfold sd_rank1. fold wl. fold L. destruct (split_i i) as [E1 E2]. set (v := i / L) in *. set (val := i mod L) in *.
  assert (VK : v < K) by (apply val_K; lia). rewrite zero_sel by auto. cbn [obind]. replace (v + R ((v + 1) * L) - v) with (R ((v + 1) * L)) by lia.
  assert (RL : R (v * L + val) <= R ((v + 1) * L)) by (apply rank_of_mono; lia).
  destruct (Nat.eqb_spec (R ((v + 1) * L)) 0) as [Z|Z]. { f_equal. rewrite E1. lia. }
  rewrite rank_loop_ok by (auto; lia). rewrite E1. auto.
Qed.
Lemma sd_rank_ok : forall b i, i <= n -> sd_rank b d i = Some (rank_of (fun k => Bool.eqb (B k) b) i).
Proof.
  intros b i I. unfold sd_rank. rewrite sd_rank1_ok by auto. cbn [obind]. f_equal. destruct b.
  - apply rank_of_ext. intros. destruct (B j); auto.
  - unfold R. rewrite <- rank_of_negb. apply rank_of_ext. intros. destruct (B j); auto.
Qed.

Lemma sd_select1_ok : forall j, j < m -> sd_select1 d (j + 1) = Some (sx j).
Proof.
  intros j J. unfold sd_select1. destruct (one_sel j J) as [E _]. rewrite E. replace (j + 1 - 1) with j by lia.
  pose proof (low_some j J) as LS. unfold low_at in LS. cbn [obind] in LS. destruct (av_get (sd_low d) j) as [x|]; [|discriminate]. cbn [obind] in *.
  apply some_inj in LS. f_equal. replace (hix j + j + 1 - (j + 1)) with (hix j) by lia. fold wl. fold L. destruct (split_i (sx j)) as [S1 _].
  unfold hix. fold wl. fold L. lia.
Qed.
Lemma sx_ge : forall j, j < m -> j <= sx j.
Proof. induction j; intros J; [lia|]. specialize (IHj ltac:(lia)). pose proof (sx_lt j (S j)). lia. Qed.
(** zeros before the element [j] *)
Lemma sel0_loop_ok : forall i q, is_select (fun k => negb (B k)) i q -> forall fuel lb rb,
  1 <= lb -> lb <= rb -> rb <= m + 1 -> rb - lb < fuel ->
  (lb = 1 \/ sx (lb - 2) < q) -> (rb <= m -> q < sx (rb - 1)) ->
  sd_sel0_loop d fuel i lb rb (if lb =? 1 then 0 else sx (lb - 2) + 1 - (lb - 1)) (if lb =? 1 then None else Some (sx (lb - 2))) = Some q.
Proof.
  intros i q S0. assert (RZ : forall y, rank_of (fun k => negb (B k)) y = y - R y) by (intros; apply rank_of_negb).
  assert (QB : B q = false) by (destruct S0 as [S1 _]; destruct (B q); auto). destruct S0 as [_ S1]. rewrite RZ in S1.
  pose proof (rank_of_le B q) as RQ. fold R in RQ.
  induction fuel; intros lb rb A1 A2 A3 A4 A5 A6; [lia|]. cbn [sd_sel0_loop]. destruct (Nat.ltb_spec lb rb) as [C|C].
  - set (mid := lb + (rb - lb) / 2). assert (M1 : lb <= mid < rb) by (unfold mid; lia). clearbody mid.
    replace mid with (mid - 1 + 1) at 1 by lia. rewrite sd_select1_ok by lia. cbn [obind]. pose proof (sx_ge (mid - 1) ltac:(lia)) as GE.
    assert (RX : R (sx (mid - 1)) = mid - 1). { destruct (sx_sel (mid - 1)) as [[_ SS] _]; [lia|]. fold R in SS. lia. }
    destruct (Nat.leb_spec i (sx (mid - 1) + 1 - mid)) as [D|D].
    + apply IHfuel; try lia. intros _. destruct (Nat.lt_trichotomy q (sx (mid - 1))) as [Q|[Q|Q]]; auto.
      * exfalso. rewrite Q in QB. destruct (sx_sel (mid - 1)) as [[SS _] _]; [lia|]. congruence.
      * exfalso. pose proof (rank_of_step B (sx (mid - 1)) q). fold R in H0. unfold R in *. lia.
    + assert (Q : sx (mid - 1) < q). { apply Nat.nle_gt. intro LE. destruct (Nat.eq_dec q (sx (mid - 1))) as [E|E].
        { destruct (sx_sel (mid - 1)) as [[SS _] _]; [lia|]. congruence. }
        pose proof (rank_of_step B (S q) (sx (mid - 1)) ltac:(lia)) as ST. rewrite rank_of_S, QB in ST. cbn [b2nat] in ST. unfold R in *. lia. }
      specialize (IHfuel (mid + 1) rb). replace (mid + 1 =? 1) with false in IHfuel by lia. replace (mid + 1 - 2) with (mid - 1) in IHfuel by lia.
      replace (mid + 1 - 1) with mid in IHfuel by lia. apply IHfuel; auto; lia.
  - assert (lb = rb) by lia. subst rb. assert (RQ2 : R q = lb - 1).
    { apply Nat.le_antisymm.
      - apply Nat.nlt_ge. intro LT. assert (sx (lb - 1) < q). { apply sx_rank; [pose proof (R_le_m q); lia|lia]. } pose proof (R_le_m q). lia.
      - destruct A5 as [->|A5]; [lia|]. destruct (Nat.eq_dec lb 1) as [->|]; [lia|]. assert (lb - 2 < R q) by (apply sx_rank; lia). lia. }
    f_equal. destruct (Nat.eqb_spec lb 1) as [->|NE]. { lia. } pose proof (sx_ge (lb - 2) ltac:(lia)). lia.
Qed.
Lemma sd_select0_ok : forall i q, is_select (fun k => negb (B k)) i q -> q < n -> sd_select0 d i = Some q.
Proof.
  intros i q S0 Q. unfold sd_select0. assert (AS : av_size (sd_low d) = m). { unfold av_size. destruct REP as [_ [_ [E _]]]. rewrite E, map_length. reflexivity. }
  rewrite AS. pose proof (sel0_loop_ok i q S0 (S m) 1 (m + 1)) as E. cbn [Nat.eqb] in E. apply E; auto; lia.
Qed.

(** ** get_int *)
(** bits collected so far: elements [t .. t0) *)
Definition res_ok (idx t t0 : nat) (res : N) : Prop :=
  (forall j, t <= j < t0 -> idx <= sx j) /\ forall k, tb res k = true <-> exists j, t <= j < t0 /\ sx j = idx + k.
Section GI.
Variables idx len : nat.
Hypothesis LEN : 1 <= len <= 64.
Let t0 := R (idx + len).
Hypothesis TOP : idx + len <= n.
Definition gi_final (res : N) : Prop := res_ok idx (R idx) t0 res.
Lemma final_of : forall t res, t <= t0 -> res_ok idx t t0 res -> (forall j, j < t -> sx j < idx) -> gi_final res.
Proof.
  intros t res T [R1 R2] LT. assert (TM : t0 <= m) by (apply R_le_m). assert (E : R idx <= t).
  { apply Nat.nlt_ge. intro C. assert (t < t0). { assert (R idx <= t0) by (apply rank_of_mono; lia). lia. }
    assert (sx t < idx) by (apply sx_rank; lia). specialize (R1 t). lia. }
  assert (E2 : t <= R idx). { destruct t as [|t]; [lia|]. assert (t < R idx) by (apply sx_rank; [lia|]; apply LT; lia). lia. }
  replace t with (R idx) in * by lia. split; auto.
Qed.
Lemma gi_zero_ok : forall sh hv t, hv < K -> R (hv * L) <= t -> t <= R ((hv + 1) * L) -> sh + 1 = hv + t ->
  (gi_zero d idx sh hv = Some None /\ forall j, j < t -> sx j < idx) \/
  (exists hv', gi_zero d idx sh hv = Some (Some (hv' + t - 1, hv')) /\ hv' <= hv /\ R (hv' * L) < t /\ t <= R ((hv' + 1) * L)).
Proof.
  induction sh; intros hv t HK T1 T2 SH; cbn [gi_zero]; pose proof (R_le_m ((hv + 1) * L)) as RM; rewrite high_some by lia; cbn [obind];
    rewrite (bucket hv) by lia; destruct (Nat.leb_spec (hv + R (hv * L)) (hv + t - 1)) as [LE|LE]; try lia.
  - destruct (Nat.leb_spec (hv + R (hv * L)) 0) as [Q|Q].
    + right. exists hv. split. { do 2 f_equal. f_equal. lia. } split; auto. split; auto. lia.
    + left. split; auto. lia.
  - destruct (Nat.leb_spec (hv + R (hv * L)) 0) as [Q|Q]; [lia|]. left. split; auto. intros j J. exfalso. assert (t = 1) by lia. assert (hv = 0) by lia. subst hv t. change (0 * L) with 0 in *. change (R 0) with 0 in *. lia.
  - destruct (Nat.leb_spec (hv + R (hv * L)) (S sh)) as [Q|Q]; [|lia].
    right. exists hv. split. { do 2 f_equal. f_equal. lia. } split; auto. split; auto. lia.
  - destruct (Nat.leb_spec (hv + R (hv * L)) (S sh)) as [Q|Q]; [lia|].
    assert (TE : t = R (hv * L)) by lia. assert (HV : 1 <= hv). { destruct hv; [|lia]. change (0 * L) with 0 in *. change (R 0) with 0 in *. lia. }
    fold wl. fold L. destruct (Nat.leb_spec idx (hv * L)) as [C|C].
    + destruct (IHsh (hv - 1) t) as [[E1 E2]|[hv' [E1 [E2 E3]]]].
      * lia.
      * rewrite TE. apply rank_of_mono. apply Nat.mul_le_mono_r. lia.
      * rewrite TE. replace (hv - 1 + 1) with hv by lia. lia.
      * lia.
      * left. auto.
      * right. exists hv'. split; auto. split; auto. lia.
    + left. split; auto. intros j J. assert (sx j < hv * L) by (apply sx_rank; lia). lia.
Qed.
Lemma gi_ones_ok : forall sh hv t res, hv < K -> R (hv * L) <= t -> t <= R ((hv + 1) * L) -> t <= t0 -> sh + 1 = hv + t -> res_ok idx t t0 res ->
  (exists r, gi_ones d idx sh (ow t) hv res = Some (inl r) /\ gi_final r) \/
  (exists t' r, gi_ones d idx sh (ow t) hv res = Some (inr (hv + t' - 1, ow t', r)) /\ t' <= t /\ t' = R (hv * L) /\ 1 <= hv + t' /\ res_ok idx t' t0 r).
Proof.
  assert (TM : t0 <= m) by apply R_le_m.
  assert (STEP : forall hv t res, R (hv * L) <= t -> S t <= R ((hv + 1) * L) -> S t <= t0 -> res_ok idx (S t) t0 res -> idx <= sx t ->
     exists b, shl_c 1 (hv * L + sx t mod L - idx) = Some b /\ res_ok idx t t0 (N.lor res b)).
  { intros hv t res T1 T2 T3 [Q1 Q2] ID. assert (IB := in_bucket hv t ltac:(lia) ltac:(lia) ltac:(lia)). rewrite <- IB.
    assert (ST : sx t < idx + len) by (apply sx_rank; [lia|]; fold t0; lia). unfold shl_c. replace (sx t - idx <? 64) with true by lia.
    eexists. split; [reflexivity|]. split. { intros j J. destruct (Nat.eq_dec j t) as [->|]; auto. apply Q1. lia. }
    intros k. rewrite tb_lor, tb_shl. rewrite orb_true_iff, Q2. 
    assert (T1k : (k <? 64) && ((sx t - idx <=? k) && tb 1 (k - (sx t - idx))) = true <-> k = sx t - idx).
    { destruct (Nat.eq_dec k (sx t - idx)) as [->|NE].
      - replace (sx t - idx <? 64) with true by lia. rewrite Nat.leb_refl, Nat.sub_diag. change (tb 1 0) with true. tauto.
      - split; [|intro; congruence]. intro X. exfalso. apply andb_true_iff in X. destruct X as [_ X]. apply andb_true_iff in X. destruct X as [X1 X2].
        rewrite (tb_high 1 1) in X2; [discriminate|reflexivity|]. lia. }
    rewrite T1k. split.
    - intros [[j [J1 J2]]|E]; [exists j; split; auto; lia|]. exists t. split; lia.
    - intros [j [J1 J2]]. destruct (Nat.eq_dec j t) as [->|]; [right; lia|]. left. exists j. split; auto. lia. }
  induction sh; intros hv t res HK T1 T2 T3 SH Q; cbn [gi_ones]; pose proof (R_le_m ((hv + 1) * L)) as RM; rewrite high_some by lia; cbn [obind];
    rewrite (bucket hv) by lia.
  - destruct (Nat.leb_spec (hv + R (hv * L)) 0) as [C|C].
    + destruct t as [|t]; [lia|]. cbn [ow]. rewrite low_some by lia. cbn [obind]. fold wl. fold L.
      assert (IB := in_bucket hv t ltac:(lia) ltac:(lia) ltac:(lia)). rewrite <- IB. left. destruct (Nat.leb_spec idx (sx t)) as [D|D].
      * destruct (STEP hv t res) as [b [E1 E2]]; auto; try lia. rewrite <- IB in E1. rewrite E1. cbn [obind]. eexists. split; [reflexivity|].
        apply (final_of t); auto; [lia|]. intros. lia.
      * eexists. split; [reflexivity|]. apply (final_of (S t)); auto. intros j J. destruct (Nat.eq_dec j t) as [->|]; auto. pose proof (sx_lt j t). lia.
    + right. exists t, res. split; auto. { do 3 f_equal. f_equal. lia. } split; auto. split; [lia|]. split; [lia|auto].
  - destruct (Nat.leb_spec (hv + R (hv * L)) (S sh)) as [C|C].
    + destruct t as [|t]; [lia|]. cbn [ow]. rewrite low_some by lia. cbn [obind]. fold wl. fold L.
      assert (IB := in_bucket hv t ltac:(lia) ltac:(lia) ltac:(lia)). rewrite <- IB. destruct (Nat.leb_spec idx (sx t)) as [D|D].
      * destruct (STEP hv t res) as [b [E1 E2]]; auto; try lia. rewrite <- IB in E1. rewrite E1. cbn [obind].
        replace (decw (Some t)) with (ow t) by (destruct t; auto).
        destruct (IHsh hv t (N.lor res b)) as [[r [F1 F2]]|[t' [r [F1 [F2 F3]]]]]; auto; try lia.
        { left. eauto. } { right. exists t', r. split; auto. }
      * left. eexists. split; [reflexivity|]. apply (final_of (S t)); auto. intros j J. destruct (Nat.eq_dec j t) as [->|]; auto. pose proof (sx_lt j t). lia.
    + right. exists t, res. split; auto. { do 3 f_equal. f_equal. lia. } split; auto. split; [lia|]. split; [lia|auto].
Qed.
Lemma gi_loop_ok : forall fuel hv t res, hv < K -> R (hv * L) <= t -> t <= R ((hv + 1) * L) -> t <= t0 -> 1 <= hv + t -> hv + t <= fuel -> res_ok idx t t0 res ->
  exists r, gi_loop d fuel idx (hv + t - 1) (ow t) hv res = Some r /\ gi_final r.
Proof.
  induction fuel; intros hv t res HK T1 T2 T3 T4 F Q; [lia|]. cbn [gi_loop].
  destruct (gi_zero_ok (hv + t - 1) hv t) as [[E1 E2]|[hv' [E1 [E2 [E3 E4]]]]]; auto; try lia.
  - rewrite E1. cbn [obind]. eexists. split; [reflexivity|]. apply (final_of t); auto.
  - rewrite E1. cbn [obind]. destruct (gi_ones_ok (hv' + t - 1) hv' t res) as [[r [F1 F2]]|[t' [r [F1 [F2 [F3 [F4 F5]]]]]]]; auto; try lia.
    + rewrite F1. cbn [obind]. eauto.
    + rewrite F1. cbn [obind]. apply IHfuel; auto; try lia.
Qed.
Lemma sd_get_int_ok : exists r, sd_get_int d idx len = Some r /\ forall k, tb r k = (k <? len) && B (idx + k).
Proof.
  assert (DONE : forall r, gi_final r -> forall k, tb r k = (k <? len) && B (idx + k)).
  { intros r [F1 F2] k. apply eq_true_iff_eq. rewrite F2. rewrite andb_true_iff, Nat.ltb_lt, B_sx. assert (TM : t0 <= m) by apply R_le_m. split.
    - intros [j [J1 J2]]. assert (sx j < idx + len) by (apply sx_rank; [lia|]; fold t0; lia). split; [lia|]. exists j. split; auto. lia.
    - intros [C [j [J1 J2]]]. exists j. split; [|auto]. assert (j < t0) by (apply sx_rank; auto; lia). assert (~ j < R idx) by (rewrite sx_rank by auto; lia). lia. }
  unfold sd_get_int. fold wl. fold L. set (i := idx + len - 1). destruct (split_i i) as [E1 E2]. set (v := i / L) in *. set (val := i mod L) in *.
  assert (VK : v < K) by (apply val_K; lia). rewrite zero_sel by auto. cbn [obind]. replace (v + R ((v + 1) * L) - v) with (R ((v + 1) * L)) by lia.
  assert (ET : v * L + val + 1 = idx + len) by lia.
  assert (RL : R (v * L + val + 1) <= R ((v + 1) * L)) by (apply rank_of_mono; lia).
  assert (R1 : R (v * L) <= R (v * L + val + 1)) by (apply rank_of_mono; lia). assert (RID : R idx <= t0) by (apply rank_of_mono; lia).
  assert (EMPTY : t0 = 0 -> gi_final 0%N).
  { intros Z. split. { intros. lia. } intros k. rewrite tb_0. split; [discriminate|]. intros [j [J _]]. lia. }
  destruct (Nat.eqb_spec (R ((v + 1) * L)) 0) as [Z|Z]. { eexists. split; [reflexivity|]. apply DONE. apply EMPTY. unfold t0. rewrite <- ET. lia. }
  replace (Some (R ((v + 1) * L) - 1)) with (ow (R ((v + 1) * L))) by (destruct (R ((v + 1) * L)) as [|c]; [lia|]; cbn; f_equal; lia).
  destruct (scan_ok v val (S (v + R ((v + 1) * L))) (R ((v + 1) * L))) as [[E3 E4]|[E3 E4]]; auto; try lia.
  - rewrite E3. cbn [obind]. eexists. split; [reflexivity|]. apply DONE. apply EMPTY. unfold t0. rewrite <- ET. lia.
  - rewrite E3. cbn [obind]. rewrite ET in *. fold t0. fold t0 in E4, RL, R1. destruct (gi_loop_ok (S (S (v + t0 - 1))) v t0 0%N) as [r [F1 F2]]; auto; try lia.
    + split; [intros; lia|]. intros k. rewrite tb_0. split; [discriminate|]. intros [j [J _]]. lia.
    + exists r. split; auto.
Qed.
End GI.
End SD.
