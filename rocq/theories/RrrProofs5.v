(** * The queries of rrr_vector *)
From Coq Require Import NArith List Bool Arith Lia.
From Verif Require Import Base SpecBits RankSelect Bits AbsVec RrrHelper RrrProofs RrrProofs2 RrrProofs3 RrrVector FnArr RrrProofs4.
Import ListNotations.

Lemma W64_eq : W64 = (2 ^ N.of_nat 64)%N. Proof. reflexivity. Qed.
Lemma sub_app_shift : forall l pos a b, pos + (a + b) <= length l ->
  N.lor (bits_N (sub l pos a)) (N.shiftl (bits_N (sub l (pos + a) b)) (N.of_nat a)) = bits_N (sub l pos (a + b)).
Proof.
  intros l pos a b H. apply N_testbit_ext. intro i. rewrite N.lor_spec, !bits_N_testbit. destruct (Nat.lt_ge_cases i a).
  - rewrite N.shiftl_spec_low by lia. rewrite orb_false_r. rewrite !sub_nth by lia. auto.
  - rewrite N.shiftl_spec_high' by lia. rewrite <- Nat2N.inj_sub, bits_N_testbit. rewrite nth_overflow by (rewrite sub_length; lia). cbn [orb].
    destruct (Nat.lt_ge_cases i (a + b)).
    + rewrite !sub_nth by lia. f_equal. lia.
    + rewrite !nth_overflow; auto; rewrite sub_length; lia.
Qed.
Lemma rank_filter : forall b s p, p <= length s -> rank_of (fun x => Bool.eqb b (nth x s false)) p = length (filter (Bool.eqb b) (firstn p s)).
Proof.
  intros b s p. induction p as [|p IH]; intro L; auto. rewrite rank_of_S, IH by lia.
  assert (forall A (l : list A) d k, k < length l -> firstn (S k) l = firstn k l ++ [nth k l d]) as F.
  { induction l as [|x l IHl]; intros d k K; cbn [length] in K; [lia|]. destruct k; auto. cbn [firstn nth app]. f_equal. apply IHl. lia. }
  rewrite (F _ s false p) by lia. rewrite filter_app, app_length. f_equal. cbn [filter]. destruct (Bool.eqb b (nth p s false)); auto.
Qed.

Section K.
Variables (bs tk : nat) (bv : list bool) (v : rrr).
Notation n := (length bv).
Hypothesis HBS : 3 <= bs <= 256.
Hypothesis HTK : 2 <= tk.
Hypothesis HN : (N.of_nat n + 256 < W64)%N.
Hypothesis HV : rrr_repr bs tk bv v.
Notation B := (B bs bv).
Notation NB := (NB bs bv).
Notation Q := (Q bs bv).
Notation P := (P bs bv).
Notation R := (R bs bv).
Notation cnt := (cnt bs bv).
Notation spc := (spc bs bv).
Notation blk := (blk bs bv).
Notation inv := (inv bs tk bv).
Notation st := (st bs tk bv).
Notation SB := (SB bs tk bv).
Notation SR := (SR bs tk bv).
Notation bit := (bit bv).

Lemma bt_at : forall j, j < B -> avn (r_bt v) j = Some (st j).
Proof. intros j J. destruct HV as [_ [E _]]. rewrite E. apply arr_avn. auto. Qed.
Lemma B_SB : forall j, j < B -> j / tk < SB.
Proof. intros j J. apply (sb_index bs tk bv HBS HTK HN). unfold RrrProofs4.B in J. lia. Qed.
Lemma inv_at : forall s, s < SB -> nth_error (r_invert v) s = Some (inv s).
Proof. intros s H. destruct HV as [_ [_ [_ [_ [_ E]]]]]. rewrite E. apply farr_nth_error. auto. Qed.
Lemma rank_at : forall s, s < SR -> avn (r_rank v) s = Some (R (s * tk)).
Proof. intros s H. destruct HV as [_ [_ [_ [_ [E _]]]]]. rewrite E. apply (arr_avn _ _ (fun q => R (q * tk))). auto. Qed.
Lemma ptr_at : forall s, s < SB -> exists x, avn (r_btnrp v) s = Some x /\ (s * tk < NB -> x = P (s * tk)).
Proof.
  intros s H. destruct HV as [_ [_ [_ [E _]]]]. rewrite E. eexists. split; [apply arr_avn; auto|]. intro L. cbv beta. replace (s * tk <? NB) with true by lia. auto.
Qed.
Lemma unst : forall j, (if inv (j / tk) then bs - st j else st j) = cnt j.
Proof. intro j. unfold RrrProofs4.st. pose proof (cnt_le bs bv j). destruct (inv (j / tk)); lia. Qed.
Lemma blk_type_ok : forall j, j < B -> blk_type bs tk v j = Some (cnt j).
Proof. intros j J. unfold blk_type. rewrite bt_at by auto. cbn [obind]. rewrite inv_at by (apply B_SB; auto). cbn [obind]. rewrite unst. auto. Qed.
Lemma skip_ok : forall k j, j + k <= B -> skip_blocks bs v k j (P j) = Some (P (j + k)).
Proof.
  induction k as [|k IH]; intros j H; cbn [skip_blocks]. { rewrite Nat.add_0_r. auto. }
  rewrite bt_at by lia. cbn [obind]. rewrite spc_st by auto. replace (j + S k) with (S j + k) by lia. rewrite <- IH by lia. auto.
Qed.
Lemma field_ok : forall j, j < NB -> tget (max_log bs) (r_btnr v) (P j) (spc j) = Some (enc (blk j) (cnt j)).
Proof.
  intros j J. destruct HV as [_ [_ [[BL BK] _]]]. destruct (max_log_ok bs ltac:(lia)) as [M1 M2].
  pose proof (spc_le bs tk bv HBS HTK HN j).
  rewrite tget_ok; auto; [|lia|].
  - rewrite BK by auto. rewrite N_bits_inv; auto. apply space_fits. pose proof (enc_lt (blk j)) as E. rewrite blk_length in E. exact E.
  - rewrite BL. unfold LB. pose proof (psum_mono spc (S j) B) as M. pose proof (NB_B bs tk bv HBS HTK HN). specialize (M ltac:(lia)). cbn [psum] in M. unfold RrrProofs4.P. lia.
Qed.
Lemma blk_nr_ok : forall j, j < NB -> blk_nr bs tk v j (cnt j) = Some (enc (blk j) (cnt j)).
Proof.
  intros j J. unfold blk_nr. pose proof (NB_B bs tk bv HBS HTK HN). pose proof (dm bs tk bv HBS HTK HN j).
  destruct (ptr_at (j / tk)) as [x [E X]]. { apply B_SB. lia. }
  rewrite E. cbn [obind]. rewrite X by lia. rewrite skip_ok by lia. cbn [obind]. replace (j / tk * tk + (j - j / tk * tk)) with j by lia. apply field_ok. auto.
Qed.
Lemma bdm : forall i, i = i / bs * bs + i mod bs.
Proof. intro i. pose proof (Nat.div_mod i bs ltac:(lia)). lia. Qed.
Lemma blk_in : forall i, i < n -> i / bs < NB.
Proof. intros i H. apply Nat.nle_gt. intro G. apply (NB_cover bs tk bv HBS HTK HN) in G. pose proof (bdm i). lia. Qed.
Lemma blk_bit : forall i, nth (i mod bs) (blk (i / bs)) false = bit i.
Proof.
  intro i. unfold RrrProofs4.blk. rewrite farr_nth by (apply Nat.mod_upper_bound; lia). unfold RrrProofs4.bit. f_equal. pose proof (bdm i). lia.
Qed.
Lemma access_ok : forall i, i < n -> rrr_access bs tk v i = Some (bit i).
Proof.
  intros i H. pose proof (blk_in i H) as J. pose proof (NB_B bs tk bv HBS HTK HN). unfold rrr_access. rewrite blk_type_ok by lia. cbn [obind].
  pose proof (Nat.mod_upper_bound i bs ltac:(lia)).
  assert (DB : decode_bit bs (cnt (i / bs)) (enc (blk (i / bs)) (cnt (i / bs))) (i mod bs) = Some (bit i)).
  { unfold RrrProofs4.cnt. rewrite decode_bit_ok; auto; [|apply blk_length]. rewrite blk_bit. auto. }
  destruct (Nat.eqb_spec (cnt (i / bs)) 0) as [Z|Z]; cbn [orb].
  { rewrite <- DB. rewrite Z. unfold decode_bit. replace (0 =? bs) with false by (symmetry; apply Nat.eqb_neq; lia). auto. }
  destruct (Nat.eqb_spec (cnt (i / bs)) bs) as [F|F]. { rewrite <- DB. unfold decode_bit. rewrite F, Nat.eqb_refl. f_equal. apply Nat.ltb_lt. lia. }
  rewrite blk_nr_ok by auto. cbn [obind]. exact DB.
Qed.

(** ** get_int *)
Lemma get_int1_ok : forall idx len, 1 <= len <= 64 -> idx mod bs + len <= bs -> idx + len <= n ->
  get_int1 bs tk v idx len = Some (bits_N (sub bv idx len)).
Proof.
  intros idx len L M H. pose proof (blk_in idx ltac:(lia)) as J. pose proof (NB_B bs tk bv HBS HTK HN). unfold get_int1. rewrite blk_type_ok by lia. cbn [obind].
  assert (DB : decode_int bs (cnt (idx / bs)) (enc (blk (idx / bs)) (cnt (idx / bs))) (idx mod bs) len = Some (bits_N (sub bv idx len))).
  { unfold RrrProofs4.cnt. rewrite decode_int_ok; auto; [|apply blk_length|lia]. do 2 f_equal. apply list_eq_nth with false. { rewrite !sub_length; auto. rewrite blk_length. auto. }
    intros o O. rewrite sub_length in O by (rewrite blk_length; auto). rewrite !sub_nth by auto. unfold RrrProofs4.blk. rewrite farr_nth by lia. f_equal. pose proof (bdm idx). lia. }
  destruct (Nat.eqb_spec (cnt (idx / bs)) 0) as [Z|Z].
  { rewrite <- DB, Z. unfold decode_int. replace (0 =? bs) with false by (symmetry; apply Nat.eqb_neq; lia). auto. }
  destruct (Nat.eqb_spec (cnt (idx / bs)) bs) as [F|F]; cbn [andb]; [destruct (bs <=? 64)|]; cbn [andb].
  - rewrite <- DB. unfold decode_int. rewrite F, Nat.eqb_refl. auto.
  - rewrite blk_nr_ok by auto. exact DB.
  - rewrite blk_nr_ok by auto. exact DB.
Qed.
Lemma get_int_loop_ok : forall f idx b_len b_sum len i0, len < f -> 1 <= b_len <= len -> b_sum + len <= 64 -> idx mod bs + b_len <= bs ->
  (b_len = len \/ idx mod bs + b_len = bs) -> idx = i0 + b_sum -> idx + len <= n ->
  get_int_loop bs tk v f idx b_len b_sum len (bits_N (sub bv i0 b_sum)) = Some (bits_N (sub bv i0 (b_sum + len))).
Proof.
  induction f as [|f IH]; intros idx b_len b_sum len i0 F L S64 M D E H; [lia|]. cbn [get_int_loop].
  rewrite get_int1_ok by lia. cbn [obind].
  assert (SM : (N.shiftl (bits_N (sub bv idx b_len)) (N.of_nat b_sum) mod W64)%N = N.shiftl (bits_N (sub bv idx b_len)) (N.of_nat b_sum)).
  { apply N.mod_small. rewrite N.shiftl_mul_pow2. rewrite W64_eq. pose proof (bits_N_lt (sub bv idx b_len)) as BL. rewrite sub_length in BL by lia.
    apply N.lt_le_trans with (2 ^ N.of_nat b_len * 2 ^ N.of_nat b_sum)%N. { apply N.mul_lt_mono_pos_r; auto. pose proof (N.pow_nonzero 2 (N.of_nat b_sum) ltac:(discriminate)). lia. }
    rewrite <- N.pow_add_r. apply N.pow_le_mono_r; lia. }
  rewrite SM.
  assert (LS : N.lor (bits_N (sub bv i0 b_sum)) (N.shiftl (bits_N (sub bv idx b_len)) (N.of_nat b_sum)) = bits_N (sub bv i0 (b_sum + b_len))) by (rewrite E; apply sub_app_shift; lia).
  rewrite LS.
  destruct (Nat.eqb_spec (len - b_len) 0). { do 3 f_equal. lia. }
  assert (MZ : (idx + b_len) mod bs = 0).
  { destruct D as [|D]; [lia|]. pose proof (bdm idx). replace (idx + b_len) with ((idx / bs + 1) * bs) by nia. apply Nat.mod_mul. lia. }
  rewrite IH; try lia. do 3 f_equal. lia.
Qed.
Lemma get_int_ok : forall idx len, 1 <= len <= 64 -> idx + len <= n -> rrr_get_int bs tk v idx len = Some (bits_N (sub bv idx len)).
Proof.
  intros idx len L H. unfold rrr_get_int. pose proof (bdm idx) as D. pose proof (Nat.mod_upper_bound idx bs ltac:(lia)) as U.
  destruct (Nat.eqb_spec (idx / bs) ((idx + len - 1) / bs)) as [E|E].
  - apply get_int1_ok; auto. pose proof (bdm (idx + len - 1)) as D2. pose proof (Nat.mod_upper_bound (idx + len - 1) bs ltac:(lia)). nia.
  - assert (bs - idx mod bs < len).
    { apply Nat.nle_gt. intro G. apply E. apply Nat.div_unique with (idx mod bs + len - 1); lia. }
    pose proof (get_int_loop_ok (S len) idx (bs - idx mod bs) 0 len idx) as G. unfold sub at 1 in G. cbn [firstn bits_N Nat.add] in G. apply G; lia.
Qed.

(** ** rank *)
Lemma rank_blocks_ok : forall k j s p, j + k <= B -> (forall x, j <= x < j + k -> x / tk = s) ->
  rank_blocks bs v k j (inv s) (R j) p = Some (R (j + k), p + (P (j + k) - P j)).
Proof.
  induction k as [|k IH]; intros j s p H D; cbn [rank_blocks]. { rewrite Nat.add_0_r. do 2 f_equal. lia. }
  rewrite bt_at by lia. cbn [obind]. rewrite spc_st by auto.
  assert (E : (if inv s then bs - st j else st j) = cnt j) by (rewrite <- (D j) by lia; apply unst). rewrite E.
  change (R j + cnt j) with (R (S j)). rewrite IH by (try lia; intros; apply D; lia).
  replace (S j + k) with (j + S k) by lia. do 2 f_equal.
  pose proof (psum_mono spc (S j) (j + S k) ltac:(lia)) as M. cbn [psum] in M. unfold RrrProofs4.P. cbn [psum]. lia.
Qed.
Lemma bit_beyond : forall p, n <= p -> bit p = false. Proof. intros. unfold RrrProofs4.bit. apply nth_overflow. auto. Qed.
Lemma sb_bounds : forall i, i / bs / tk * tk * bs <= i < (i / bs / tk + 1) * tk * bs.
Proof.
  intro i. pose proof (bdm i). pose proof (dm bs tk bv HBS HTK HN (i / bs)). pose proof (Nat.mod_upper_bound i bs ltac:(lia)). pose proof (Nat.mod_upper_bound (i / bs) tk ltac:(lia)).
  nia.
Qed.
Lemma rank1_ok : forall i, i <= n -> rrr_rank1 bs tk v i = Some (rank_of bit i).
Proof.
  intros i H. unfold rrr_rank1. assert (IQ : i / bs <= Q) by (apply Nat.div_le_mono; lia).
  destruct (sb_index bs tk bv HBS HTK HN (i / bs) IQ) as [S1 S2]. set (sp := i / bs / tk) in *.
  destruct (ptr_at sp S1) as [x [EP XP]]. rewrite EP. cbn [obind]. rewrite rank_at by auto. cbn [obind].
  pose proof (sb_bounds i) as SBD. fold sp in SBD. pose proof (dm bs tk bv HBS HTK HN (i / bs)) as DT. fold sp in DT. pose proof (bdm i) as DB.
  assert (SZ : av_size (r_rank v) = SR). { destruct HV as [_ [_ [_ [_ [E _]]]]]. rewrite E. apply arr_size. } rewrite SZ.
  assert (RS : R (sp * tk) = rank_of bit (sp * tk * bs)) by (apply (R_rank bs tk bv HBS HTK HN)).
  assert (QK : exists q, (if sp + 1 <? SR then let* nx := avn (r_rank v) (sp + 1) in
      if nx =? R (sp * tk) then Some (Some (R (sp * tk))) else if nx - R (sp * tk) =? bs * tk then Some (Some (R (sp * tk) + i - sp * tk * bs)) else Some None
     else Some None) = Some q /\ (q = None \/ q = Some (rank_of bit i))).
  { destruct (Nat.ltb_spec (sp + 1) SR); [|eauto]. rewrite rank_at by auto. cbn [obind].
    assert (RN : R ((sp + 1) * tk) = rank_of bit ((sp + 1) * tk * bs)) by (apply (R_rank bs tk bv HBS HTK HN)).
    pose proof (rank_of_mono bit _ _ (proj1 SBD)) as M1. pose proof (rank_of_mono bit i ((sp + 1) * tk * bs) ltac:(lia)) as M2.
    pose proof (rank_of_step bit _ _ (proj1 SBD)) as T1. pose proof (rank_of_step bit i ((sp + 1) * tk * bs) ltac:(lia)) as T2.
    destruct (Nat.eqb_spec (R ((sp + 1) * tk)) (R (sp * tk))). { eexists. split; [reflexivity|]. right. f_equal. lia. }
    destruct (Nat.eqb_spec (R ((sp + 1) * tk) - R (sp * tk)) (bs * tk)); [|eauto].
    eexists. split; [reflexivity|]. right. f_equal. replace ((sp + 1) * tk * bs) with (sp * tk * bs + bs * tk) in * by (clear; ring). clear - e M1 M2 T1 T2 RS RN SBD. lia. }
  destruct QK as [q [EQ Hq]]. rewrite EQ. cbn [obind]. destruct Hq as [-> | ->]; auto.
  rewrite inv_at by auto. cbn [obind]. rewrite rank_blocks_ok; [| |].
  2:{ unfold RrrProofs4.B. lia. }
  2:{ intros y Y. symmetry. apply Nat.div_unique with (y - sp * tk); [|lia]. pose proof (Nat.mod_upper_bound (i / bs) tk ltac:(lia)). lia. }
  cbn [obind]. replace (sp * tk + (i / bs - sp * tk)) with (i / bs) by lia.
  destruct (Nat.eqb_spec (i mod bs) 0) as [Z|Z].
  { f_equal. rewrite (R_rank bs tk bv HBS HTK HN). f_equal. lia. }
  assert (J : i / bs < NB). { apply Nat.nle_gt. intro G. apply (NB_cover bs tk bv HBS HTK HN) in G. lia. }
  rewrite bt_at by (pose proof (NB_B bs tk bv HBS HTK HN); lia). cbn [obind]. fold sp in J.
  assert (U : (if inv sp then bs - st (i / bs) else st (i / bs)) = cnt (i / bs)) by apply unst. rewrite U. rewrite XP by lia.
  assert (PE : P (sp * tk) + (P (i / bs) - P (sp * tk)) = P (i / bs)). { pose proof (psum_mono spc (sp * tk) (i / bs) ltac:(lia)). unfold RrrProofs4.P. lia. }
  rewrite PE. change (space_for_bt bs (cnt (i / bs))) with (spc (i / bs)). rewrite field_ok by auto. cbn [obind].
  pose proof (Nat.mod_upper_bound i bs ltac:(lia)).
  unfold RrrProofs4.cnt. rewrite decode_popcount_ok; [|apply blk_length|lia]. cbn [obind]. f_equal.
  rewrite (ones_blk bs tk bv HBS HTK HN) by lia. rewrite (R_rank bs tk bv HBS HTK HN). rewrite <- rank_of_add, <- DB. auto.
Qed.
Lemma rank_ok : forall b i, i <= n -> rrr_rank bs tk v b i = Some (rank_of (fun p => Bool.eqb b (bit p)) i).
Proof.
  intros b i H. unfold rrr_rank. rewrite rank1_ok by auto. cbn [obind]. f_equal. destruct b.
  - apply rank_of_ext. intros. destruct (bit j); auto.
  - rewrite <- rank_of_negb. apply rank_of_ext. intros. destruct (bit j); auto.
Qed.

(** ** select *)
Section Sel.
Variable b : bool.
Definition pat (p : nat) : bool := Bool.eqb b (bit p).
Lemma pat_rank : forall j, rank_of pat j = if b then rank_of bit j else j - rank_of bit j.
Proof.
  intro j. destruct b eqn:E.
  - apply rank_of_ext. intros. unfold pat. rewrite E. destruct (bit j0); auto.
  - rewrite <- rank_of_negb. apply rank_of_ext. intros. unfold pat. rewrite E. destruct (bit j0); auto.
Qed.
Lemma sample_ok : forall q, q < SR -> sample bs tk v b q = Some (rank_of pat (q * tk * bs)).
Proof.
  intros q H. unfold sample. rewrite rank_at by auto. cbn [obind]. rewrite pat_rank, (R_rank bs tk bv HBS HTK HN). f_equal. destruct b; auto. f_equal. lia.
Qed.
Lemma search_ok : forall f i lo hi, hi - lo <= f -> lo < hi -> hi < SR -> rank_of pat (lo * tk * bs) < i <= rank_of pat (hi * tk * bs) ->
  exists s, sel_search bs tk v f b i lo hi = Some (s, s + 1) /\ s + 1 < SR /\ rank_of pat (s * tk * bs) < i <= rank_of pat ((s + 1) * tk * bs).
Proof.
  induction f as [|f IH]; intros i lo hi F L H I; [lia|]. cbn [sel_search].
  destruct (Nat.ltb_spec 1 (hi - lo)).
  - assert (M : lo < (lo + hi) / 2 < hi). { pose proof (Nat.div_mod (lo + hi) 2 ltac:(lia)). pose proof (Nat.mod_upper_bound (lo + hi) 2 ltac:(lia)). lia. }
    set (mid := (lo + hi) / 2) in *. clearbody mid. rewrite sample_ok by lia. cbn [obind].
    destruct (Nat.leb_spec i (rank_of pat (mid * tk * bs))); apply IH; auto; lia.
  - exists lo. replace hi with (lo + 1) in * by lia. auto.
Qed.
Lemma pat_next : forall idx, rank_of pat (idx * bs) + (if b then cnt idx else bs - cnt idx) = rank_of pat (S idx * bs).
Proof.
  intro idx. rewrite !pat_rank. replace (S idx * bs) with (idx * bs + bs) by lia. rewrite rank_of_add. rewrite <- (cnt_rank bs tk bv HBS HTK HN idx).
  pose proof (cnt_le bs bv idx). pose proof (rank_of_le bit (idx * bs)). destruct b; lia.
Qed.
Lemma sel_blocks_ok : forall f i idx s, B - idx < f -> rank_of pat (idx * bs) < i -> i <= rank_of pat ((s + 1) * tk * bs) -> i <= rank_of pat n -> s * tk <= idx ->
  exists j, sel_blocks bs v f b (inv s) i idx (rank_of pat (idx * bs)) (P idx) = Some (j, rank_of pat (j * bs), cnt j, P j) /\
    j < NB /\ rank_of pat (j * bs) < i <= rank_of pat (S j * bs).
Proof.
  induction f as [|f IH]; intros i idx s F A1 A2 A3 A4; [lia|]. cbn [sel_blocks].
  assert (IN : idx * bs < n). { apply Nat.nle_gt. intro G. pose proof (rank_of_mono pat _ _ G). lia. }
  assert (J : idx < NB). { apply Nat.nle_gt. intro G. apply (NB_cover bs tk bv HBS HTK HN) in G. lia. }
  assert (IS : idx < (s + 1) * tk). { apply Nat.nle_gt. intro G. pose proof (rank_of_mono pat ((s + 1) * tk * bs) (idx * bs) ltac:(nia)). lia. }
  pose proof (NB_B bs tk bv HBS HTK HN). rewrite bt_at by lia. cbn [obind].
  assert (U : (if inv s then bs - st idx else st idx) = cnt idx). { rewrite <- (unst idx). replace (idx / tk) with s; auto. apply Nat.div_unique with (idx - s * tk); lia. }
  rewrite U. assert (NX : rank_of pat (idx * bs) + (if b then cnt idx else bs - cnt idx) = rank_of pat (S idx * bs)).
  { apply pat_next. }
  rewrite NX. destruct (Nat.ltb_spec (rank_of pat (S idx * bs)) i).
  - change (P idx + space_for_bt bs (cnt idx)) with (P (S idx)). apply IH; auto; lia.
  - exists idx. split; auto.
Qed.
Lemma is_sel_is_select : forall j i o, is_sel b (blk j) i o -> is_select pat (rank_of pat (j * bs) + i) (j * bs + o).
Proof.
  intros j i o [S1 [S2 S3]]. rewrite blk_length in S1. apply is_select_shift.
  assert (forall x, x < bs -> pat (j * bs + x) = Bool.eqb b (nth x (blk j) false)).
  { intros x X. unfold pat, RrrProofs4.blk. rewrite farr_nth by auto. auto. }
  split. { cbv beta. rewrite H by auto. rewrite S2. destruct b; auto. }
  rewrite (rank_of_ext _ (fun x => Bool.eqb b (nth x (blk j) false))) by (intros; apply H; lia). rewrite rank_filter by (rewrite blk_length; lia). auto.
Qed.
Lemma full_range : forall a m i, rank_of pat (a + m) - rank_of pat a = m -> rank_of pat a < i <= rank_of pat (a + m) -> is_select pat i (a + (i - rank_of pat a - 1)).
Proof.
  intros a m i E I. set (d := i - rank_of pat a - 1) in *.
  assert (RD : forall d, d <= m -> rank_of pat (a + d) = rank_of pat a + d).
  { intros d0 D0. pose proof (rank_of_step pat a (a + d0) ltac:(lia)). pose proof (rank_of_step pat (a + d0) (a + m) ltac:(lia)).
    pose proof (rank_of_mono pat a (a + d0) ltac:(lia)). pose proof (rank_of_mono pat (a + d0) (a + m) ltac:(lia)). lia. }
  pose proof (RD d ltac:(lia)) as R1. pose proof (RD (S d) ltac:(lia)) as R2. rewrite Nat.add_succ_r in R2. rewrite rank_of_S in R2.
  split. { destruct (pat (a + d)); auto. cbn in R2. lia. } lia.
Qed.
Lemma total_ok : R ((SR - 1) * tk) = rank_of bit n.
Proof.
  rewrite (R_rank bs tk bv HBS HTK HN). apply rank_of_all_false. { apply (SR_above bs tk bv HBS HTK HN). } intros. apply bit_beyond. lia.
Qed.
Theorem select_ok : forall i, 1 <= i -> exists p, rrr_select bs tk v b i = Some p /\
  (if i <=? rank_of pat n then p < n /\ is_select pat i p else p = n).
Proof.
  intros i I1. unfold rrr_select.
  assert (SZ : av_size (r_rank v) = SR). { destruct HV as [_ [_ [_ [_ [E _]]]]]. rewrite E. apply arr_size. } rewrite SZ.
  assert (BZ : av_size (r_bt v) = B). { destruct HV as [_ [E _]]. rewrite E. apply arr_size. } rewrite BZ.
  assert (SP : 0 < SR). { pose proof (sb_index bs tk bv HBS HTK HN 0 ltac:(lia)) as [_ G]. apply Nat.le_lt_trans with (2 := G). apply Nat.le_0_l. }
  rewrite rank_at by lia. cbn [obind]. rewrite total_ok. destruct HV as [SE _]. rewrite SE.
  rewrite <- pat_rank. destruct (Nat.ltb_spec (rank_of pat n) i).
  { exists n. split; auto. replace (i <=? rank_of pat n) with false by lia. auto. }
  replace (i <=? rank_of pat n) with true by lia.
  assert (NZ : SR - 1 <> 0). { intro Z. pose proof (SR_above bs tk bv HBS HTK HN) as G. rewrite Z in G. cbn in G. assert (n = 0) by lia. rewrite H0, rank_of_0 in H. lia. }
  destruct (search_ok (SR - 1) i 0 (SR - 1)) as [s [ES [SS1 SS2]]]; try lia.
  { cbn [Nat.mul]. rewrite rank_of_0. split; [lia|]. pose proof (rank_of_mono pat n ((SR - 1) * tk * bs) (SR_above bs tk bv HBS HTK HN)). lia. }
  rewrite ES. cbn [obind]. rewrite sample_ok by lia. cbn [obind]. rewrite !rank_at by lia. cbn [obind].
  assert (LT : forall p, is_select pat i p -> p < n) by (intros; eapply is_select_lt; eauto).
  destruct (if b then R ((s + 1) * tk) - R (s * tk) =? bs * tk else R ((s + 1) * tk) =? R (s * tk)) eqn:QK.
  { assert (FU : rank_of pat (s * tk * bs + bs * tk) - rank_of pat (s * tk * bs) = bs * tk).
    { rewrite !pat_rank. replace (s * tk * bs + bs * tk) with ((s + 1) * tk * bs) by lia. rewrite !(R_rank bs tk bv HBS HTK HN) in QK.
      pose proof (rank_of_le bit (s * tk * bs)). destruct b; apply Nat.eqb_eq in QK; [lia|]. rewrite QK. nia. }
    replace ((s + 1) * tk * bs) with (s * tk * bs + bs * tk) in SS2 by lia.
    pose proof (full_range _ _ i FU SS2) as F.
    eexists. split; [reflexivity|]. replace (s * tk * bs + i - rank_of pat (s * tk * bs) - 1) with (s * tk * bs + (i - rank_of pat (s * tk * bs) - 1)) by lia. auto. }
  clear QK. assert (s * tk * bs < n). { apply Nat.nle_gt. intro G. pose proof (rank_of_mono pat _ _ G). lia. }
  assert (J : s * tk < NB). { apply Nat.nle_gt. intro G. apply (NB_cover bs tk bv HBS HTK HN) in G. lia. }
  assert (S3 : s < SB). { rewrite <- (mul_div bs tk bv HBS HTK HN s). apply B_SB. pose proof (NB_B bs tk bv HBS HTK HN). lia. }
  rewrite inv_at by auto. cbn [obind]. destruct (ptr_at s S3) as [x [EP XP]]. rewrite EP, XP by auto. cbn [obind].
  destruct (sel_blocks_ok (S B) i (s * tk) s) as [j [EJ [J1 J2]]]; try lia. rewrite EJ. cbn [obind].
  change (space_for_bt bs (cnt j)) with (spc j). rewrite field_ok by auto. cbn [obind].
  set (k := i - rank_of pat (j * bs)).
  assert (K : k <= (if b then cnt j else bs - cnt j)).
  { subst k. pose proof (pat_next j). lia. }
  assert (DS : exists o, (if b then decode_select bs (cnt j) (enc (blk j) (cnt j)) k else decode_select0 bs (cnt j) (enc (blk j) (cnt j)) k) = Some o /\ is_sel b (blk j) k o).
  { pose proof (cnt_le bs bv j). destruct b.
    - apply decode_select_ok; [apply blk_length|]. subst k. unfold RrrProofs4.cnt in K. lia.
    - apply decode_select0_ok; [apply blk_length|subst k; lia|]. unfold RrrProofs4.cnt in *. subst k. lia. }
  destruct DS as [o [DO IO]]. rewrite DO. cbn [obind]. eexists. split; [reflexivity|].
  apply is_sel_is_select in IO. replace (rank_of pat (j * bs) + k) with i in IO by (subst k; lia). auto.
Qed.
End Sel.
End K.
