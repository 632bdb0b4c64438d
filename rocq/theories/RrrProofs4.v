(** * The constructor of rrr_vector stores the blocks *)
From Coq Require Import NArith List Bool Arith Lia.
From Verif Require Import Base SpecBits RankSelect Bits AbsVec SelectSupportProofs3 RrrHelper RrrProofs RrrProofs2 RrrProofs3 RrrVector FnArr.
Import ListNotations.

Section K.
Variables (bs tk : nat) (bv : list bool).
Notation n := (length bv).
Definition blk (j : nat) : list bool := farr bs (fun o => nth (j * bs + o) bv false).
Definition cnt (j : nat) : nat := ones (blk j).
Definition spc (j : nat) : nat := space_for_bt bs (cnt j).
Definition Q : nat := n / bs.
Definition B : nat := Q + 1.
Definition inv (s : nat) : bool :=
  (s * tk + tk <=? B) && (tk / 2 <? length (filter (fun j => bs / 2 <? cnt j) (seq (s * tk) tk))).
Definition st (j : nat) : nat := if inv (j / tk) then bs - cnt j else cnt j.
Definition P (j : nat) : nat := psum spc j.
Definition R (j : nat) : nat := psum cnt j.
(** number of blocks that hold a bit *)
Definition NB : nat := Q + (if 0 <? n mod bs then 1 else 0).

Hypothesis HBS : 3 <= bs <= 256.
Hypothesis HTK : 2 <= tk.
Hypothesis HN : (N.of_nat n + 256 < W64)%N.

Lemma blk_length : forall j, length (blk j) = bs. Proof. intros. apply farr_length. Qed.
Lemma cnt_le : forall j, cnt j <= bs. Proof. intros. unfold cnt. rewrite <- (blk_length j). apply ones_le. Qed.
Lemma spc_le : forall j, spc j <= bs. Proof. intros. apply space_le. lia. Qed.
Lemma st_le : forall j, st j <= bs. Proof. intros. unfold st. pose proof (cnt_le j). destruct (inv _); lia. Qed.
Lemma spc_st : forall j, space_for_bt bs (st j) = spc j.
Proof. intros. unfold st, spc. destruct (inv _); auto. apply space_sym. apply cnt_le. Qed.
Lemma QB : Q * bs + n mod bs = n.
Proof. unfold Q. pose proof (Nat.div_mod n bs ltac:(lia)). lia. Qed.
Lemma Qr : n mod bs < bs. Proof. apply Nat.mod_upper_bound. lia. Qed.
Lemma cnt_beyond : forall j, n <= j * bs -> cnt j = 0.
Proof.
  intros j H. unfold cnt, blk, farr. revert H. generalize (seq 0 bs). induction l as [|o l IH]; intro H; auto. cbn [map ones]. rewrite nth_overflow by lia. rewrite IH by auto. auto.
Qed.
Lemma spc_beyond : forall j, n <= j * bs -> spc j = 0.
Proof. intros. unfold spc. rewrite cnt_beyond by auto. unfold space_for_bt. rewrite C_0. auto. Qed.
Lemma NB_cover : forall j, NB <= j -> n <= j * bs.
Proof. intros j H. unfold NB in H. pose proof QB. pose proof Qr. destruct (Nat.ltb_spec 0 (n mod bs)); nia. Qed.
Lemma NB_B : NB <= B. Proof. unfold NB, B. destruct (0 <? _); lia. Qed.
Lemma NB_lt : forall j, j < NB -> j * bs < n.
Proof. intros j H. unfold NB in H. pose proof QB. destruct (Nat.ltb_spec 0 (n mod bs)); nia. Qed.
Lemma R_B : R B = R NB.
Proof. apply psum_zero; [apply NB_B|]. intros. apply cnt_beyond. apply NB_cover. lia. Qed.
Lemma P_B : P B = P NB.
Proof. apply psum_zero; [apply NB_B|]. intros. apply spc_beyond. apply NB_cover. lia. Qed.

Lemma blk_bits : forall i len, len <= bs -> i * bs + len <= n -> len = bs \/ i * bs + len = n ->
  bits_N (sub bv (i * bs) len) = bits_N (blk i).
Proof.
  intros i len L H D. apply N_testbit_ext. intro o. rewrite !bits_N_testbit. destruct (Nat.lt_ge_cases o len).
  - rewrite sub_nth by auto. unfold blk. rewrite farr_nth by lia. auto.
  - rewrite nth_overflow by (rewrite sub_length; auto). unfold blk. destruct (Nat.lt_ge_cases o bs).
    + rewrite farr_nth by auto. rewrite nth_overflow by lia. auto.
    + rewrite nth_overflow; auto. rewrite farr_length. auto.
Qed.
Lemma tget_blk : forall i len, len <= bs -> i * bs + len <= n -> len = bs \/ i * bs + len = n ->
  tget (max_log bs) bv (i * bs) len = Some (bits_N (blk i)).
Proof.
  intros. destruct (max_log_ok bs ltac:(lia)) as [A1 A2]. rewrite tget_ok; auto; [|lia]. rewrite blk_bits; auto.
Qed.
Lemma get_bt_blk : forall i len, len <= bs -> i * bs + len <= n -> len = bs \/ i * bs + len = n -> get_bt bs bv (i * bs) len = Some (cnt i).
Proof. intros. unfold get_bt. rewrite tget_blk by auto. cbn [obind]. rewrite popcount_ok. auto. Qed.

Definition wb : nat := hiw (N.of_nat bs).
Lemma wb_fits : forall x, x <= bs -> (N.of_nat x < 2 ^ N.of_nat wb)%N.
Proof. intros. apply hiw_fits; [|lia]. apply N.lt_trans with 257%N; [lia|reflexivity]. Qed.

(** phase 1 *)
Lemma p1_ok : forall k i, k + i = Q ->
  p1_loop bs k bv i (arr wb B (fun j => if j <? i then cnt j else 0)) (R i) (P i) = Some (arr wb B cnt, R B, P B).
Proof.
  induction k as [|k IH]; intros i I; cbn [p1_loop].
  - replace i with Q by lia. pose proof QB. pose proof Qr. destruct (Nat.ltb_spec (Q * bs) n).
    + rewrite get_bt_blk by lia. cbn [obind]. rewrite arr_avs; [|unfold B; lia|apply wb_fits; apply cnt_le]. cbn [obind].
      assert (E1 : R B = R Q + cnt Q) by (unfold B; rewrite Nat.add_1_r; auto).
      assert (E2 : P B = P Q + space_for_bt bs (cnt Q)) by (unfold B; rewrite Nat.add_1_r; auto).
      rewrite E1, E2. do 3 f_equal. apply arr_ext. intros j J. unfold B in J. destruct (Nat.eqb_spec j Q); [subst; auto|]. replace (j <? Q) with true by lia. auto.
    + assert (N0 : NB = Q) by (unfold NB; replace (0 <? n mod bs) with false by lia; lia).
      rewrite R_B, P_B, N0. do 3 f_equal. apply arr_ext. intros j J. unfold B in J. destruct (Nat.ltb_spec j Q); auto. rewrite cnt_beyond; auto. nia.
  - assert (S i * bs <= n). { pose proof QB. nia. } rewrite get_bt_blk by lia. cbn [obind].
    rewrite arr_avs; [|unfold B; lia|apply wb_fits; apply cnt_le]. cbn [obind]. rewrite <- (IH (S i)) by lia.
    f_equal; auto. apply arr_ext. intros j J. destruct (Nat.eqb_spec j i). { subst. replace (i <? S i) with true by lia. auto. }
    destruct (Nat.ltb_spec j i); destruct (Nat.ltb_spec j (S i)); auto; lia.
Qed.

Lemma gt_half_ok : forall w f k j, j + k <= B -> gt_half bs k (arr w B f) j = Some (length (filter (fun x => bs / 2 <? f x) (seq j k))).
Proof.
  induction k as [|k IH]; intros j H; auto. cbn [gt_half]. rewrite arr_avn by lia. cbn [obind]. rewrite IH by lia. cbn [obind seq filter].
  destruct (bs / 2 <? f j); auto.
Qed.
Lemma flip_ok : forall k j f, j + k <= B ->
  flip_bt bs k (arr wb B f) j = Some (arr wb B (fun x => if (j <=? x) && (x <? j + k) then bs - f x else f x)).
Proof.
  induction k as [|k IH]; intros j f H; cbn [flip_bt].
  - f_equal. apply arr_ext. intros x X. destruct (Nat.leb_spec j x); destruct (Nat.ltb_spec x (j + 0)); cbn; auto; lia.
  - rewrite arr_avn by lia. cbn [obind]. rewrite arr_avs; [|lia|apply wb_fits; lia]. cbn [obind]. rewrite IH by lia. f_equal. apply arr_ext. intros x X.
    destruct (Nat.eqb_spec x j).
    + subst. replace (S j <=? j) with false by lia. replace (j <=? j) with true by lia. replace (j <? j + S k) with true by lia. auto.
    + destruct (Nat.leb_spec (S j) x); destruct (Nat.leb_spec j x); destruct (Nat.ltb_spec x (S j + k)); destruct (Nat.ltb_spec x (j + S k)); cbn [andb]; auto; lia.
Qed.

Definition SB : nat := Q / tk + 1.
Definition LB : nat := Nat.max (P B) 64.
Definition wp : nat := hiw (N.of_nat (P B)).
Definition wr : nat := hiw (N.of_nat (R B)).
Definition SR : nat := SB + (if 0 <? n mod (tk * bs) then 1 else 0).
Lemma SB_eq : (B + tk - 1) / tk = SB.
Proof. unfold SB, B. replace (Q + 1 + tk - 1) with (Q + 1 * tk) by lia. rewrite Nat.div_add by lia. auto. Qed.
Lemma n_lt64 : (N.of_nat n < W64)%N. Proof. lia. Qed.
Lemma R_le_n : R B <= n + bs.
Proof.
  assert (forall j, R j <= j * bs) by (intros; apply psum_bound; intros; apply cnt_le). specialize (H B). unfold B in *. pose proof QB. nia.
Qed.
Lemma P_le_n : P B <= n + bs.
Proof.
  assert (forall j, P j <= j * bs) by (intros; apply psum_bound; intros; apply spc_le). specialize (H B). unfold B in *. pose proof QB. nia.
Qed.
Lemma wp_fits : forall j, j <= B -> (N.of_nat (P j) < 2 ^ N.of_nat wp)%N.
Proof. intros. apply hiw_fits. { pose proof P_le_n. lia. } pose proof (psum_mono spc j B H). unfold P. lia. Qed.
Lemma wr_fits : forall j, j <= B -> (N.of_nat (R j) < 2 ^ N.of_nat wr)%N.
Proof. intros. apply hiw_fits. { pose proof R_le_n. lia. } pose proof (psum_mono cnt j B H). unfold R. lia. Qed.

Definition btnr_ok (b : list bool) (i : nat) : Prop :=
  length b = LB /\ forall j, j < i -> sub b (P j) (spc j) = N_bits (spc j) (enc (blk j) (cnt j)).
(** the arrays when the superblocks that start before block [i] are done *)
Definition arrs (i : nat) (s : p2) : Prop :=
  p_bt s = arr wb B (fun j => if j / tk * tk <? i then st j else cnt j) /\
  p_btnrp s = arr wp SB (fun q => if q * tk <? i then P (q * tk) else 0) /\
  p_rank s = arr wr SR (fun q => if q * tk <? i then R (q * tk) else 0) /\
  p_invert s = farr SB (fun q => if q * tk <? i then inv q else false).
Definition Inv (i : nat) (s : p2) : Prop :=
  arrs i s /\ btnr_ok (p_btnr s) i /\ p_pos s = P i /\ p_sum s = R i /\ (i mod tk <> 0 -> p_inv s = inv (i / tk)).
Definition Mid (i : nat) (s : p2) : Prop :=
  arrs (S i) s /\ btnr_ok (p_btnr s) i /\ p_pos s = P i /\ p_sum s = R i /\ p_inv s = inv (i / tk).

Lemma dm : forall i, i = i / tk * tk + i mod tk.
Proof. intro i. pose proof (Nat.div_mod i tk ltac:(lia)). lia. Qed.
Lemma mul_div : forall q, q * tk / tk = q. Proof. intros. apply Nat.div_mul. lia. Qed.
Lemma below_S : forall i q, i mod tk <> 0 -> (q * tk <? i) = (q * tk <? S i).
Proof.
  intros i q H. destruct (Nat.ltb_spec (q * tk) i); destruct (Nat.ltb_spec (q * tk) (S i)); auto; try lia.
  exfalso. apply H. replace i with (q * tk) by lia. apply Nat.mod_mul. lia.
Qed.
Lemma sb_index : forall i, i <= Q -> i / tk < SB /\ i / tk < SR.
Proof. intros i H. pose proof (Nat.div_le_mono i Q tk ltac:(lia) H). unfold SR, SB. lia. Qed.
(** extension of the arrays at the start of a superblock *)
Lemma arr_step : forall A (f g : nat -> A) x i q, i mod tk = 0 -> x = f (i / tk) ->
  (if q =? i / tk then x else if q * tk <? i then f q else g q) = (if q * tk <? S i then f q else g q).
Proof.
  intros A f g x i q Z ->. pose proof (dm i) as D. rewrite Z, Nat.add_0_r in D. destruct (Nat.eqb_spec q (i / tk)).
  - subst. rewrite <- D. replace (i <? S i) with true by lia. auto.
  - destruct (Nat.ltb_spec (q * tk) i); destruct (Nat.ltb_spec (q * tk) (S i)); auto; nia.
Qed.
Lemma inv_sb : forall i j, i mod tk = 0 -> (if j / tk * tk <? S i then st j else cnt j) =
  (if j / tk * tk <? i then st j else if j / tk =? i / tk then st j else cnt j).
Proof.
  intros i j Z. pose proof (dm i) as D. rewrite Z, Nat.add_0_r in D. destruct (Nat.eqb_spec (j / tk) (i / tk)) as [E|E].
  - rewrite E, <- D. replace (i <? S i) with true by lia. destruct (i <? i); auto.
  - destruct (Nat.ltb_spec (j / tk * tk) i); destruct (Nat.ltb_spec (j / tk * tk) (S i)); auto; nia.
Qed.
Lemma in_sb : forall i j, i mod tk = 0 -> (j / tk =? i / tk) = (i <=? j) && (j <? i + tk).
Proof.
  intros i j Z. pose proof (dm i) as D. rewrite Z, Nat.add_0_r in D. pose proof (dm j) as D2. pose proof (Nat.mod_upper_bound j tk ltac:(lia)) as U.
  destruct (Nat.eqb_spec (j / tk) (i / tk)); destruct (Nat.leb_spec i j); destruct (Nat.ltb_spec j (i + tk)); cbn; auto; nia.
Qed.
Lemma sb_full_ok : forall i s, i < Q -> Inv i s ->
  exists s', (if i mod tk =? 0 then sb_full bs tk i s else Some s) = Some s' /\ Mid i s'.
Proof.
  intros i s HI [[A1 [A2 [A3 A4]]] [BK [PP [SS IV]]]]. destruct (Nat.eqb_spec (i mod tk) 0) as [Z|Z].
  2:{ exists s. split; auto. split; [|auto]. repeat split; [rewrite A1|rewrite A2|rewrite A3|rewrite A4];
      try (apply arr_ext; intros; rewrite below_S by auto; auto); apply farr_ext; intros; rewrite below_S by auto; auto. }
  destruct (sb_index i ltac:(lia)) as [S1 S2]. pose proof (dm i) as D. rewrite Z, Nat.add_0_r in D.
  unfold sb_full. rewrite A2, A3, PP, SS. rewrite arr_avs; auto; [|apply wp_fits; unfold B; lia]. cbn [obind].
  rewrite arr_avs; auto; [|apply wr_fits; unfold B; lia]. cbn [obind]. rewrite A1, arr_size.
  assert (E2 : arr wp SB (fun j => if j =? i / tk then P i else if j * tk <? i then P (j * tk) else 0) = arr wp SB (fun j => if j * tk <? S i then P (j * tk) else 0)).
  { apply arr_ext. intros j J. apply (arr_step nat (fun q => P (q * tk)) (fun _ => 0)); auto; rewrite <- D; auto. }
  assert (E3 : arr wr SR (fun j => if j =? i / tk then R i else if j * tk <? i then R (j * tk) else 0) = arr wr SR (fun j => if j * tk <? S i then R (j * tk) else 0)).
  { apply arr_ext. intros j J. apply (arr_step nat (fun q => R (q * tk)) (fun _ => 0)); auto; rewrite <- D; auto. }
  rewrite E2, E3.
  (* the not inverted cases *)
  assert (NOT : inv (i / tk) = false -> exists s', Some (mkp2 (arr wb B (fun j => if j / tk * tk <? i then st j else cnt j)) (p_btnr s) (arr wp SB (fun j => if j * tk <? S i then P (j * tk) else 0))
     (arr wr SR (fun j => if j * tk <? S i then R (j * tk) else 0)) (p_invert s) (P i) (R i) false) = Some s' /\ Mid i s').
  { intro NI. eexists. split; [reflexivity|]. unfold Mid, arrs. cbn [p_bt p_btnr p_btnrp p_rank p_invert p_pos p_sum p_inv].
    split; [|split; [|auto]]; auto. split; [|split; [|split]]; auto.
    - apply arr_ext. intros j J. rewrite inv_sb by auto. destruct (j / tk * tk <? i); auto. destruct (Nat.eqb_spec (j / tk) (i / tk)) as [E|E]; auto. unfold st. rewrite E, NI. auto.
    - rewrite A4. apply farr_ext. intros j J. rewrite <- (arr_step bool inv (fun _ => false) false i j Z) by auto. destruct (Nat.eqb_spec j (i / tk)); auto. subst. rewrite <- D. replace (i <? i) with false by lia. auto. }
  destruct (Nat.leb_spec (i + tk) B) as [LB1|LB1].
  - rewrite gt_half_ok by auto. cbn [obind].
    assert (FE : filter (fun x => bs / 2 <? (if x / tk * tk <? i then st x else cnt x)) (seq i tk) = filter (fun j => bs / 2 <? cnt j) (seq (i / tk * tk) tk)).
    { rewrite <- D. apply filter_ext_in. intros j J. apply in_seq in J. pose proof (in_sb i j Z) as IS. replace ((i <=? j) && (j <? i + tk)) with true in IS by lia.
      apply Nat.eqb_eq in IS. rewrite IS, <- D. replace (i <? i) with false by lia. auto. }
    rewrite FE. destruct (Nat.ltb_spec (tk / 2) (length (filter (fun j => bs / 2 <? cnt j) (seq (i / tk * tk) tk)))) as [G|G].
    + rewrite A4. rewrite farr_aset by auto. cbn [obind]. rewrite flip_ok by auto. cbn [obind].
      assert (IT : inv (i / tk) = true). { unfold inv. rewrite <- D at 1. apply andb_true_intro. split; [apply Nat.leb_le; auto | apply Nat.ltb_lt; auto]. }
      eexists. split; [reflexivity|]. unfold Mid, arrs. cbn [p_bt p_btnr p_btnrp p_rank p_invert p_pos p_sum p_inv].
      split; [|split; [|auto]]; auto. split; [|split; [|split]]; auto.
      * apply arr_ext. intros j J. rewrite inv_sb by auto. rewrite <- in_sb by auto. destruct (Nat.eqb_spec (j / tk) (i / tk)) as [E|E].
        { rewrite E, <- D. replace (i <? i) with false by lia. unfold st. rewrite E, IT. auto. }
        auto.
      * apply farr_ext. intros j J. apply (arr_step bool inv (fun _ => false)); auto.
    + apply NOT. unfold inv. rewrite andb_false_intro2; auto. apply Nat.ltb_ge. auto.
  - apply NOT. unfold inv. rewrite <- D at 1. rewrite andb_false_intro1; auto. apply Nat.leb_gt. auto.
Qed.
Lemma inv_Q : Q mod tk = 0 -> inv (Q / tk) = false.
Proof.
  intro Z. pose proof (dm Q) as D. rewrite Z, Nat.add_0_r in D. unfold inv. rewrite <- D at 1. rewrite andb_false_intro1; auto.
  apply Nat.leb_gt. unfold B. lia.
Qed.
Lemma sb_last_ok : forall s, Inv Q s ->
  exists s', (if Q mod tk =? 0 then sb_last tk Q s else Some s) = Some s' /\ Mid Q s'.
Proof.
  intros s [[A1 [A2 [A3 A4]]] [BK [PP [SS IV]]]]. destruct (Nat.eqb_spec (Q mod tk) 0) as [Z|Z].
  2:{ exists s. split; auto. split; [|auto]. repeat split; [rewrite A1|rewrite A2|rewrite A3|rewrite A4];
      try (apply arr_ext; intros; rewrite below_S by auto; auto); apply farr_ext; intros; rewrite below_S by auto; auto. }
  destruct (sb_index Q ltac:(lia)) as [S1 S2]. pose proof (dm Q) as D. rewrite Z, Nat.add_0_r in D.
  unfold sb_last. rewrite A2, A3, A4, PP, SS. rewrite arr_avs; auto; [|apply wp_fits; unfold B; lia]. cbn [obind].
  rewrite arr_avs; auto; [|apply wr_fits; unfold B; lia]. cbn [obind]. rewrite farr_aset by auto. cbn [obind].
  pose proof (inv_Q Z) as NI.
  eexists. split; [reflexivity|]. unfold Mid, arrs. cbn [p_bt p_btnr p_btnrp p_rank p_invert p_pos p_sum p_inv].
  split; [|split; [|auto]]; auto. split; [|split; [|split]].
  - rewrite A1. apply arr_ext. intros j J. rewrite inv_sb by auto. destruct (j / tk * tk <? Q); auto. destruct (Nat.eqb_spec (j / tk) (Q / tk)) as [E|E]; auto. unfold st. rewrite E, NI. auto.
  - apply arr_ext. intros j J. apply (arr_step nat (fun q => P (q * tk)) (fun _ => 0)); auto; rewrite <- D; auto.
  - apply arr_ext. intros j J. apply (arr_step nat (fun q => R (q * tk)) (fun _ => 0)); auto; rewrite <- D; auto.
  - apply farr_ext. intros j J. apply (arr_step bool inv (fun _ => false)); auto.
Qed.
Lemma put_block_ok : forall i len s, i <= Q -> len <= bs -> i * bs + len <= n -> len = bs \/ i * bs + len = n -> Mid i s ->
  exists s', put_block bs bv i len s = Some s' /\ Inv (S i) s'.
Proof.
  intros i len s HI L L2 D [[A1 [A2 [A3 A4]]] [BK [PP [SS IV]]]]. unfold put_block.
  rewrite A1. rewrite arr_avn by (unfold B; lia). pose proof (dm i) as DD. replace (i / tk * tk <? S i) with true by lia. cbn [obind].
  rewrite spc_st. assert (SUM : p_sum s + (if p_inv s then bs - st i else st i) = R (S i)).
  { rewrite SS, IV. unfold st, R. cbn [psum]. pose proof (cnt_le i). destruct (inv (i / tk)); lia. }
  rewrite SUM. assert (POS : p_pos s + spc i = P (S i)) by (rewrite PP; auto). rewrite POS.
  assert (IN : S i mod tk <> 0 -> p_inv s = inv (S i / tk)).
  { intro M. rewrite IV. f_equal. pose proof (dm (S i)) as E. pose proof (Nat.mod_upper_bound (S i) tk ltac:(lia)). pose proof (Nat.mod_upper_bound i tk ltac:(lia)). nia. }
  destruct BK as [BL BK]. destruct (Nat.eqb_spec (spc i) 0) as [Z|Z].
  - eexists. split; [reflexivity|]. unfold Inv, arrs. cbn [p_bt p_btnr p_btnrp p_rank p_invert p_pos p_sum p_inv]. repeat split; auto.
    intros j J. destruct (Nat.eq_dec j i) as [->|]; [|apply BK; lia]. rewrite Z. reflexivity.
  - rewrite tget_blk by auto. cbn [obind]. rewrite bin_to_nr_ok by apply blk_length. cbn [obind].
    destruct (max_log_ok bs ltac:(lia)) as [M1 M2]. pose proof (spc_le i).
    assert (FIT : P i + spc i <= length (p_btnr s)).
    { rewrite BL. unfold LB. pose proof (psum_mono spc (S i) B ltac:(unfold B; lia)) as M. unfold P. cbn [psum] in M. lia. }
    rewrite PP. rewrite tset_ok; auto; [|lia]. cbn [obind].
    eexists. split; [reflexivity|]. unfold Inv, arrs. cbn [p_bt p_btnr p_btnrp p_rank p_invert p_pos p_sum p_inv]. split; [auto|]. split; [|auto]. split. { rewrite put_length; auto. }
    intros j J. destruct (Nat.eq_dec j i) as [->|].
    + rewrite sub_put_same by auto. auto.
    + rewrite sub_put_before; auto. { apply BK. lia. } pose proof (psum_mono spc (S j) i ltac:(lia)) as M. unfold P. cbn [psum] in M. lia.
Qed.
Lemma p2_ok : forall k i s, k + i = Q -> Inv i s -> exists s', p2_loop bs tk k bv i s = Some s' /\ Inv NB s'.
Proof.
  induction k as [|k IH]; intros i s I V; cbn [p2_loop].
  - replace i with Q in * by lia. pose proof QB. pose proof Qr. unfold NB. destruct (Nat.ltb_spec (Q * bs) n).
    + destruct (sb_last_ok s V) as [s1 [E1 M1]]. rewrite E1. cbn [obind].
      replace (0 <? n mod bs) with true by lia. rewrite Nat.add_1_r. apply put_block_ok; auto; lia.
    + replace (0 <? n mod bs) with false by lia. rewrite Nat.add_0_r. eauto.
  - destruct (sb_full_ok i s ltac:(lia) V) as [s1 [E1 M1]]. rewrite E1. cbn [obind].
    assert (S i * bs <= n). { pose proof QB. nia. }
    destruct (put_block_ok i bs s1) as [s2 [E2 V2]]; auto; try lia. rewrite E2. cbn [obind]. apply IH; auto. lia.
Qed.

Lemma SR_last : SR - 1 = n / (tk * bs) + (if 0 <? n mod (tk * bs) then 1 else 0).
Proof. unfold SR, SB, Q. rewrite Nat.div_div by lia. rewrite (Nat.mul_comm bs tk). generalize (n / (tk * bs)). intro. destruct (0 <? n mod (tk * bs)); lia. Qed.
Lemma SR_below : forall q, q < SR - 1 -> q * tk < NB.
Proof.
  intros q H. rewrite SR_last in H. apply Nat.nle_gt. intro G. apply NB_cover in G.
  pose proof (Nat.div_mod n (tk * bs) ltac:(nia)). pose proof (Nat.mod_upper_bound n (tk * bs) ltac:(nia)).
  destruct (Nat.ltb_spec 0 (n mod (tk * bs))); nia.
Qed.
Lemma SR_above : n <= (SR - 1) * tk * bs.
Proof.
  rewrite SR_last. pose proof (Nat.div_mod n (tk * bs) ltac:(nia)). pose proof (Nat.mod_upper_bound n (tk * bs) ltac:(nia)).
  destruct (Nat.ltb_spec 0 (n mod (tk * bs))); nia.
Qed.
Lemma R_beyond : forall j, n <= j * bs -> R j = R NB.
Proof.
  intros j H. destruct (Nat.le_gt_cases NB j).
  - apply psum_zero; auto. intros i I. apply cnt_beyond. apply NB_cover. lia.
  - apply NB_lt in H0. lia.
Qed.
Definition rrr_repr (v : rrr) : Prop :=
  r_size v = n /\ r_bt v = arr wb B st /\ btnr_ok (r_btnr v) NB /\
  r_btnrp v = arr wp SB (fun q => if q * tk <? NB then P (q * tk) else 0) /\
  r_rank v = arr wr SR (fun q => R (q * tk)) /\ r_invert v = farr SB inv.
Lemma NB_cases : NB = B \/ NB = Q /\ Q * bs = n.
Proof. unfold NB, B. pose proof QB. destruct (Nat.ltb_spec 0 (n mod bs)); [left|right]; lia. Qed.
Theorem rrr_make_ok : exists v, rrr_make bs tk bv = Some v /\ rrr_repr v.
Proof.
  unfold rrr_make. replace ((n + bs) / bs) with B. 2:{ unfold B, Q. replace (n + bs) with (n + 1 * bs) by lia. rewrite Nat.div_add by lia. auto. }
  fold wb. rewrite arr_new. pose proof (p1_ok Q 0 ltac:(lia)) as P1. unfold P at 1, R at 1 in P1. cbn [psum] in P1.
  replace (arr wb B (fun j => if j <? 0 then cnt j else 0)) with (arr wb B (fun _ => 0)) in P1 by (apply arr_ext; intros; auto).
  fold Q. rewrite P1. cbn [obind]. rewrite SB_eq. fold wp wr SR LB. rewrite !arr_new.
  match goal with |- context [p2_loop _ _ _ _ _ ?x] => destruct (p2_ok Q 0 x) as [s [E2 [[A1 [A2 [A3 A4]]] [BK [PP [SS _]]]]]]; [lia | |] end.
  { unfold Inv, arrs. cbn [p_bt p_btnr p_btnrp p_rank p_invert p_pos p_sum p_inv]. repeat split; auto.
    - apply farr_repeat.
    - apply repeat_length.
    - intros j J. lia.
    - intro M. rewrite Nat.mod_0_l in M by lia. lia. }
  rewrite E2. cbn [obind]. rewrite A3, SS. rewrite arr_size.
  assert (S1 : SR - 1 < SR) by (unfold SR, SB; generalize (Q / tk); clear; intro; destruct (0 <? n mod (tk * bs)); lia).
  rewrite arr_avs; auto; [|apply wr_fits; apply NB_B]. cbn [obind]. eexists. split; [reflexivity|].
  unfold rrr_repr. cbn [r_size r_bt r_btnr r_btnrp r_rank r_invert]. split; auto. split; [|split; [|split; [|split]]]; auto.
  - rewrite A1. apply arr_ext. intros j J. destruct (Nat.ltb_spec (j / tk * tk) NB); auto. pose proof (dm j).
    destruct NB_cases as [E|[E1 E]]; [lia|]. assert (j = Q) by (unfold B in J; lia). subst j. unfold st. rewrite inv_Q; auto. lia.
  - apply arr_ext. intros q H. destruct (Nat.eqb_spec q (SR - 1)).
    + subst. rewrite (R_beyond ((SR - 1) * tk)); auto. apply SR_above.
    + replace (q * tk <? NB) with true; auto. symmetry. apply Nat.ltb_lt. apply SR_below. lia.
  - rewrite A4. apply farr_ext. intros q H. destruct (Nat.ltb_spec (q * tk) NB); auto. unfold SB in H.
    pose proof (dm Q). destruct NB_cases as [E|[E1 E]]. { unfold B in E. nia. }
    assert (q = Q / tk) by nia. subst q. rewrite inv_Q; auto. nia.
Qed.

(** R counts the ones *)
Definition bit (p : nat) : bool := nth p bv false.
Lemma ones_blk : forall j o, o <= bs -> ones (firstn o (blk j)) = rank_of (fun x => bit (j * bs + x)) o.
Proof.
  intros j o. induction o as [|o IH]; intro H; auto. rewrite rank_of_S, <- IH by lia.
  assert (firstn (S o) (blk j) = firstn o (blk j) ++ [nth o (blk j) false]).
  { assert (forall A (l : list A) d k, k < length l -> firstn (S k) l = firstn k l ++ [nth k l d]) as F.
    { induction l as [|x l IHl]; intros d k L; cbn [length] in L; [lia|]. destruct k; auto. cbn [firstn nth app]. f_equal. apply IHl. lia. }
    apply F. rewrite blk_length. lia. }
  rewrite H0, ones_app. f_equal. unfold blk. rewrite farr_nth by lia. unfold bit. cbn. destruct (nth (j * bs + o) bv false); auto.
Qed.
Lemma cnt_rank : forall j, cnt j = rank_of (fun x => bit (j * bs + x)) bs.
Proof. intros. rewrite <- ones_blk by auto. unfold cnt. rewrite firstn_all2; auto. rewrite blk_length. auto. Qed.
Lemma R_rank : forall j, R j = rank_of bit (j * bs).
Proof.
  induction j; auto. unfold R in *. cbn [psum]. replace (S j * bs) with (j * bs + bs) by lia. rewrite rank_of_add, IHj, cnt_rank. auto.
Qed.
End K.
