(** * C21 and C22 in terms of the specification *)
From Coq Require Import NArith List Bool Arith Lia.
From Verif Require Import Base SpecBits RankSelect Bits AbsVec SpecRrr RrrHelper RrrProofs RrrProofs2 RrrProofs3 RrrVector FnArr RrrProofs4 RrrProofs5.
Import ListNotations.

Lemma binom_C : forall n k, binom n k = C n k.
Proof.
  induction n as [|n IH]; intros [|k]; cbn [binom]; auto. { rewrite C_0S. auto. } { rewrite C_0. auto. } rewrite C_S, !IH. auto.
Qed.
Lemma ones_count : forall l, ones l = count_true l.
Proof. induction l as [|b l IH]; auto. rewrite count_true_cons. cbn [ones]. rewrite IH. destruct b; auto. Qed.
Lemma is_bin_eq : forall l x, is_bin l x -> x = bits_N l.
Proof. intros l x H. apply N_testbit_ext. intro i. rewrite bits_N_testbit. apply H. Qed.
Lemma rank_lpat : forall l o, o <= length l -> ones (firstn o l) = rank_of (lpat true l) o.
Proof.
  intros l o H. unfold lpat. rewrite (rank_filter true l o H). generalize (firstn o l). induction l0 as [|[|] l0 IH]; cbn; auto.
Qed.
Lemma is_sel_lpat : forall b l i p, is_sel b l i p -> p < length l /\ is_select (lpat b l) i p.
Proof.
  intros b l i p [A [B D]]. split; auto. split. { unfold lpat. rewrite B. destruct b; auto. }
  unfold lpat. rewrite (rank_filter b l p) by lia. auto.
Qed.
Lemma ones_rank : forall l, ones l = rank_of (lpat true l) (length l).
Proof. intro l. rewrite <- rank_lpat by auto. rewrite firstn_all. auto. Qed.
Lemma zeros_rank : forall l, length l - ones l = rank_of (lpat false l) (length l).
Proof.
  intro l. rewrite ones_rank. rewrite <- rank_of_negb. apply rank_of_ext. intros. unfold lpat. destruct (nth j l false); auto.
Qed.

Lemma A_code : forall n l bin, length l = n -> is_bin l bin -> let k := count_true l in
  exists nr, bin_to_nr n bin = Some nr /\ (nr < binom n k)%N /\ (nr < 2 ^ N.of_nat (space_for_bt n k))%N /\
   (forall off, off < n -> decode_bit n k nr off = Some (nth off l false)) /\
   (forall off, off <= n -> decode_popcount n k nr off = Some (rank_of (lpat true l) off)) /\
   (forall i, 1 <= i <= rank_of (lpat true l) n -> exists p, decode_select n k nr i = Some p /\ p < n /\ is_select (lpat true l) i p) /\
   (forall i, 1 <= i <= rank_of (lpat false l) n -> exists p, decode_select0 n k nr i = Some p /\ p < n /\ is_select (lpat false l) i p) /\
   (forall off len, 1 <= len -> off + len <= n -> exists r, decode_int n k nr off len = Some r /\ forall j, tb r j = (j <? len) && nth (off + j) l false).
Proof.
  intros n l bin L H. cbv zeta. rewrite <- ones_count. rewrite (is_bin_eq _ _ H). exists (enc l (ones l)).
  split. { apply bin_to_nr_ok. auto. } split. { rewrite binom_C, <- L. apply enc_lt. } split. { apply space_fits. rewrite <- L. apply enc_lt. }
  split. { intros. apply decode_bit_ok; auto. } split. { intros. rewrite decode_popcount_ok by auto. rewrite rank_lpat; auto. lia. }
  split. { intros i I. rewrite <- L, <- ones_rank in I. destruct (decode_select_ok n l i L I) as [p [A B]]. exists p. split; auto. rewrite <- L. apply is_sel_lpat. auto. }
  split. { intros i I. rewrite <- L, <- zeros_rank in I. destruct (decode_select0_ok n l i L ltac:(lia) ltac:(lia)) as [p [A B]]. exists p. split; auto. rewrite <- L. apply is_sel_lpat. auto. }
  intros off len L1 O. exists (bits_N (sub l off len)). split. { apply decode_int_ok; auto. }
  intro j. unfold tb. rewrite bits_N_testbit. destruct (Nat.ltb_spec j len). { apply sub_nth. auto. } apply nth_overflow. rewrite sub_length; lia.
Qed.
Lemma A_code_inj : forall n l l' x x' nr, length l = n -> length l' = n -> is_bin l x -> is_bin l' x' -> count_true l = count_true l' ->
  bin_to_nr n x = Some nr -> bin_to_nr n x' = Some nr -> l = l'.
Proof.
  intros n l l' x x' nr L L' X X' K E E'. rewrite (is_bin_eq _ _ X), bin_to_nr_ok in E by auto. rewrite (is_bin_eq _ _ X'), bin_to_nr_ok in E' by auto.
  rewrite <- !ones_count in K. apply enc_inj; congruence.
Qed.
Lemma enc_onto : forall n k nr, (nr < C n k)%N -> exists l, length l = n /\ ones l = k /\ enc l k = nr.
Proof.
  induction n as [|n IH]; intros k nr H.
  - destruct k; [|rewrite C_0S in H; lia]. exists []. cbn in *. repeat split. lia.
  - destruct (N.lt_ge_cases nr (C n k)) as [G|G].
    + destruct (IH k nr G) as [l [A [B D]]]. exists (false :: l). cbn [length ones enc]. repeat split; auto; lia.
    + destruct k. { rewrite C_0 in *. lia. } rewrite C_S in H. destruct (IH k (nr - C n (S k))%N ltac:(lia)) as [l [A [B D]]].
      exists (true :: l). cbn [length ones enc]. rewrite A. replace (S k - 1) with k by lia. rewrite D. repeat split; lia.
Qed.
Lemma A_code_onto : forall n k nr, (nr < binom n k)%N -> exists l x, length l = n /\ count_true l = k /\ is_bin l x /\ bin_to_nr n x = Some nr.
Proof.
  intros n k nr H. rewrite binom_C in H. destruct (enc_onto n k nr H) as [l [A [B D]]]. exists l, (bits_N l). split; auto. split. { rewrite <- ones_count. auto. }
  split. { intro j. apply bits_N_testbit. } rewrite bin_to_nr_ok by auto. congruence.
Qed.
Lemma A_table_fits : forall n nn k, nn <= 2 ^ max_log n -> (C nn k = binom nn k /\ binom nn k < 2 ^ N.of_nat (2 ^ max_log n))%N.
Proof.
  intros n nn k H. rewrite binom_C. split; auto. apply N.lt_le_trans with (2 ^ N.of_nat (S (nn - 1)))%N.
  - destruct nn. { destruct k; [reflexivity|]. rewrite C_0S. reflexivity. } replace (S (S nn - 1)) with (S nn) by lia. apply C_lt_pow. lia.
  - apply N.pow_le_mono_r; [discriminate|]. assert (1 <= 2 ^ max_log n) by (clear; assert (2 ^ max_log n <> 0) by (apply Nat.pow_nonzero; lia); lia). lia.
Qed.

Definition rrr_params (bs tk : nat) (bv : list bool) : Prop := 3 <= bs <= 256 /\ 2 <= tk /\ (N.of_nat (length bv) + 256 < W64)%N.
Section V.
Variables (bs tk : nat) (bv : list bool).
Hypothesis HP : 3 <= bs <= 256 /\ 2 <= tk /\ (N.of_nat (length bv) + 256 < W64)%N.
Lemma A_make : exists v, rrr_make bs tk bv = Some v.
Proof. destruct HP as [A [B D]]. destruct (rrr_make_ok bs tk bv A B D) as [v [E _]]. eauto. Qed.
Variable v : rrr.
Hypothesis HM : rrr_make bs tk bv = Some v.
Lemma A_repr : rrr_repr bs tk bv v.
Proof. destruct HP as [A [B D]]. destruct (rrr_make_ok bs tk bv A B D) as [v' [E R]]. congruence. Qed.
Lemma A_size : r_size v = length bv. Proof. destruct A_repr. auto. Qed.
Lemma A_access : forall i, i < length bv -> rrr_access bs tk v i = Some (nth i bv false).
Proof. intros i H. destruct HP as [A [B D]]. apply (access_ok bs tk bv v A B D A_repr). auto. Qed.
Lemma A_get_int : forall idx len, 1 <= len <= 64 -> idx + len <= length bv ->
  exists r, rrr_get_int bs tk v idx len = Some r /\ forall j, tb r j = (j <? len) && nth (idx + j) bv false.
Proof.
  intros idx len L H. destruct HP as [A [B D]]. eexists. split. { apply (get_int_ok bs tk bv v A B D A_repr); auto. }
  intro j. unfold tb. rewrite bits_N_testbit. destruct (Nat.ltb_spec j len). { apply sub_nth. auto. } apply nth_overflow. rewrite sub_length; lia.
Qed.
Lemma A_rank : forall b i, i <= length bv -> rrr_rank bs tk v b i = Some (rank_of (lpat b bv) i).
Proof. intros b i H. destruct HP as [A [B D]]. apply (rank_ok bs tk bv v A B D A_repr). auto. Qed.
Lemma A_select : forall b i, 1 <= i <= rank_of (lpat b bv) (length bv) ->
  exists p, rrr_select bs tk v b i = Some p /\ p < length bv /\ is_select (lpat b bv) i p.
Proof.
  intros b i H. destruct HP as [A [B D]]. destruct (select_ok bs tk bv v A B D A_repr b i ltac:(lia)) as [p [E G]]. exists p. split; auto.
  change (pat bv b) with (lpat b bv) in G. replace (i <=? rank_of (lpat b bv) (length bv)) with true in G by lia. auto.
Qed.
Lemma A_select_none : forall b i, rank_of (lpat b bv) (length bv) < i -> rrr_select bs tk v b i = Some (length bv).
Proof.
  intros b i H. destruct HP as [A [B D]]. destruct (select_ok bs tk bv v A B D A_repr b i ltac:(lia)) as [p [E G]].
  change (pat bv b) with (lpat b bv) in G. replace (i <=? rank_of (lpat b bv) (length bv)) with false in G by lia. subst. auto.
Qed.
End V.
(** 300 bits of three kinds: zeros, ones with gaps, ones *)
Definition demo_rrr : list bool := map (fun i => (100 <=? i) && negb (i mod 7 =? 3)) (seq 0 300).
