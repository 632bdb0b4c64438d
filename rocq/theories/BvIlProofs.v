(** * bit_vector_il: proofs *)
From Coq Require Import NArith List Bool Arith Lia.
From Verif Require Import Base Bits SpecBits RankSelect BitsProofs BitsProofs3 IntVector SpecIntVector IntVectorProofs4 SpecRank IntVectorProofs3 RankSupportProofs RankSupportProofs2 BvIl.
Import ListNotations.

Lemma div_pred0 : forall i r, 1 <= r -> 1 <= i -> i mod r = 0 -> (i - 1) / r + 1 = i / r.
Proof.
  intros. pose proof (Nat.div_mod i r ltac:(lia)). set (q := i / r) in *. assert (1 <= q) by nia.
  rewrite <- (Nat.div_unique (i - 1) r (q - 1) (r - 1)); try lia. nia.
Qed.
Lemma div_pred1 : forall i r, 1 <= r -> i mod r <> 0 -> (i - 1) / r = i / r.
Proof.
  intros. pose proof (Nat.div_mod i r ltac:(lia)). pose proof (Nat.mod_upper_bound i r ltac:(lia)).
  symmetry. apply (Nat.div_unique (i - 1) r _ (i mod r - 1)); [lia|]. revert H1 H0. generalize (i / r), (i mod r). intros q t E F. rewrite E. set (z := r * q). lia.
Qed.

Lemma r_pos : forall k, 1 <= il_rate k. Proof. intros k. unfold il_rate. pose proof (Nat.pow_nonzero 2 (k - 6)). lia. Qed.
Section H0.
Variable k : nat. Hypothesis Hk : 6 <= k. Notation r := (il_rate k).
Lemma bs_eq : 2 ^ k = 64 * r.
Proof. unfold il_rate. replace k with (6 + (k - 6)) at 1 by lia. rewrite Nat.pow_add_r. reflexivity. Qed.
Lemma div_bs : forall x, x / 2 ^ k = x / 64 / r.
Proof. intros. rewrite bs_eq, Nat.div_div; auto. pose proof (r_pos k); lia. Qed.
End H0.
Section H1.
Variable m : mem. Hypothesis Hm : words_ok m.
Lemma word_cnt : forall (b : bool) w, w < length m ->
  is_word (il_w b (nth w m 0%N)) /\ (forall j, j < 64 -> tb (il_w b (nth w m 0%N)) j = (if b then mbit m (64 * w + j) else negb (mbit m (64 * w + j)))).
Proof.
  intros b w Hw. unfold words_ok in Hm. rewrite Forall_forall in Hm. assert (is_word (nth w m 0%N)) by (apply Hm, nth_In; auto).
  assert (MB : forall j, j < 64 -> mbit m (64 * w + j) = tb (nth w m 0%N) j).
  { intros. unfold mbit. replace ((64 * w + j) / 64) with w by lia. replace ((64 * w + j) mod 64) with j by lia. auto. }
  destruct b; cbn [il_w].
  - split; auto. intros. now rewrite MB.
  - split. { apply is_word_wnot; auto. } intros. rewrite tb_wnot, MB by auto. apply Nat.ltb_lt in H0. rewrite H0. destruct (tb _ j); auto.
Qed.
Definition pf (b : bool) (j : nat) : bool := if b then mbit m j else negb (mbit m j).
Lemma cnt_w : forall b w, w < length m -> cnt (il_w b (nth w m 0%N)) = N.of_nat (rank_of (pf b) (64 * w + 64) - rank_of (pf b) (64 * w)).
Proof.
  intros. destruct (word_cnt b w H) as [A B]. rewrite (cnt_rank _ (fun j => pf b (64 * w + j))) by (auto; intros; rewrite B; auto).
  rewrite rank_of_add. f_equal. lia.
Qed.

End H1.

Section L.
Variables (k : nat) (m : mem) (n : nat).
Hypothesis Hk : 6 <= k.
Hypothesis Hm : words_ok m.
Hypothesis HN : (N.of_nat n + 64 < W64)%N.
Notation r := (il_rate k).
Notation R := (rank_of (mbit m)).
Notation blocks := ((n + 64) / 64).
Hypothesis HP : blocks <= length m.

(** layout of m_data: the word w of the bit vector, the sum before block s *)
Definition lay (d : mem) (i : nat) : Prop :=
  (forall w, w < i -> nth_error d (w + w / r + 1) = Some (nth w m 0%N)) /\
  (forall s, s * r < i -> nth_error d (s * (r + 1)) = Some (N.of_nat (R (64 * (s * r))))).
Definition J (i : nat) : nat := if i =? 0 then 0 else i + (i - 1) / r + 1.

Lemma fill_ok : forall todo i sc (d : mem), i + todo <= blocks -> length d = J (i + todo) + 1 -> lay d i ->
  sc = (if i mod r =? 0 then r else i mod r) ->
  exists d', il_fill todo i r sc m d (J i) (N.of_nat (R (64 * i))) = Some (d', J (i + todo), N.of_nat (R (64 * (i + todo)))) /\ length d' = length d /\ lay d' (i + todo).
Proof.
  pose proof (r_pos k) as RP. induction todo; intros i sc d HI HL HLay HS.
  { exists d. rewrite Nat.add_0_r. auto. }
  cbn [il_fill]. assert (JM : J (i + S todo) >= i + i / r + 2).
  { unfold J. destruct (Nat.eqb_spec (i + S todo) 0); [lia|]. assert (i / r <= (i + S todo - 1) / r) by (apply Nat.div_le_mono; lia). lia. }
  assert (JI : J i = if i mod r =? 0 then i + i / r else i + i / r + 1).
  { unfold J. destruct (Nat.eqb_spec i 0) as [->|E]. { rewrite Nat.mod_0_l, Nat.div_0_l by lia. auto. }
    destruct (Nat.eqb_spec (i mod r) 0). pose proof (div_pred0 i r RP ltac:(lia) e). lia. pose proof (div_pred1 i r RP n0). lia. }
  assert (JS : J (S i) = i + i / r + 2). { unfold J. destruct (Nat.eqb_spec (S i) 0); [lia|]. replace (S i - 1) with i by lia. lia. }
  assert (W : i < length m) by lia.
  assert (CW : cnt (nth i m 0%N) = N.of_nat (R (64 * i + 64) - R (64 * i))) by (apply (cnt_w m Hm true i W)).
  assert (RM : R (64 * i) <= R (64 * i + 64)) by (apply rank_of_mono; lia).
  assert (WA : wadd (N.of_nat (R (64 * i))) (cnt (nth i m 0%N)) = N.of_nat (R (64 * S i))).
  { rewrite CW. replace (64 * S i) with (64 * i + 64) by lia. pose proof (rank_of_le (mbit m) (64 * i + 64)).
    unfold wadd, W64 in *. rewrite N.mod_small; lia. }
  destruct HLay as [L1 L2]. pose proof (Nat.div_mod i r ltac:(lia)) as DM. pose proof (Nat.mod_upper_bound i r ltac:(lia)) as MU.
  assert (WI : forall w, w < i -> w + w / r + 1 < J i).
  { intros. unfold J. destruct (Nat.eqb_spec i 0); [lia|]. assert (w / r <= (i - 1) / r) by (apply Nat.div_le_mono; lia). lia. }
  assert (SI : forall s, s * r < i -> s * (r + 1) < J i).
  { intros s Hs. unfold J. destruct (Nat.eqb_spec i 0); [lia|]. assert (s <= (i - 1) / r) by (apply Nat.div_le_lower_bound; lia). nia. }
  assert (STEP : exists (d1 : mem) sc1, (if sc =? r then let* d := st d (J i) (N.of_nat (R (64 * i))) in Some (d, S (J i), 0) else Some ((d : mem), J i, sc)) = Some (d1, i + i / r + 1, sc1) /\
     length d1 = length d /\ sc1 = i mod r /\ (forall w, w < i -> nth_error d1 (w + w / r + 1) = Some (nth w m 0%N)) /\
     (forall s, s * r <= i -> nth_error d1 (s * (r + 1)) = Some (N.of_nat (R (64 * (s * r)))))).
  { subst sc. destruct (Nat.eqb_spec (i mod r) 0) as [E|E].
    - rewrite Nat.eqb_refl. rewrite st_some by lia. cbn [obind]. do 2 eexists. split. { do 2 f_equal. rewrite JI. f_equal. lia. }
      split; [apply upd_length|]. split; [lia|]. split.
      + intros. rewrite nth_error_upd_neq; auto. specialize (WI w H). lia.
      + intros s Hs. destruct (Nat.eq_dec (s * r) i) as [X|X].
        * assert (s = i / r) by (symmetry; rewrite <- X; apply Nat.div_mul; lia).
          replace (s * (r + 1)) with (i + i / r) by nia. rewrite nth_error_upd_eq by lia. now rewrite X.
        * assert (s * r < i) by lia. rewrite nth_error_upd_neq; auto. specialize (SI s H). lia.
    - destruct (Nat.eqb_spec (i mod r) r); [lia|]. exists d, (i mod r). rewrite JI. split; auto. split; auto. split; auto. split; auto.
      intros s Hs. apply L2. destruct (Nat.eq_dec (s * r) i) as [X|X]; [|lia]. exfalso. apply E. rewrite <- X. apply Nat.mod_mul. lia. }
  destruct STEP as (d1 & sc1 & -> & LD & -> & W1 & S1). cbn [obind]. rewrite ld_some by auto. cbn [obind]. rewrite st_some by lia. cbn [obind].
  rewrite WA. replace (S (i + i / r + 1)) with (J (S i)) by lia. replace (i + S todo) with (S i + todo) in * by lia.
  destruct (IHtodo (S i) (S (i mod r)) (upd d1 (i + i / r + 1) (nth i m 0%N))) as (d' & E1 & E2 & E3); auto; try lia.
  - rewrite upd_length. lia.
  - split.
    + intros w Hw. destruct (Nat.eq_dec w i) as [->|X]. { apply nth_error_upd_eq. lia. }
      rewrite nth_error_upd_neq by (assert (w / r <= i / r) by (apply Nat.div_le_mono; lia); lia). apply W1. lia.
    + intros s Hs. rewrite nth_error_upd_neq. { apply S1. lia. } assert (s <= i / r) by (apply Nat.div_le_lower_bound; lia). nia.
  - destruct (Nat.eq_dec (i mod r) (r - 1)) as [X|X].
    + assert (Q : S i = (i / r + 1) * r) by nia. rewrite Q, Nat.mod_mul by lia. cbn. lia.
    + assert (Q : S i mod r = S (i mod r)). { symmetry. apply (Nat.mod_unique _ _ (i / r)); lia. } rewrite Q. cbn. auto.
  - exists d'. split; auto. split; auto. rewrite E2. now rewrite upd_length.
Qed.

Notation sb := ((n + 2 ^ k) / 2 ^ k).
Lemma sb_eq : sb = n / 64 / r + 1.
Proof.
  assert (2 ^ k <> 0) by (pose proof (bs_eq k Hk); pose proof (r_pos k); lia). replace (n + 2 ^ k) with (n + 1 * 2 ^ k) by lia. rewrite Nat.div_add by auto. rewrite (div_bs k Hk). auto.
Qed.
Lemma blocks_eq : blocks = n / 64 + 1. Proof. lia. Qed.
Lemma lay_all : exists d, il_fill blocks 0 r r m (repeat 0%N (blocks + sb + 1)) 0 0%N = Some (d, blocks + sb, N.of_nat (R (64 * blocks))) /\ length d = blocks + sb + 1 /\ lay d blocks.
Proof.
  assert (JB : J blocks = blocks + sb). { unfold J. destruct (Nat.eqb_spec blocks 0); [lia|]. rewrite sb_eq, blocks_eq. replace (n / 64 + 1 - 1) with (n / 64) by lia. lia. }
  pose proof (r_pos k). destruct (fill_ok blocks 0 r (repeat 0%N (blocks + sb + 1))) as (d & E1 & E2 & E3); auto.
  - rewrite repeat_length, Nat.add_0_l, JB. auto.
  - split; intros; lia.
  - rewrite Nat.mod_0_l by lia. auto.
  - rewrite Nat.add_0_l, JB in *. exists d. split; auto. split; auto. rewrite E2. apply repeat_length.
Qed.
Definition good (d : mem) : Prop :=
  (forall w, w < blocks -> nth_error d (w + w / r + 1) = Some (nth w m 0%N)) /\
  (forall s, s < sb -> nth_error d (il_pos k s) = Some (N.of_nat (R (s * 2 ^ k)))).
Lemma lay_good : forall d x, lay d blocks -> length d = blocks + sb + 1 -> good (upd d (blocks + sb) x).
Proof.
  intros d x [L1 L2] HL. pose proof (r_pos k). split.
  - intros w Hw. rewrite nth_error_upd_neq; auto. rewrite sb_eq, blocks_eq in *. assert (w / r <= n / 64 / r) by (apply Nat.div_le_mono; lia). lia.
  - intros s Hs. unfold il_pos. rewrite sb_eq in *. assert (s * r <= n / 64). { assert (s <= n / 64 / r) by lia. etransitivity; [apply Nat.mul_le_mono_r; exact H0|]. rewrite Nat.mul_comm. apply Nat.mul_div_le. lia. }
    rewrite nth_error_upd_neq by nia. replace (s * r + s) with (s * (r + 1)) by lia. rewrite L2 by lia. rewrite (bs_eq k Hk). do 3 f_equal. lia.
Qed.
End L.
