(** * bit_vector_il: construction and the whole claims *)
From Coq Require Import NArith List Bool Arith Lia.
From Verif Require Import Base Bits SpecBits RankSelect IntVector SpecIntVector SpecRank BvIl BvIlProofs BvIlProofs2.
Import ListNotations.

Lemma iv_bit_m : forall v i, i < iv_size v -> iv_bit v i = mbit (iv_data v) i.
Proof.
  intros. unfold iv_bit, iv_bits. rewrite (nth_indep _ false (mbit (iv_data v) 0)) by (rewrite map_length, seq_length; auto).
  rewrite map_nth. rewrite seq_nth; auto.
Qed.
Lemma occ_pf : forall (b : bool) v i, i < iv_size v -> occ (if b then P1 else P0) (iv_bit v) i = pf (iv_data v) b i.
Proof. intros [|] v i H; cbn [occ]; rewrite iv_bit_m by auto; auto. Qed.

Lemma il_make_ok : forall thr cap k g v, 6 <= k -> 1 <= cap -> (exists c, cap = 2 ^ c) -> iv_ok v -> padding_ok v -> (N.of_nat (iv_size v + 2 ^ k) < W64)%N ->
  exists w, il_make thr cap k g v = Some w /\ il_size w = iv_size v /\ il_super w = (iv_size v + 2 ^ k) / 2 ^ k /\
    good k (iv_data v) (iv_size v) (il_data w) /\ cache k (iv_data v) (iv_size v) (il_smp w) (length (il_smp w)) /\
    iv_size v / 64 + iv_size v / 64 / il_rate k + 1 < length (il_data w).
Proof.
  intros thr cap k g v Hk Hc [c Ec] (HW & _ & HS) HP HN. unfold padding_ok in HP. set (n := iv_size v) in *. set (m := iv_data v) in *.
  assert (BL : (n + 64) / 64 = n / 64 + 1) by lia.
  assert (KP : 64 <= 2 ^ k). { change 64 with (2 ^ 6). apply Nat.pow_le_mono_r; lia. }
  assert (HN' : (N.of_nat n + 64 < W64)%N) by lia. assert (HP' : (n + 64) / 64 <= length m) by lia.
  unfold il_make. fold n m. destruct (lay_all k m n Hk HW HN' HP') as (d & E & L & Y). rewrite E. cbn [obind]. rewrite st_some by lia. cbn [obind].
  set (sb := (n + 2 ^ k) / 2 ^ k) in *. pose proof (lay_good k m n Hk HN' HP' d (N.of_nat (rank_of (mbit m) (64 * ((n + 64) / 64)))) Y L) as G. fold sb in G.
  set (d1 := upd d ((n + 64) / 64 + sb) _) in *.
  assert (SB : 1 <= sb). { unfold sb. apply Nat.div_le_lower_bound; lia. }
  assert (EX : exists H smp0, (if thr <? (n + 64) / 64 + sb + 1 then map g (seq 0 (Nat.min cap (2 ^ Nat.log2 sb))) else []) = smp0 /\ length smp0 <= 2 ^ H /\ 2 ^ H <= sb).
  { destruct (thr <? _).
    - exists (Nat.min c (Nat.log2 sb)). eexists. split; [reflexivity|]. rewrite map_length, seq_length, Ec.
      assert (Q : Nat.min (2 ^ c) (2 ^ Nat.log2 sb) = 2 ^ Nat.min c (Nat.log2 sb)).
      { destruct (Nat.le_ge_cases c (Nat.log2 sb)); [rewrite !Nat.min_l|rewrite !Nat.min_r]; auto; apply Nat.pow_le_mono_r; lia. }
      rewrite Q. split; auto. etransitivity; [apply Nat.pow_le_mono_r; [lia|apply Nat.le_min_r]|]. apply Nat.log2_spec. lia.
    - exists 0, []. split; auto. simpl. lia. }
  destruct EX as (H & smp0 & -> & L1 & L2).
  destruct (samples_ok k m n Hk HN' HP' d1 G H smp0 L1 L2) as (smp & E2 & L3 & C). fold sb in E2. rewrite E2. cbn [obind].
  eexists. split; [reflexivity|]. cbn [il_size il_super il_data il_smp]. split; auto. split; auto. split; auto. split; auto.
  unfold d1. rewrite upd_length, L. unfold sb. rewrite (sb_eq k m n Hk HN' HP'), BL. generalize (n / 64 / il_rate k), (n / 64). clear. lia.
Qed.

Section M.
Variables (thr cap k : nat) (g : nat -> N) (v : ivec) (w : il).
Hypothesis Hk : 6 <= k.
Hypothesis Hc : exists c, cap = 2 ^ c.
Hypothesis Hv : iv_ok v.
Hypothesis HP : padding_ok v.
Hypothesis HN : (N.of_nat (iv_size v + 2 ^ k) < W64)%N.
Hypothesis HM : il_make thr cap k g v = Some w.

Lemma made : il_size w = iv_size v /\ il_super w = (iv_size v + 2 ^ k) / 2 ^ k /\
    good k (iv_data v) (iv_size v) (il_data w) /\ cache k (iv_data v) (iv_size v) (il_smp w) (length (il_smp w)) /\
    iv_size v / 64 + iv_size v / 64 / il_rate k + 1 < length (il_data w).
Proof.
  assert (1 <= cap). { destruct Hc as [c ->]. pose proof (Nat.pow_nonzero 2 c). lia. }
  destruct (il_make_ok thr cap k g v Hk H Hc Hv HP HN) as (w' & E & X). rewrite HM in E. injection E as <-. auto.
Qed.
Lemma side : words_ok (iv_data v) /\ (N.of_nat (iv_size v) + 64 < W64)%N /\ (iv_size v + 64) / 64 <= length (iv_data v).
Proof.
  destruct Hv as (HW & _). split; auto. unfold padding_ok in HP.
  assert (KP : 64 <= 2 ^ k). { change 64 with (2 ^ 6). apply Nat.pow_le_mono_r; lia. } split; lia.
Qed.
Lemma il_access_m : forall i, i < iv_size v -> il_get k w i = Some (b2n (iv_bit v i)).
Proof. intros. destruct side as (A & B & C). rewrite (il_get_ok k (iv_data v) (iv_size v) Hk); auto using made. now rewrite iv_bit_m. Qed.
Lemma il_get_int_m : forall idx len, 1 <= len <= 64 -> idx + len <= iv_size v ->
  exists x, il_get_int k w idx len = Some x /\ forall j, tb x j = (j <? len) && iv_bit v (idx + j).
Proof.
  intros. destruct side as (A & B & C). destruct (il_get_int_ok k (iv_data v) (iv_size v) Hk A B C w made idx len) as (x & E & F); auto.
  exists x. split; auto. intros. rewrite F. destruct (Nat.ltb_spec j len); auto. rewrite iv_bit_m by lia. auto.
Qed.
Lemma il_rank_m : forall (b : bool) i, i <= iv_size v -> il_rank b k w i = Some (N.of_nat (rank_spec (if b then P1 else P0) v i)).
Proof.
  intros. destruct side as (A & B & C). rewrite (il_rank_ok k (iv_data v) (iv_size v) Hk A B C w made) by auto. do 2 f_equal.
  unfold rank_spec. apply rank_of_ext. intros. symmetry. apply occ_pf. lia.
Qed.
Lemma il_select_m : forall (b : bool) i, 1 <= i -> i <= rank_spec (if b then P1 else P0) v (iv_size v) ->
  exists p, il_select b k w (N.of_nat i) = Some p /\ p < iv_size v /\ select_spec (if b then P1 else P0) v i p.
Proof.
  intros b i H1 H2. destruct side as (A & B & C). destruct (il_select_ok k (iv_data v) (iv_size v) Hk A B C w made b i) as (p & E & F & G); auto.
  { etransitivity; [exact H2|]. unfold rank_spec. rewrite (rank_of_ext _ (pf (iv_data v) b)); auto. intros. apply occ_pf. lia. }
  exists p. split; auto. split; auto. unfold select_spec. eapply is_select_ext; [|exact G]. intros. symmetry. apply occ_pf. lia.
Qed.
End M.

Lemma il_build_m : forall thr c k g v, 6 <= k -> iv_ok v -> padding_ok v -> (N.of_nat (iv_size v + 2 ^ k) < W64)%N ->
  exists w, il_make thr (2 ^ c) k g v = Some w /\ il_size w = iv_size v.
Proof. intros. destruct (il_make_ok thr (2 ^ c) k g v) as (w & A & B & _); eauto. pose proof (Nat.pow_nonzero 2 c). lia. Qed.
Definition il_access_p := fun thr c k g v w Hk Hv HP HN => il_access_m thr (2 ^ c) k g v w Hk (ex_intro _ c eq_refl) Hv HP HN.
Definition il_get_int_p := fun thr c k g v w Hk Hv HP HN => il_get_int_m thr (2 ^ c) k g v w Hk (ex_intro _ c eq_refl) Hv HP HN.
Definition il_rank_p := fun thr c k g v w Hk Hv HP HN => il_rank_m thr (2 ^ c) k g v w Hk (ex_intro _ c eq_refl) Hv HP HN.
Definition il_select_p := fun thr c k g v w Hk Hv HP HN => il_select_m thr (2 ^ c) k g v w Hk (ex_intro _ c eq_refl) Hv HP HN.
