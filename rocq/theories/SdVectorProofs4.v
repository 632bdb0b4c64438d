(** * Proofs about sd_vector: the statements of the property file *)
From Coq Require Import NArith List Bool Arith Lia.
From Verif Require Import Base Bits SpecBits RankSelect IntVector SpecIntVector AbsVec SdVector SpecSd SdVectorProofs SdVectorProofs2 SdVectorProofs3.
Import ListNotations.

Lemma from_good : forall n B d, sd_from n B d -> sd_good B n d /\ (forall k, B k = true -> k < n).
Proof.
  intros n B d F. destruct F as [v d OK NW E|xs d NE A NW E|n xs d NW A F E].
  - destruct (sd_of_bv_ok v OK NW) as [d' [E1 E2]]. rewrite E in E1. apply some_inj in E1. subst. split; auto. intros k. apply (iv_bit_lt v).
  - destruct (sd_of_list_ok xs NE A NW) as [d' [E1 E2]]. rewrite E in E1. apply some_inj in E1. subst. split; auto. intros k M. apply memb_In in M.
    pose proof (asc_last xs A) as F. rewrite Forall_forall in F. auto.
  - destruct (sd_of_builder_ok n xs NW A F) as [d' [E1 E2]]. rewrite E in E1. apply some_inj in E1. subst. split; auto. intros k M. apply memb_In in M.
    rewrite Forall_forall in F. auto.
Qed.
Lemma A_sd_access : forall n B d, sd_from n B d -> sd_size d = n /\ forall i, i < n -> sd_get d i = Some (B i).
Proof.
  intros n B d F. destruct (from_good n B d F) as [[K R] BN]. split. { destruct R as [E _]. exact E. } intros. eapply sd_get_ok; eauto.
Qed.
Lemma A_sd_bv : forall v, iv_ok v -> N.lt (N.of_nat (iv_size v)) W64 -> exists d, sd_of_bv v = Some d.
Proof. intros v OK NW. destruct (sd_of_bv_ok v OK NW) as [d [E _]]. eauto. Qed.
Lemma A_sd_list : forall xs, xs <> [] -> ascending xs -> N.lt (N.of_nat (last xs 0 + 1)) W64 -> exists d, sd_of_list xs = Some d.
Proof. intros xs NE A NW. destruct (sd_of_list_ok xs NE A NW) as [d [E _]]. eauto. Qed.
Lemma A_sd_builder : forall n xs, N.lt (N.of_nat n) W64 -> ascending xs -> Forall (fun x => x < n) xs ->
  exists d, (let* b := sb_new n (length xs) in let* b := sb_sets b xs in sd_of_builder b) = Some d.
Proof. intros n xs NW A F. destruct (sd_of_builder_ok n xs NW A F) as [d [E _]]. eauto. Qed.
Lemma A_sd_builder_throws : forall n c xs, N.lt (N.of_nat n) W64 -> ascending xs -> Forall (fun x => x < n) xs -> length xs < c -> c <= n ->
  exists b, (let* b := sb_new n c in sb_sets b xs) = Some b /\ sd_of_builder b = None.
Proof. exact sd_of_builder_throws. Qed.
Lemma A_sd_rank : forall n B d b i, sd_from n B d -> i <= n -> sd_rank b d i = Some (rank_of (fun k => Bool.eqb (B k) b) i).
Proof. intros n B d b i F I. destruct (from_good n B d F) as [[K R] BN]. eapply sd_rank_ok; eauto. Qed.
Lemma A_sd_select1 : forall n B d i p, sd_from n B d -> is_select B i p -> sd_select1 d i = Some p.
Proof.
  intros n B d i p F S0. destruct (from_good n B d F) as [[K R] BN]. assert (PN : p < n) by (apply BN; destruct S0; auto).
  pose proof (is_select_pos _ _ _ S0) as IP. pose proof (is_select_le_rank _ _ _ _ S0 PN) as IR. replace i with (i - 1 + 1) by lia.
  rewrite (sd_select1_ok B n BN d K R) by lia. f_equal. unfold sx. apply select_positions; auto.
Qed.
Lemma A_sd_select0 : forall n B d i p, sd_from n B d -> is_select (fun k => negb (B k)) i p -> p < n -> sd_select0 d i = Some p.
Proof. intros n B d i p F S0 PN. destruct (from_good n B d F) as [[K R] BN]. eapply sd_select0_ok; eauto. Qed.
Lemma A_sd_select0_sd : forall n B d, sd_from n B d -> N.lt (N.of_nat (length (sd_high d))) W64 ->
  exists s, s0_build d = Some s /\ forall i p, is_select (fun k => negb (B k)) i p -> p < n -> s0_select d s i = Some p.
Proof. intros n B d F HW. destruct (from_good n B d F) as [[K R] BN]. eapply s0_ok; eauto. Qed.
Lemma A_sd_get_int : forall n B d idx len, sd_from n B d -> 1 <= len <= 64 -> idx + len <= n ->
  exists r, sd_get_int d idx len = Some r /\ forall k, tb r k = (k <? len) && B (idx + k).
Proof. intros n B d idx len F LEN T. destruct (from_good n B d F) as [[K R] BN]. eapply sd_get_int_ok; eauto. Qed.
