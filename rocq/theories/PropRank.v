(** * Properties C12-C14: the rank supports.

    [rank_spec p v i] (SpecRank.v) counts the occurrences of pattern [p] that end before position
    [i].  [iv_ok v]: well-formed vector; [W64] = 2^64.  [g]: contents of fresh memory. *)
From Coq Require Import NArith List Bool Arith Lia.
From Verif Require Import Base Bits SpecBits IntVector SpecIntVector IntVectorProofs4 SpecRank RankSupport RankSupportProofs2.
Import ListNotations.

(** ** C12: rank_support_v, all six patterns, every position up to and including size() *)
Theorem C12_rank_support_v : forall p g v, iv_ok v -> (N.of_nat (iv_capacity v) < W64)%N ->
  exists bb, rsv_build p g v = Some bb /\ forall i, i <= iv_size v -> rsv_rank p v bb i = Some (N.of_nat (rank_spec p v i)).
Proof. exact A_rank_v. Qed.
Print Assumptions C12_rank_support_v.
Example C12_rank_support_v_ex : iv_ok demo_b /\ exists bb, rsv_build P10 demo_g demo_b = Some bb /\ rsv_rank P10 demo_b bb 130 = Some 3%N /\
  rank_spec P10 demo_b 130 = 3 /\ rsv_rank P10 demo_b bb 71 = Some 2%N.
Proof. split; [apply demo_b_ok|]. eexists. split; [vm_compute; reflexivity|]. vm_compute; auto. Qed.

(** ** C13: rank_support_v5.  rank(size()) needs the padding word that construction allocates.
    Missing for the full claim: rank(size()) for vectors without that word, where it is false
    (C13_after_resize_refuted). *)
Theorem C13_rank_support_v5_partial : forall p g v, iv_ok v -> padding_ok v -> (N.of_nat (iv_capacity v) < W64)%N ->
  exists bb, rs5_build p g v = Some bb /\ forall i, i <= iv_size v -> rs5_rank p v bb i = Some (N.of_nat (rank_spec p v i)).
Proof. exact A_rank_v5. Qed.
Print Assumptions C13_rank_support_v5_partial.
Theorem C13_rank_support_v5_inner : forall p g v, iv_ok v -> (N.of_nat (iv_capacity v) < W64)%N ->
  exists bb, rs5_build p g v = Some bb /\ forall i, i < iv_size v -> rs5_rank p v bb i = Some (N.of_nat (rank_spec p v i)).
Proof. exact A_rank_v5_inner. Qed.
Print Assumptions C13_rank_support_v5_inner.
Example C13_rank_support_v5_ex : iv_ok demo_b /\ padding_ok demo_b /\ exists bb, rs5_build P00 demo_g demo_b = Some bb /\ rs5_rank P00 demo_b bb 130 = Some 123%N /\
  rank_spec P00 demo_b 130 = 123.
Proof. split; [apply demo_b_ok|]. split; [vm_compute; lia|]. eexists. split; [vm_compute; reflexivity|]. vm_compute; auto. Qed.
(** Finding: a bit_vector of 60 bits resized to 64 has no padding word, and rank(64) reads past it. *)
Theorem C13_after_resize_refuted : exists g v v' bb, fresh_ok g /\ iv_new shr_c g 1 60 0 1 = Some v /\
  iv_resize g v 64 = Some v' /\ rs5_build P1 g v' = Some bb /\ rs5_rank P1 v' bb (iv_size v') = None.
Proof.
  exists demo_g. do 3 eexists. split; [exact demo_g_ok|]. split; [vm_compute; reflexivity|].
  split; [vm_compute; reflexivity|]. split; [vm_compute; reflexivity|]. vm_compute. reflexivity.
Qed.
Print Assumptions C13_after_resize_refuted.

(** ** C14: rank_support_scan; the same gap as for C13 *)
Theorem C14_rank_support_scan_partial : forall p v i, iv_ok v -> (N.of_nat (iv_capacity v) < W64)%N -> i <= iv_size v -> i < iv_size v \/ padding_ok v ->
  rss_rank p v i = Some (N.of_nat (rank_spec p v i)).
Proof. exact A_rank_scan. Qed.
Print Assumptions C14_rank_support_scan_partial.
Example C14_rank_support_scan_ex : iv_ok demo_b /\ padding_ok demo_b /\ rss_rank P01 demo_b 130 = Some 3%N /\ rank_spec P01 demo_b 130 = 3.
Proof. split; [apply demo_b_ok|]. split; [vm_compute; lia|]. vm_compute; auto. Qed.
Theorem C14_after_resize_refuted : exists g v v', fresh_ok g /\ iv_new shr_c g 1 60 0 1 = Some v /\
  iv_resize g v 64 = Some v' /\ rss_rank P1 v' (iv_size v') = None.
Proof.
  exists demo_g. do 2 eexists. split; [exact demo_g_ok|]. split; [vm_compute; reflexivity|].
  split; [vm_compute; reflexivity|]. vm_compute. reflexivity.
Qed.
Print Assumptions C14_after_resize_refuted.
