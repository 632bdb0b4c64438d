(** * Properties C17-C20: sd_vector.

    [sd_from n B d] (SpecSd.v): [d] was built, by any of the three constructors, from a bit vector
    of [n] bits whose bits are [B].  [rank_of], [is_select] (SpecBits.v): rank and select of a
    predicate; [tb]: bit of an integer. *)
From Coq Require Import NArith List Bool Arith Lia Sorting.Sorted.
From Verif Require Import Base Bits SpecBits IntVector SpecIntVector IntVectorProofs4 SdVector SpecSd SdVectorProofs4.
Import ListNotations.

(** ** C17: construction and access *)
Theorem C17_sd_access : forall n B d, sd_from n B d -> sd_size d = n /\ forall i, i < n -> sd_get d i = Some (B i).
Proof. exact A_sd_access. Qed.
Print Assumptions C17_sd_access.
Theorem C17_sd_from_bit_vector : forall v, iv_ok v -> N.lt (N.of_nat (iv_size v)) W64 -> exists d, sd_of_bv v = Some d.
Proof. exact A_sd_bv. Qed.
Print Assumptions C17_sd_from_bit_vector.
Theorem C17_sd_from_positions : forall xs, xs <> [] -> ascending xs -> N.lt (N.of_nat (last xs 0 + 1)) W64 -> exists d, sd_of_list xs = Some d.
Proof. exact A_sd_list. Qed.
Print Assumptions C17_sd_from_positions.
Theorem C17_sd_from_builder : forall n xs, N.lt (N.of_nat n) W64 -> ascending xs -> Forall (fun x => x < n) xs ->
  exists d, (let* b := sb_new n (length xs) in let* b := sb_sets b xs in sd_of_builder b) = Some d.
Proof. exact A_sd_builder. Qed.
Print Assumptions C17_sd_from_builder.
(** a builder with fewer positions than announced is rejected *)
Theorem C17_sd_builder_not_full : forall n c xs, N.lt (N.of_nat n) W64 -> ascending xs -> Forall (fun x => x < n) xs -> length xs < c -> c <= n ->
  exists b, (let* b := sb_new n c in sb_sets b xs) = Some b /\ sd_of_builder b = None.
Proof. exact A_sd_builder_throws. Qed.
Print Assumptions C17_sd_builder_not_full.
Example C17_ex : exists d, sd_from 130 (iv_bit demo_b) d /\ sd_wl d = 5 /\ sd_get d 70 = Some true /\ sd_get d 71 = Some false.
Proof.
  eexists. split; [|split; [|split]].
  - apply (from_bv demo_b); [apply demo_b_ok|reflexivity|vm_compute; reflexivity].
  - reflexivity.
  - vm_compute. reflexivity.
  - vm_compute. reflexivity.
Qed.
Example C17_ex_list : exists d, sd_from 130 (memb [0; 3; 70; 129]) d /\ sd_get d 129 = Some true.
Proof.
  eexists. split.
  - apply (from_list [0; 3; 70; 129]); [discriminate|repeat constructor; lia|reflexivity|vm_compute; reflexivity].
  - vm_compute. reflexivity.
Qed.
(** The constructor checks only that the range is sorted: with repeated positions it runs into
    undefined behaviour (here more ones than the width computation allows) instead of throwing. *)
Theorem C17_sd_repeated_positions_refuted : exists xs, is_sorted xs = true /\ xs <> [] /\ sd_of_list xs = None.
Proof. exists [0; 0; 0; 0]. vm_compute. repeat split; auto. discriminate. Qed.
Print Assumptions C17_sd_repeated_positions_refuted.
(** An empty range gives a vector on which rank(size()) = rank(0) is undefined. *)
Theorem C18_sd_empty_range_refuted : exists d, sd_of_list [] = Some d /\ sd_size d = 0 /\ sd_rank true d (sd_size d) = None.
Proof. eexists. vm_compute. auto. Qed.
Print Assumptions C18_sd_empty_range_refuted.

(** ** C18: rank *)
Theorem C18_sd_rank : forall n B d b i, sd_from n B d -> i <= n -> sd_rank b d i = Some (rank_of (fun k => Bool.eqb (B k) b) i).
Proof. exact A_sd_rank. Qed.
Print Assumptions C18_sd_rank.
Example C18_sd_rank_ex : exists d, sd_of_bv demo_b = Some d /\ sd_rank true d 130 = Some 4 /\ sd_rank true d 70 = Some 2 /\ sd_rank false d 71 = Some 68.
Proof. eexists. split; [vm_compute; reflexivity|]. vm_compute. auto. Qed.

(** ** C19: select *)
Theorem C19_sd_select1 : forall n B d i p, sd_from n B d -> is_select B i p -> sd_select1 d i = Some p.
Proof. exact A_sd_select1. Qed.
Print Assumptions C19_sd_select1.
Theorem C19_sd_select0 : forall n B d i p, sd_from n B d -> is_select (fun k => negb (B k)) i p -> p < n -> sd_select0 d i = Some p.
Proof. exact A_sd_select0. Qed.
Print Assumptions C19_sd_select0.
Theorem C19_select_0_support_sd : forall n B d, sd_from n B d -> N.lt (N.of_nat (length (sd_high d))) W64 ->
  exists s, s0_build d = Some s /\ forall i p, is_select (fun k => negb (B k)) i p -> p < n -> s0_select d s i = Some p.
Proof. exact A_sd_select0_sd. Qed.
Print Assumptions C19_select_0_support_sd.
Example C19_ex : exists d s, sd_of_bv demo_b = Some d /\ sd_select1 d 3 = Some 70 /\ sd_select0 d 3 = Some 4 /\ sd_select0 d 126 = Some 128 /\
  s0_build d = Some s /\ s0_select d s 3 = Some 4 /\ s0_select d s 126 = Some 128.
Proof. do 2 eexists. split; [vm_compute; reflexivity|]. do 3 (split; [vm_compute; reflexivity|]). split; [vm_compute; reflexivity|]. vm_compute. auto. Qed.

(** ** C20: get_int *)
Theorem C20_sd_get_int : forall n B d idx len, sd_from n B d -> 1 <= len <= 64 -> idx + len <= n ->
  exists r, sd_get_int d idx len = Some r /\ forall k, tb r k = (k <? len) && B (idx + k).
Proof. exact A_sd_get_int. Qed.
Print Assumptions C20_sd_get_int.
Example C20_sd_get_int_ex : exists d, sd_of_bv demo_b = Some d /\ sd_get_int d 0 8 = Some 9%N /\ sd_get_int d 66 64 = Some (2 ^ 63 + 16)%N.
Proof. eexists. split; [vm_compute; reflexivity|]. vm_compute. auto. Qed.
