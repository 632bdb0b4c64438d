(** * Properties C15, C16, C51: the select supports.

    [select_spec p v i pos] (SpecRank.v): the i-th occurrence of pattern [p] ends at [pos];
    [rank_spec p v (iv_size v)] is the number of occurrences.  [a]: initial contents of the
    uninitialised buffer of the constructor; [g]: contents of fresh memory.  [iv_data v] are the
    allocated words of [v]. *)
From Coq Require Import NArith List Bool Arith Lia.
From Verif Require Import Base Bits SpecBits IntVector SpecIntVector IntVectorProofs4 SpecRank RankSupport SelectSupport SelectSupportProofs4.
Import ListNotations.

(** ** C15: select_support_mcl, all six patterns, both construction algorithms *)
Theorem C15_select_support_mcl : forall p a v, iv_ok v -> (N.of_nat (64 * length (iv_data v)) < W64)%N ->
  exists s, mc_build p a v = Some s /\
    forall i, 1 <= i <= rank_spec p v (iv_size v) ->
      exists pos, mc_select p v s i = Some pos /\ pos < iv_size v /\ select_spec p v i pos.
Proof. exact A_select_mcl. Qed.
Print Assumptions C15_select_support_mcl.
Example C15_select_support_mcl_ex : iv_ok demo_b /\ exists s, mc_build P10 (fun _ => 7) demo_b = Some s /\ rank_spec P10 demo_b 130 = 3 /\
  mc_select P10 demo_b s 3 = Some 71 /\ mc_select P10 demo_b s 1 = Some 1.
Proof. split; [apply demo_b_ok|]. eexists. split; [vm_compute; reflexivity|]. vm_compute; auto. Qed.
(** init_fast, used from 100000 bits on, here run on the small vector *)
Theorem C15_init_fast : forall p a v, p = P0 \/ p = P1 -> iv_ok v -> (N.of_nat (64 * length (iv_data v)) < W64)%N ->
  exists s, mc_init_fast p a v = Some s /\
    forall i, 1 <= i <= rank_spec p v (iv_size v) ->
      exists pos, mc_select p v s i = Some pos /\ pos < iv_size v /\ select_spec p v i pos.
Proof. exact A_select_mcl_fast. Qed.
Print Assumptions C15_init_fast.
Example C15_init_fast_ex : exists s, mc_init_fast P1 (fun _ => 7) demo_b = Some s /\ rank_spec P1 demo_b 130 = 4 /\
  mc_select P1 demo_b s 3 = Some 70 /\ mc_select P1 demo_b s 4 = Some 129.
Proof. eexists. split; [vm_compute; reflexivity|]. vm_compute; auto. Qed.

(** ** C16: select_support_scan *)
Theorem C16_select_support_scan : forall p v i, iv_ok v -> (N.of_nat (64 * length (iv_data v)) < W64)%N -> 1 <= i <= rank_spec p v (iv_size v) ->
  exists pos, ss_scan_select p v i = Some pos /\ pos < iv_size v /\ select_spec p v i pos.
Proof. exact A_select_scan. Qed.
Print Assumptions C16_select_support_scan.
Example C16_select_support_scan_ex : iv_ok demo_b /\ rank_spec P01 demo_b 130 = 3 /\ ss_scan_select P01 demo_b 3 = Some 129 /\
  ss_scan_select P0 demo_b 100 = Some 102.
Proof. split; [apply demo_b_ok|]. vm_compute; auto. Qed.

(** ** C51: rank and select are inverse *)
Theorem C51_rank_select_inverse : forall p g a v, iv_ok v -> (N.of_nat (64 * length (iv_data v)) < W64)%N ->
  exists bb s, rsv_build p g v = Some bb /\ mc_build p a v = Some s /\
    (forall i pos, 1 <= i <= rank_spec p v (iv_size v) -> mc_select p v s i = Some pos ->
      pos < iv_size v /\ occ p (iv_bit v) pos = true /\ rsv_rank p v bb pos = Some (N.of_nat (i - 1))) /\
    (forall k pos r, k <= pos -> pos < iv_size v -> occ p (iv_bit v) pos = true ->
      (forall j, k <= j < pos -> occ p (iv_bit v) j = false) -> rsv_rank p v bb k = Some (N.of_nat r) -> mc_select p v s (r + 1) = Some pos).
Proof. exact A_rank_select. Qed.
Print Assumptions C51_rank_select_inverse.
Example C51_rank_select_inverse_ex : exists bb s, rsv_build P1 demo_g demo_b = Some bb /\ mc_build P1 (fun _ => 7) demo_b = Some s /\
  mc_select P1 demo_b s 3 = Some 70 /\ rsv_rank P1 demo_b bb 70 = Some 2%N /\ rsv_rank P1 demo_b bb 5 = Some 2%N.
Proof. do 2 eexists. split; [vm_compute; reflexivity|]. split; [vm_compute; reflexivity|]. vm_compute; auto. Qed.
