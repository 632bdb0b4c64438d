(** * C48: bit_vector_il and its rank and select supports

    t_bs = 2^k with 6 <= k.  [thr] and [2^c] are the two constants of the sample cache: the source has
    il_thr = 1024*64 and il_cap = 1024 = 2^10, and the claims hold for all values.
    [padding_ok v]: the word behind the last bit is allocated; the constructor reads it.  [g]: fresh memory. *)
From Coq Require Import NArith List Bool Arith Lia.
From Verif Require Import Base Bits SpecBits IntVector SpecIntVector IntVectorProofs4 SpecRank BvIl BvIlProofs3.
Import ListNotations.

(** missing: vectors without padding word, see below *)
Theorem C48_build_partial : forall thr c k g v, 6 <= k -> iv_ok v -> padding_ok v -> (N.of_nat (iv_size v + 2 ^ k) < W64)%N ->
  exists w, il_make thr (2 ^ c) k g v = Some w /\ il_size w = iv_size v.
Proof. exact il_build_m. Qed.
Print Assumptions C48_build_partial.
Theorem C48_access : forall thr c k g v w, 6 <= k -> iv_ok v -> padding_ok v -> (N.of_nat (iv_size v + 2 ^ k) < W64)%N ->
  il_make thr (2 ^ c) k g v = Some w -> forall i, i < iv_size v -> il_get k w i = Some (b2n (iv_bit v i)).
Proof. exact il_access_p. Qed.
Print Assumptions C48_access.
(** get_int(idx, len): bit j is bit idx+j of the vector *)
Theorem C48_get_int : forall thr c k g v w, 6 <= k -> iv_ok v -> padding_ok v -> (N.of_nat (iv_size v + 2 ^ k) < W64)%N ->
  il_make thr (2 ^ c) k g v = Some w -> forall idx len, 1 <= len <= 64 -> idx + len <= iv_size v ->
  exists x, il_get_int k w idx len = Some x /\ forall j, tb x j = (j <? len) && iv_bit v (idx + j).
Proof. exact il_get_int_p. Qed.
Print Assumptions C48_get_int.
(** rank_support_il<b>, every position up to and including size() *)
Theorem C48_rank : forall thr c k g v w, 6 <= k -> iv_ok v -> padding_ok v -> (N.of_nat (iv_size v + 2 ^ k) < W64)%N ->
  il_make thr (2 ^ c) k g v = Some w -> forall (b : bool) i, i <= iv_size v ->
  il_rank b k w i = Some (N.of_nat (rank_spec (if b then P1 else P0) v i)).
Proof. exact il_rank_p. Qed.
Print Assumptions C48_rank.
(** select_support_il<b> *)
Theorem C48_select : forall thr c k g v w, 6 <= k -> iv_ok v -> padding_ok v -> (N.of_nat (iv_size v + 2 ^ k) < W64)%N ->
  il_make thr (2 ^ c) k g v = Some w -> forall (b : bool) i, 1 <= i -> i <= rank_spec (if b then P1 else P0) v (iv_size v) ->
  exists p, il_select b k w (N.of_nat i) = Some p /\ p < iv_size v /\ select_spec (if b then P1 else P0) v i p.
Proof. exact il_select_p. Qed.
Print Assumptions C48_select.
(** Finding: a bit_vector of 60 bits resized to 64 has no padding word, and the constructor reads past it. *)
Theorem C48_after_resize_refuted : exists g v v', fresh_ok g /\ iv_new shr_c g 1 60 0 1 = Some v /\
  iv_resize g v 64 = Some v' /\ il_make il_thr il_cap 9 g v' = None.
Proof.
  exists demo_g. do 2 eexists. split; [exact demo_g_ok|]. split; [vm_compute; reflexivity|].
  split; [vm_compute; reflexivity|]. vm_compute. reflexivity.
Qed.
Print Assumptions C48_after_resize_refuted.

(** non-vacuity: 400 bits in blocks of 64 and of 128, with a cache of 4 samples; the last word has stale bits *)
Definition idemo : ivec := mkiv 400 [0xF0F0; 1; 0; 3; 0; 0; 0xFFFFFFFFFFFFFFFF]%N 1.
Example idemo_ok : iv_ok idemo /\ padding_ok idemo /\ (N.of_nat (iv_size idemo + 2 ^ 6) < W64)%N.
Proof. split; [apply iv_okb_ok; vm_compute; reflexivity|]. split; [vm_compute; lia|vm_compute; reflexivity]. Qed.
Definition irun (k : nat) := (let* w := il_make 3 4 k (fun _ => 7%N) idemo in
  Some (length (il_smp w), map (il_rank true k w) [0; 63; 65; 256; 400], map (il_rank false k w) [400], map (il_select true k w) [1; 10; 27]%N,
    map (il_select false k w) [1; 200; 373]%N, il_get k w 193, il_get_int k w 190 20)).
Example idemo_run : irun 6 = Some (4, map Some [0; 8; 9; 11; 27]%N, [Some 373%N], map Some [4; 192; 399], map Some [0; 210; 383], Some 1%N, Some 12%N).
Proof. vm_compute. reflexivity. Qed.
Example idemo_run7 : irun 7 = Some (4, map Some [0; 8; 9; 11; 27]%N, [Some 373%N], map Some [4; 192; 399], map Some [0; 210; 383], Some 1%N, Some 12%N).
Proof. vm_compute. reflexivity. Qed.
