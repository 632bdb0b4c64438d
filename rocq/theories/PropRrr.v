(** * Properties C21 and C22: the enumerative block code and rrr_vector.

    [binom] (SpecRrr.v): binomial coefficients by Pascal's rule.  [is_bin l x]: x is the number whose
    binary digits are the block [l], bit 0 first.  [lpat b l]: the positions of [l] that hold [b].
    [rank_of], [is_select], [tb] (SpecBits.v): rank and select of a predicate, bit of an integer.
    [count_true] (Base.v): number of ones. *)
From Coq Require Import NArith List Bool Arith Lia.
From Verif Require Import Base SpecBits SpecRrr RrrHelper RrrVector RrrProofs6.
Import ListNotations.

(** ** C21: the block code.  The number of a block is below binom n k and fits the bits reserved for
    it, and every decoder recovers the block from its popcount and its number. *)
Theorem C21_block_code : forall n l bin, length l = n -> is_bin l bin -> let k := count_true l in
  exists nr, bin_to_nr n bin = Some nr /\ (nr < binom n k)%N /\ (nr < 2 ^ N.of_nat (space_for_bt n k))%N /\
   (forall off, off < n -> decode_bit n k nr off = Some (nth off l false)) /\
   (forall off, off <= n -> decode_popcount n k nr off = Some (rank_of (lpat true l) off)) /\
   (forall i, 1 <= i <= rank_of (lpat true l) n -> exists p, decode_select n k nr i = Some p /\ p < n /\ is_select (lpat true l) i p) /\
   (forall i, 1 <= i <= rank_of (lpat false l) n -> exists p, decode_select0 n k nr i = Some p /\ p < n /\ is_select (lpat false l) i p) /\
   (forall off len, 1 <= len -> off + len <= n -> exists r, decode_int n k nr off len = Some r /\ forall j, tb r j = (j <? len) && nth (off + j) l false).
Proof. exact A_code. Qed.
Print Assumptions C21_block_code.
(** different blocks with the same number of ones get different numbers *)
Theorem C21_block_code_injective : forall n l l' x x' nr, length l = n -> length l' = n -> is_bin l x -> is_bin l' x' -> count_true l = count_true l' ->
  bin_to_nr n x = Some nr -> bin_to_nr n x' = Some nr -> l = l'.
Proof. exact A_code_inj. Qed.
Print Assumptions C21_block_code_injective.
(** and every number below binom n k is the number of a block *)
Theorem C21_block_code_onto : forall n k nr, (nr < binom n k)%N -> exists l x, length l = n /\ count_true l = k /\ is_bin l x /\ bin_to_nr n x = Some nr.
Proof. exact A_code_onto. Qed.
Print Assumptions C21_block_code_onto.
(** the table holds the binomial coefficients, and each fits the number type of 2^max_log n bits *)
Theorem C21_table_fits : forall n nn k, nn <= 2 ^ max_log n -> (C nn k = binom nn k /\ binom nn k < 2 ^ N.of_nat (2 ^ max_log n))%N.
Proof. exact A_table_fits. Qed.
Print Assumptions C21_table_fits.
Example C21_ex : bin_to_nr 15 0x2A81 = Some 2051%N /\ binom 15 5 = 3003%N /\ space_for_bt 15 5 = 12 /\
  decode_popcount 15 5 2051 10 = Some 3 /\ decode_select 15 5 2051 4 = Some 11 /\ decode_int 15 5 2051 6 5 = Some 10%N.
Proof. vm_compute. repeat split. Qed.
(** a sparse block of 128 bits is decoded with the binary search *)
Example C21_ex_bs : exists nr, bin_to_nr 127 (2 ^ 5 + 2 ^ 77 + 2 ^ 126) = Some nr /\ 3 + 1 < threshold 127 + 1 /\ decode_bit 127 3 nr 77 = Some true /\ decode_bit 127 3 nr 78 = Some false /\
  decode_popcount 127 3 nr 100 = Some 2 /\ decode_select 127 3 nr 3 = Some 126.
Proof. eexists. split; [vm_compute; reflexivity|]. vm_compute. repeat split; repeat constructor. Qed.

(** ** C22: rrr_vector *)
Theorem C22_rrr_construct : forall bs tk bv, 3 <= bs <= 256 /\ 2 <= tk /\ (N.of_nat (length bv) + 256 < W64)%N -> exists v, rrr_make bs tk bv = Some v.
Proof. exact A_make. Qed.
Print Assumptions C22_rrr_construct.
Theorem C22_rrr_size : forall bs tk bv, 3 <= bs <= 256 /\ 2 <= tk /\ (N.of_nat (length bv) + 256 < W64)%N -> forall v, rrr_make bs tk bv = Some v -> r_size v = length bv.
Proof. exact A_size. Qed.
Print Assumptions C22_rrr_size.
Theorem C22_rrr_access : forall bs tk bv, 3 <= bs <= 256 /\ 2 <= tk /\ (N.of_nat (length bv) + 256 < W64)%N -> forall v, rrr_make bs tk bv = Some v ->
  forall i, i < length bv -> rrr_access bs tk v i = Some (nth i bv false).
Proof. exact A_access. Qed.
Print Assumptions C22_rrr_access.
Theorem C22_rrr_get_int : forall bs tk bv, 3 <= bs <= 256 /\ 2 <= tk /\ (N.of_nat (length bv) + 256 < W64)%N -> forall v, rrr_make bs tk bv = Some v ->
  forall idx len, 1 <= len <= 64 -> idx + len <= length bv ->
  exists r, rrr_get_int bs tk v idx len = Some r /\ forall j, tb r j = (j <? len) && nth (idx + j) bv false.
Proof. exact A_get_int. Qed.
Print Assumptions C22_rrr_get_int.
Theorem C22_rrr_rank : forall bs tk bv, 3 <= bs <= 256 /\ 2 <= tk /\ (N.of_nat (length bv) + 256 < W64)%N -> forall v, rrr_make bs tk bv = Some v ->
  forall b i, i <= length bv -> rrr_rank bs tk v b i = Some (rank_of (lpat b bv) i).
Proof. exact A_rank. Qed.
Print Assumptions C22_rrr_rank.
Theorem C22_rrr_select : forall bs tk bv, 3 <= bs <= 256 /\ 2 <= tk /\ (N.of_nat (length bv) + 256 < W64)%N -> forall v, rrr_make bs tk bv = Some v ->
  forall b i, 1 <= i <= rank_of (lpat b bv) (length bv) -> exists p, rrr_select bs tk v b i = Some p /\ p < length bv /\ is_select (lpat b bv) i p.
Proof. exact A_select. Qed.
Print Assumptions C22_rrr_select.
(** a query beyond the last occurrence returns size() *)
Theorem C22_rrr_select_beyond : forall bs tk bv, 3 <= bs <= 256 /\ 2 <= tk /\ (N.of_nat (length bv) + 256 < W64)%N -> forall v, rrr_make bs tk bv = Some v ->
  forall b i, rank_of (lpat b bv) (length bv) < i -> rrr_select bs tk v b i = Some (length bv).
Proof. exact A_select_none. Qed.
Print Assumptions C22_rrr_select_beyond.
(** [demo_rrr]: 300 bits, with inverted and plain superblocks and an incomplete last block *)
Example C22_ex : length demo_rrr = 300 /\ exists v, rrr_make 31 4 demo_rrr = Some v /\ r_invert v = [false; true; false] /\
  rrr_access 31 4 v 100 = Some true /\ rrr_access 31 4 v 101 = Some false /\ rrr_rank 31 4 v true 300 = Some 171 /\ rrr_rank 31 4 v false 250 = Some 122 /\
  rrr_select 31 4 v true 100 = Some 216 /\ rrr_select 31 4 v false 120 = Some 234 /\ rrr_get_int 31 4 v 95 40 = Some 1082196484000%N.
Proof. split; [reflexivity|]. eexists. split; [vm_compute; reflexivity|]. vm_compute. repeat split. Qed.
