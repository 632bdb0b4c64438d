(** * Properties C04 - C11: int_vector and bit_vector.

    The model is in IntVector.v, the specification in SpecIntVector.v:
    [reads v l] says that [v], observed through size() and operator[], is the sequence [l].
    [demo_v], [demo_b] (IntVectorProofs4.v) are concrete vectors built with the API. *)
From Coq Require Import NArith ZArith List Bool Arith Lia.
From Verif Require Import Base Bits SpecBits IntVector SpecIntVector IntVectorProofs IntVectorProofs2 IntVectorProofs3 IntVectorProofs4.
Import ListNotations.

(** ** C04: array semantics *)
(** every history of writes, ++, --, +=, -=, swaps and resizes has the specified effect *)
Theorem C04_history : forall g ops v l, fresh_ok g -> iv_ok v -> reads v l -> ops_pre (iv_len v) ops ->
  exists v' l', iv_run g v ops = Some v' /\ iv_ok v' /\ iv_width v' = iv_width v /\
    ops_spec (iv_width v) ops l l' /\ reads v' l'.
Proof. exact iv_history. Qed.
Print Assumptions C04_history.
Example C04_history_ex : fresh_ok demo_g /\ iv_ok demo_v /\ reads demo_v demo_l /\
  ops_pre (iv_len demo_v) [OpSet 2 1000; OpSwap 2 0; OpResize 40; OpSub 39 3].
Proof. split; [exact demo_g_ok|]. split; [apply demo_ok|]. split; [apply demo_ok|].
  replace (iv_len demo_v) with 11 by (vm_compute; reflexivity). cbn [ops_pre]. repeat split; auto; lia. Qed.

(** reading through a reference is reading the element *)
Theorem C04_reference_get : forall v l i, iv_ok v -> reads v l -> i < length l -> iv_ref_get v i = Some (nth i l 0%N).
Proof. exact ref_get_reads. Qed.
Print Assumptions C04_reference_get.
Example C04_reference_get_ex : iv_ref_get demo_v 9 = Some 101%N. Proof. vm_compute; reflexivity. Qed.

(** construction: size, width, contents *)
Theorem C04_construct : forall sr g tw n k w, fresh_ok g -> is_word k ->
  (tw = 0 /\ 1 <= w <= 64 \/ 1 <= tw <= 64 /\ w = tw) -> sr_ok sr w ->
  exists v, iv_new sr g tw n k w = Some v /\ iv_ok v /\ iv_width v = w /\ whole v /\ padding_ok v /\
    reads v (repeat (k mod 2 ^ N.of_nat w)%N n).
Proof. exact A_new. Qed.
Print Assumptions C04_construct.
Example C04_construct_ex : sr_ok shr_c 7 /\ exists v, iv_new shr_c demo_g 0 9 300 7 = Some v /\ readsb v (repeat 44%N 9) = true.
Proof. split; [apply sr_ok_strict; lia|]. eexists. split; vm_compute; reflexivity. Qed.

(** get_int/set_int at arbitrary bit positions *)
Theorem C04_get_set_int : forall v p len x, iv_ok v -> 1 <= len <= 64 -> p + len <= iv_size v ->
  exists v', iv_set_int v p x len = Some v' /\ iv_ok v' /\ iv_size v' = iv_size v /\ iv_width v' = iv_width v /\
    iv_get_int v' p len = Some (x mod 2 ^ N.of_nat len)%N /\
    (forall q l, 1 <= l <= 64 -> q + l <= iv_size v -> q + l <= p \/ p + len <= q ->
       iv_get_int v' q l = iv_get_int v q l).
Proof. exact get_set_int. Qed.
Print Assumptions C04_get_set_int.
Theorem C04_get_int_bits : forall v p len, iv_ok v -> 1 <= len <= 64 -> p + len <= iv_size v ->
  exists x, iv_get_int v p len = Some x /\ forall k, tb x k = (k <? len) && nth (p + k) (iv_bits v) false.
Proof. exact get_int_bits. Qed.
Print Assumptions C04_get_int_bits.
Example C04_get_int_ex : iv_size demo_v = 77 /\ iv_get_int demo_v 60 17 = Some 79656%N.
Proof. vm_compute; auto. Qed.

(** int_vector<8>, <16>, <32>, <64>: direct access through typed pointers *)
Theorem C04_typed_get : forall k v l i, k = 8 \/ k = 16 \/ k = 32 \/ k = 64 -> iv_width v = k -> iv_ok v -> reads v l ->
  i < length l -> iv_get_sub k v i = Some (nth i l 0%N).
Proof. exact A_typed_get. Qed.
Print Assumptions C04_typed_get.
Theorem C04_typed_set : forall k v l i x, k = 8 \/ k = 16 \/ k = 32 \/ k = 64 -> iv_width v = k -> iv_ok v -> reads v l ->
  i < length l -> exists v', iv_set_sub k v i x = Some v' /\ iv_ok v' /\ iv_width v' = k /\
    reads v' (upd l i (x mod 2 ^ N.of_nat k)%N).
Proof. exact A_typed_set. Qed.
Print Assumptions C04_typed_set.
Example C04_typed_ex : let v := mkiv 48 [0x0000000300020001%N] 16 in
  iv_okb v = true /\ readsb v [1; 2; 3]%N = true /\ iv_get_sub 16 v 1 = Some 2%N /\
  iv_set_sub 16 v 2 70000 = Some (mkiv 48 [0x0000117000020001%N] 16).
Proof. vm_compute; auto. Qed.

(** bit_vector access *)
Theorem C04_bit_get : forall v l i, iv_width v = 1 -> iv_ok v -> reads v l -> i < length l ->
  exists b, bv_get v i = Some b /\ bv_ref_get v i = Some b /\ nth i l 0%N = b2n b.
Proof. exact A_bit_get. Qed.
Print Assumptions C04_bit_get.
Theorem C04_bit_set : forall v l i (b : bool), iv_width v = 1 -> iv_ok v -> reads v l -> i < length l ->
  exists v', bv_ref_set v i b = Some v' /\ iv_ok v' /\ iv_width v' = 1 /\ reads v' (upd l i (b2n b)).
Proof. exact A_bit_set. Qed.
Print Assumptions C04_bit_set.
Example C04_bit_ex : iv_ok demo_b /\ bv_get demo_b 70 = Some true /\ bv_ref_get demo_b 71 = Some false.
Proof. split; [apply demo_b_ok|]. vm_compute; auto. Qed.

(** copies, assignment, swap *)
Theorem C04_copy : forall g tw v l, fresh_ok g -> iv_ok v -> reads v l ->
  exists v', iv_copy g tw v = Some v' /\ iv_ok v' /\ iv_width v' = iv_width v /\ reads v' l.
Proof. exact A_copy. Qed.
Print Assumptions C04_copy.
Theorem C04_assign : forall g tw t v l, fresh_ok g -> iv_ok t -> iv_ok v -> (tw = 0 \/ iv_width t = iv_width v) ->
  reads v l -> exists v', iv_assign g tw t v = Some v' /\ iv_ok v' /\ iv_width v' = iv_width v /\ reads v' l.
Proof. exact A_assign. Qed.
Print Assumptions C04_assign.
Theorem C04_swap : forall tw a b, iv_ok a -> iv_ok b -> (tw = 0 \/ iv_width a = iv_width b) -> iv_swap tw a b = (b, a).
Proof. exact swap_ok. Qed.
Print Assumptions C04_swap.
Example C04_copy_ex : exists v', iv_copy demo_g 0 demo_v = Some v' /\ readsb v' demo_l = true /\
  exists v2, iv_assign demo_g 0 demo_b demo_v = Some v2 /\ readsb v2 demo_l = true.
Proof. eexists. split; [vm_compute; reflexivity|]. split; [vm_compute; reflexivity|]. eexists. split; vm_compute; reflexivity. Qed.

(** ** C05: resizing *)
Theorem C05_resize : forall g v l n, fresh_ok g -> iv_ok v -> reads v l ->
  exists v' l', iv_resize g v n = Some v' /\ iv_ok v' /\ iv_width v' = iv_width v /\ reads v' l' /\ length l' = n /\
    forall i, i < n -> i < length l -> nth i l' 0%N = nth i l 0%N.
Proof. exact A_resize. Qed.
Print Assumptions C05_resize.
Theorem C05_bit_resize : forall g v n, fresh_ok g -> iv_ok v ->
  exists v', iv_bit_resize g v n = Some v' /\ iv_ok v' /\ iv_width v' = iv_width v /\ iv_size v' = n /\
    forall p, p < n -> p < iv_size v -> iv_bit v' p = iv_bit v p.
Proof. exact A_bit_resize. Qed.
Print Assumptions C05_bit_resize.
Example C05_resize_ex : exists v', iv_resize demo_g demo_v 4 = Some v' /\ readsb v' [4; 5; 127; 5]%N = true.
Proof. eexists. split; vm_compute; reflexivity. Qed.
(** The padding word exists after construction (C04_construct) and after every resize that changes
    the number of used words.  Missing for the full claim: the other resizes. *)
Theorem C05_padding_partial : forall g v n v', iv_ok v -> iv_bit_resize g v n = Some v' ->
  (iv_size v + 63) / 64 <> (n + 63) / 64 -> padding_ok v'.
Proof. exact A_padding. Qed.
Print Assumptions C05_padding_partial.
Example C05_padding_ex : exists v', iv_bit_resize demo_g demo_v 640 = Some v' /\ length (iv_data v') = 11.
Proof. eexists. split; vm_compute; reflexivity. Qed.
(** Finding: a bit_vector of 60 bits resized to 64 bits has no padding word. *)
Theorem C05_padding_refuted : exists g v v', fresh_ok g /\ iv_new shr_c g 1 60 0 1 = Some v /\
  iv_resize g v 64 = Some v' /\ ~ padding_ok v'.
Proof.
  exists demo_g. eexists. eexists. split; [exact demo_g_ok|]. split; [vm_compute; reflexivity|].
  split; [vm_compute; reflexivity|]. vm_compute. lia.
Qed.
Print Assumptions C05_padding_refuted.

(** ** C06: serialize and load.
    [B], [B']: block sizes of the write and read loops.  [tw], [tw']: template widths. *)
Theorem C06_serialize_load : forall B B' g tw far tw' v l t rest, 0 < B -> 0 < B' -> fresh_ok g -> iv_ok v -> iv_ok t ->
  width_ok tw (iv_width v) -> width_ok tw' (iv_width t) -> (N.of_nat (iv_size v) < W64)%N -> reads v l ->
  (far = false /\ tw' = tw \/ far = true /\ tw' = 0) ->
  exists bytes v', iv_serialize B tw v far = Some (bytes, length bytes) /\
    iv_load B' g tw' t (bytes ++ rest) = Some (v', rest) /\
    iv_ok v' /\ iv_size v' = iv_size v /\ iv_width v' = iv_width v /\ reads v' l.
Proof. exact A_serialize_load. Qed.
Print Assumptions C06_serialize_load.
Example C06_ex : exists bytes v', iv_serialize 1 0 demo_v false = Some (bytes, 25) /\
  iv_load 3 demo_g 0 demo_b (bytes ++ [1; 2; 3]%N) = Some (v', [1; 2; 3]%N) /\ readsb v' demo_l = true.
Proof. eexists. eexists. split; [vm_compute; reflexivity|]. split; vm_compute; reflexivity. Qed.

(** ** C07: comparison operators *)
Theorem C07_eq_partial : forall v1 v2 l1 l2, iv_ok v1 -> iv_ok v2 -> iv_width v1 = iv_width v2 -> whole v1 -> whole v2 ->
  reads v1 l1 -> reads v2 l2 -> exists b, iv_eqb v1 v2 = Some b /\ (b = true <-> l1 = l2).
Proof. exact A_eq. Qed.
Print Assumptions C07_eq_partial.
(** exact characterisation for all vectors: same number of bits, same bits *)
Theorem C07_eq_bits : forall v1 v2, iv_ok v1 -> iv_ok v2 -> exists b, iv_eqb v1 v2 = Some b /\
  (b = true <-> iv_size v1 = iv_size v2 /\ iv_bits v1 = iv_bits v2).
Proof. exact eqb_ok. Qed.
Print Assumptions C07_eq_bits.
(** Finding: vectors of different widths and different elements compare equal. *)
Theorem C07_eq_refuted : exists v1 v2 l1 l2, iv_ok v1 /\ iv_ok v2 /\ whole v1 /\ whole v2 /\ reads v1 l1 /\ reads v2 l2 /\
  iv_eqb v1 v2 = Some true /\ l1 <> l2 /\ iv_width v1 <> iv_width v2.
Proof.
  exists (mkiv 8 [0x21%N; 0%N] 4), (mkiv 8 [0x21%N; 0%N] 8), [1; 2]%N, [0x21%N].
  split; [apply iv_okb_ok; reflexivity|]. split; [apply iv_okb_ok; reflexivity|]. split; [reflexivity|]. split; [reflexivity|].
  split; [apply readsb_ok; vm_compute; reflexivity|]. split; [apply readsb_ok; vm_compute; reflexivity|].
  split; [vm_compute; reflexivity|]. split; discriminate.
Qed.
Print Assumptions C07_eq_refuted.
Theorem C07_lt : forall v1 v2 l1 l2, iv_ok v1 -> iv_ok v2 -> reads v1 l1 -> reads v2 l2 ->
  exists b, iv_ltb v1 v2 = Some b /\ (b = true <-> lex_lt l1 l2).
Proof. exact A_lt. Qed.
Print Assumptions C07_lt.
Theorem C07_gt : forall v1 v2 l1 l2, iv_ok v1 -> iv_ok v2 -> reads v1 l1 -> reads v2 l2 ->
  exists b, iv_gtb v1 v2 = Some b /\ (b = true <-> lex_lt l2 l1).
Proof. exact A_gt. Qed.
Print Assumptions C07_gt.
Theorem C07_le : forall v1 v2 l1 l2, iv_ok v1 -> iv_ok v2 -> iv_width v1 = iv_width v2 -> whole v1 -> whole v2 ->
  reads v1 l1 -> reads v2 l2 -> exists b, iv_leb v1 v2 = Some b /\ (b = true <-> lex_lt l1 l2 \/ l1 = l2).
Proof. exact A_le. Qed.
Print Assumptions C07_le.
Theorem C07_ge : forall v1 v2 l1 l2, iv_ok v1 -> iv_ok v2 -> iv_width v1 = iv_width v2 -> whole v1 -> whole v2 ->
  reads v1 l1 -> reads v2 l2 -> exists b, iv_geb v1 v2 = Some b /\ (b = true <-> lex_lt l2 l1 \/ l1 = l2).
Proof. exact A_ge. Qed.
Print Assumptions C07_ge.
Theorem C07_strict_total_order : (forall l, ~ lex_lt l l) /\
  (forall l1 l2 l3, lex_lt l1 l2 -> lex_lt l2 l3 -> lex_lt l1 l3) /\
  (forall l1 l2, lex_lt l1 l2 \/ l1 = l2 \/ lex_lt l2 l1).
Proof. exact lex_strict_total. Qed.
Print Assumptions C07_strict_total_order.
Example C07_ex : whole demo_v /\ iv_eqb demo_v demo_v = Some true /\
  exists v', iv_ref_set demo_v 2 126 = Some v' /\ iv_ltb v' demo_v = Some true /\ iv_eqb v' demo_v = Some false.
Proof.
  split; [vm_compute; reflexivity|]. split; [vm_compute; reflexivity|]. eexists. split; [vm_compute; reflexivity|].
  split; vm_compute; reflexivity.
Qed.

(** ** C08: iterators *)
Theorem C08_iterators : forall v l, iv_ok v -> reads v l ->
  let w := iv_width v in
  designates w (iv_begin v) 0 /\ designates w (iv_end v) (Z.of_nat (length l)) /\
  forall it i, designates w it i ->
    designates w (iter_inc it) (i + 1) /\ designates w (iter_dec it) (i - 1) /\
    (forall d, designates w (iter_add it d) (i + d) /\ designates w (iter_sub it d) (i - d)) /\
    (forall it' j, designates w it' j ->
        iter_eq it it' = (i =? j)%Z /\ iter_lt it it' = (i <? j)%Z /\ iter_gt it it' = (j <? i)%Z /\
        iter_diff it it' = (i - j)%Z /\ (i = j -> it = it')) /\
    (forall k, i = Z.of_nat k -> k < length l ->
        citer_get (iv_data v) it = Some (nth k l 0%N) /\ iter_get (iv_data v) it = Some (nth k l 0%N)).
Proof. exact A_iter. Qed.
Print Assumptions C08_iterators.
Theorem C08_iterator_set : forall v l it i x, iv_ok v -> reads v l -> i < length l ->
  designates (iv_width v) it (Z.of_nat i) ->
  exists m', iter_set (iv_data v) it x = Some m' /\ let v' := mkiv (iv_size v) m' (iv_width v) in iv_ok v' /\
    reads v' (upd l i (x mod 2 ^ N.of_nat (iv_width v))%N).
Proof. exact A_iter_set. Qed.
Print Assumptions C08_iterator_set.
Example C08_ex : let it := iter_add (iv_begin demo_v) 9 in
  citer_get (iv_data demo_v) it = Some 101%N /\ iter_diff (iv_end demo_v) it = 2%Z /\
  iter_eq (iter_dec (iter_sub (iv_end demo_v) 1)) it = true.
Proof. vm_compute; auto. Qed.

(** ** C09: changing the width of int_vector<0> *)
Theorem C09_bit_compress_partial : forall g v l, fresh_ok g -> iv_ok v -> reads v l ->
  exists v', iv_bit_compress g 0 v = Some v' /\ iv_ok v' /\ reads v' l /\
    (forall x, In x l -> (x < 2 ^ N.of_nat (iv_width v'))%N) /\
    (forall w, 1 <= w -> (forall x, In x l -> (x < 2 ^ N.of_nat w)%N) -> iv_width v' <= w).
Proof. exact A_bit_compress. Qed.
Print Assumptions C09_bit_compress_partial.
Theorem C09_expand_width_partial : forall g v l nw, fresh_ok g -> iv_ok v -> nw <= 64 -> reads v l ->
  exists v', iv_expand_width g 0 v nw = Some v' /\ iv_ok v' /\ iv_width v' = Nat.max (iv_width v) nw /\ reads v' l.
Proof. exact A_expand. Qed.
Print Assumptions C09_expand_width_partial.
Theorem C09_mod : forall v l m, iv_ok v -> m <> 0%N -> reads v l -> exists v', iv_mod v m = Some v' /\ iv_ok v' /\
  iv_width v' = iv_width v /\ reads v' (map (fun x => (x mod m)%N) l).
Proof. exact A_mod. Qed.
Print Assumptions C09_mod.
Example C09_ex : exists v1 v2, iv_expand_width demo_g 0 demo_v 23 = Some v1 /\ iv_width v1 = 23 /\ readsb v1 demo_l = true /\
  iv_bit_compress demo_g 0 v1 = Some v2 /\ iv_width v2 = 7 /\ readsb v2 demo_l = true.
Proof. eexists. eexists. split; [vm_compute; reflexivity|]. split; [vm_compute; reflexivity|]. split; [vm_compute; reflexivity|]. split; [vm_compute; reflexivity|]. split; vm_compute; reflexivity. Qed.
(** Finding: for fixed-width vectors (tw > 0) the templates compile but destroy the contents,
    because int_vector<tw>::width(x) ignores x.  This is what the partial theorems leave out. *)
Theorem C09_fixed_width_refuted : exists g v l v' l', fresh_ok g /\ iv_ok v /\ iv_width v = 8 /\ reads v l /\
  iv_bit_compress g 8 v = Some v' /\ iv_ok v' /\ reads v' l' /\ l' <> l.
Proof.
  exists demo_g, (mkiv 24 [0x030201%N; 0%N] 8), [1; 2; 3]%N, (mkiv 6 [0x030239%N; 0%N] 8), [].
  split; [exact demo_g_ok|]. split; [apply iv_okb_ok; reflexivity|]. split; [reflexivity|].
  split; [apply readsb_ok; vm_compute; reflexivity|]. split; [vm_compute; reflexivity|].
  split; [apply iv_okb_ok; reflexivity|]. split; [apply readsb_ok; vm_compute; reflexivity|]. discriminate.
Qed.
Print Assumptions C09_fixed_width_refuted.

(** ** C10: filling *)
Theorem C10_set_to_value : forall sr v l k, iv_ok v -> is_word k -> sr_ok sr (iv_width v) -> reads v l ->
  exists v', iv_set_to_value sr v k = Some v' /\ iv_ok v' /\ iv_width v' = iv_width v /\
    reads v' (repeat (k mod 2 ^ N.of_nat (iv_width v))%N (length l)).
Proof. exact A_set_to_value. Qed.
Print Assumptions C10_set_to_value.
(** without any assumption on oversized shifts, for widths below 64 *)
Theorem C10_set_to_value_strict : forall v l k, iv_ok v -> is_word k -> iv_width v < 64 -> reads v l ->
  exists v', iv_set_to_value shr_c v k = Some v' /\ iv_ok v' /\ iv_width v' = iv_width v /\
    reads v' (repeat (k mod 2 ^ N.of_nat (iv_width v))%N (length l)).
Proof. exact A_set_to_value_strict. Qed.
Print Assumptions C10_set_to_value_strict.
(** Finding: for 64-bit vectors the code evaluates [k >> 64] (undefined; the result is not used). *)
Theorem C10_strict_refuted : exists v k, iv_ok v /\ iv_width v = 64 /\ is_word k /\ iv_set_to_value shr_c v k = None.
Proof. exists (mkiv 128 [0;0;0]%N 64), 5%N. split; [apply iv_okb_ok; reflexivity|]. split; [reflexivity|]. split; vm_compute; reflexivity. Qed.
Print Assumptions C10_strict_refuted.
Theorem C10_set_to_id : forall v l, iv_ok v -> reads v l -> exists v', iv_set_to_id v = Some v' /\ iv_ok v' /\
  iv_width v' = iv_width v /\ reads v' (map (fun i => (N.of_nat i mod 2 ^ N.of_nat (iv_width v))%N) (seq 0 (length l))).
Proof. exact A_set_to_id. Qed.
Print Assumptions C10_set_to_id.
Example C10_ex : exists v1 v2, iv_set_to_value shr_c demo_v 77 = Some v1 /\ readsb v1 (repeat 77%N 11) = true /\
  iv_set_to_id demo_v = Some v2 /\ readsb v2 [0;1;2;3;4;5;6;7;8;9;10]%N = true.
Proof. eexists. eexists. split; [vm_compute; reflexivity|]. split; [vm_compute; reflexivity|]. split; vm_compute; reflexivity. Qed.

(** ** C11: counting and scanning *)
Theorem C11_cnt_one_bits : forall v, iv_ok v -> iv_cnt_one_bits v = Some (N.of_nat (count_true (iv_bits v))).
Proof. exact cnt_one_bits_ok. Qed.
Print Assumptions C11_cnt_one_bits.
Theorem C11_cnt_onezero_bits : forall v, iv_ok v ->
  iv_cnt_onezero_bits v = Some (N.of_nat (count_pat2 true false false (iv_bits v))).
Proof. exact cnt_onezero_ok. Qed.
Print Assumptions C11_cnt_onezero_bits.
Theorem C11_cnt_zeroone_bits : forall v, iv_ok v ->
  iv_cnt_zeroone_bits v = Some (N.of_nat (count_pat2 false true true (iv_bits v))).
Proof. exact cnt_zeroone_ok. Qed.
Print Assumptions C11_cnt_zeroone_bits.
Theorem C11_prev_bit : forall v idx, iv_ok v -> (N.of_nat (iv_size v) <= W64 - 64)%N -> idx < iv_size v ->
  exists r, iv_prev_bit v idx = Some r /\ prev_spec (iv_bit v) (iv_size v) idx r.
Proof. exact prev_bit_ok. Qed.
Print Assumptions C11_prev_bit.
Theorem C11_next_bit_found : forall v idx p, iv_ok v -> p < iv_size v -> first_one_from (iv_bit v) idx p ->
  iv_next_bit v idx = Some p.
Proof. exact next_bit_found. Qed.
Print Assumptions C11_next_bit_found.
(** when there is no further set bit: only if the unused bits of the last word are 0 *)
Theorem C11_next_bit_partial : forall v idx, iv_ok v -> tail_clean v -> idx < iv_size v ->
  exists r, iv_next_bit v idx = Some r /\ next_spec (iv_bit v) (iv_size v) idx r.
Proof. exact next_bit_ok. Qed.
Print Assumptions C11_next_bit_partial.
Example C11_ex : iv_cnt_one_bits demo_b = Some 4%N /\ iv_cnt_onezero_bits demo_b = Some 3%N /\
  iv_cnt_zeroone_bits demo_b = Some 3%N /\ iv_next_bit demo_b 4 = Some 70 /\ iv_prev_bit demo_b 69 = Some 3 /\
  iv_next_bit demo_b 71 = Some 129.
Proof. vm_compute; auto 10. Qed.
Example C11_tail_ex : tail_clean (mkiv 70 [1; 2]%N 1) /\ iv_next_bit (mkiv 70 [1; 2]%N 1) 66 = Some 70.
Proof. split; [|vm_compute; reflexivity]. intros k Hk. cbn [iv_size iv_data] in *. change (64 * ((70 + 63) / 64)) with 128 in Hk.
  replace k with (64 * 1 + (k - 64)) by lia. rewrite mbit_wo by lia. apply (tb_high _ 6); [reflexivity|lia]. Qed.
(** Finding: after a shrinking resize next_bit returns a position >= size(). *)
Theorem C11_next_bit_refuted : exists g v v1 v2 r, fresh_ok g /\ iv_new shr_c g 1 20 0 1 = Some v /\
  bv_ref_set v 15 true = Some v1 /\ iv_resize g v1 10 = Some v2 /\ iv_next_bit v2 0 = Some r /\ ~ next_spec (iv_bit v2) (iv_size v2) 0 r.
Proof.
  exists demo_g. do 4 eexists. split; [exact demo_g_ok|]. split; [vm_compute; reflexivity|]. split; [vm_compute; reflexivity|].
  split; [vm_compute; reflexivity|]. split; [vm_compute; reflexivity|]. intros [[H _]|[H _]]; vm_compute in H; lia.
Qed.
Print Assumptions C11_next_bit_refuted.

(** ** C52: bit-parallel operations on vectors *)
Theorem C52_flip : forall v, iv_ok v -> exists v', iv_flip v = Some v' /\ iv_ok v' /\ iv_width v' = iv_width v /\
  iv_size v' = iv_size v /\ iv_bits v' = map negb (iv_bits v).
Proof. exact flip_ok. Qed.
Print Assumptions C52_flip.
Theorem C52_and : forall v v2, iv_ok v -> iv_ok v2 -> iv_size v = iv_size v2 -> exists v', iv_bitop N.land v v2 = Some v' /\
  iv_ok v' /\ iv_width v' = iv_width v /\ iv_size v' = iv_size v /\
  forall p, p < iv_size v -> iv_bit v' p = andb (iv_bit v p) (iv_bit v2 p).
Proof. exact A_and. Qed.
Print Assumptions C52_and.
Theorem C52_or : forall v v2, iv_ok v -> iv_ok v2 -> iv_size v = iv_size v2 -> exists v', iv_bitop N.lor v v2 = Some v' /\
  iv_ok v' /\ iv_width v' = iv_width v /\ iv_size v' = iv_size v /\
  forall p, p < iv_size v -> iv_bit v' p = orb (iv_bit v p) (iv_bit v2 p).
Proof. exact A_or. Qed.
Print Assumptions C52_or.
Theorem C52_xor : forall v v2, iv_ok v -> iv_ok v2 -> iv_size v = iv_size v2 -> exists v', iv_bitop N.lxor v v2 = Some v' /\
  iv_ok v' /\ iv_width v' = iv_width v /\ iv_size v' = iv_size v /\
  forall p, p < iv_size v -> iv_bit v' p = xorb (iv_bit v p) (iv_bit v2 p).
Proof. exact A_xor. Qed.
Print Assumptions C52_xor.
Example C52_ex : exists f x, iv_flip demo_b = Some f /\ iv_cnt_one_bits f = Some 126%N /\
  iv_bitop N.lxor demo_b f = Some x /\ iv_cnt_one_bits x = Some 130%N.
Proof. eexists. eexists. split; [vm_compute; reflexivity|]. split; [vm_compute; reflexivity|]. split; vm_compute; reflexivity. Qed.
