(** * Properties C01, C02, C03: word-level operations.

    Specifications are in SpecBits.v and Base.v; the model is in Bits.v. *)
From Coq Require Import NArith List Bool Arith Lia.
From Verif Require Import Base Tables Bits SpecBits BitsProofs BitsProofs2 BitsProofs3 BitsProofs4 BitsMem BitsCnt32.
Import ListNotations.

(** C01 *)
Theorem C01_cnt : forall x, is_word x -> cnt x = N.of_nat (popcount x).
Proof. exact cnt_correct. Qed.
Print Assumptions C01_cnt.
Example C01_cnt_ex : is_word 0xF0F0000000000001%N /\ cnt 0xF0F0000000000001 = 9%N.
Proof. split; vm_compute; reflexivity. Qed.

Theorem C01_cnt_table : forall x, is_word x -> cnt_tl x = N.of_nat (popcount x).
Proof. exact cnt_tl_correct. Qed.
Print Assumptions C01_cnt_table.
Example C01_cnt_table_ex : cnt_tl 0xF0F0000000000001 = 9%N.
Proof. vm_compute; reflexivity. Qed.

(** cnt32 is right unless all even nibbles or all odd nibbles are full ... *)
Theorem C01_cnt32_partial : forall x, (x < 2 ^ 32)%N ->
  N.land x 0x0f0f0f0f <> 0x0f0f0f0f%N -> N.land x 0xf0f0f0f0 <> 0xf0f0f0f0%N ->
  cnt32 x = N.of_nat (popcount x).
Proof. exact cnt32_correct. Qed.
Print Assumptions C01_cnt32_partial.
Example C01_cnt32_ex : cnt32 0x7EFFFFEF = 29%N /\ N.land 0x7EFFFFEF 0x0f0f0f0f <> 0x0f0f0f0f%N.
Proof. split; [vm_compute; reflexivity|vm_compute; discriminate]. Qed.
(** ... and wrong in general. *)
Theorem C01_cnt32_refuted : exists x, (x < 2 ^ 32)%N /\ cnt32 x <> N.of_nat (popcount x).
Proof. exists 0xFFFFFFFF%N. split; [reflexivity|vm_compute; discriminate]. Qed.
Print Assumptions C01_cnt32_refuted.

Theorem C01_sel : forall x i, is_word x -> 1 <= i <= popcount x ->
  exists p, sel x (N.of_nat i) = Some (N.of_nat p) /\ is_select (tb x) i p.
Proof. exact sel_correct. Qed.
Print Assumptions C01_sel.
Example C01_sel_ex : popcount 0xF0F0000000000001 = 9 /\ sel 0xF0F0000000000001 6 = Some 60%N.
Proof. split; vm_compute; reflexivity. Qed.

Theorem C01_hi : forall x, is_word x -> x <> 0%N -> is_msb x (N.to_nat (hi x)).
Proof. exact hi_msb. Qed.
Print Assumptions C01_hi.
Theorem C01_hi_zero : hi 0 = 0%N.
Proof. exact hi_0. Qed.
Print Assumptions C01_hi_zero.
Example C01_hi_ex : hi 0x0000800000000001 = 47%N.
Proof. vm_compute; reflexivity. Qed.

Theorem C01_lo : forall x, is_word x -> x <> 0%N -> is_lsb x (N.to_nat (lo x)).
Proof. exact lo_lsb. Qed.
Print Assumptions C01_lo.
Theorem C01_lo_zero : lo 0 = 0%N.
Proof. exact lo_0. Qed.
Print Assumptions C01_lo_zero.
Example C01_lo_ex : lo 0x0000800000000000 = 47%N.
Proof. vm_compute; reflexivity. Qed.

Theorem C01_rev : forall x, is_word x ->
  is_word (rev64 x) /\ forall k, k < 64 -> tb (rev64 x) k = tb x (63 - k).
Proof. exact rev_correct. Qed.
Print Assumptions C01_rev.
Example C01_rev_ex : rev64 0x0000000000000013 = 0xC800000000000000%N.
Proof. vm_compute; reflexivity. Qed.

(** the tables lo_set / lo_unset hold the masks that the model uses *)
Theorem C01_lo_set_table : tbl_lo_set = map lo_set (seq 0 65) /\
  tbl_lo_unset = map (fun k => wnot (lo_set k)) (seq 0 65).
Proof. exact (conj tbl_lo_set_ok tbl_lo_unset_ok). Qed.
Print Assumptions C01_lo_set_table.

(** C02: for every stream of words and every carry *)
Theorem C02_cnt10 : forall ws (c : bool), words_ok ws ->
  stream_count cnt10c (b2n c) ws =
  (N.of_nat (count_pat2 true false c (stream_bits ws)), b2n (last (stream_bits ws) c)).
Proof. exact stream_cnt10. Qed.
Print Assumptions C02_cnt10.

Theorem C02_cnt01 : forall ws (c : bool), words_ok ws ->
  stream_count cnt01c (b2n c) ws =
  (N.of_nat (count_pat2 false true c (stream_bits ws)), b2n (last (stream_bits ws) c)).
Proof. exact stream_cnt01. Qed.
Print Assumptions C02_cnt01.

Theorem C02_cnt11 : forall ws (c : bool), words_ok ws ->
  stream_count cnt11c (b2n c) ws =
  (N.of_nat (fst (greedy11 c (stream_bits ws))), b2n (snd (greedy11 c (stream_bits ws)))).
Proof. exact stream_cnt11. Qed.
Print Assumptions C02_cnt11.
Example C02_ex : let ws := [0xE000000000000006; 0x0000000000000001]%N in
  words_ok ws /\ stream_count cnt11c 0 ws = (3, 0)%N /\ stream_count cnt10c 0 ws = (2, 0)%N
  /\ stream_count cnt01c 0 ws = (2, 0)%N.
Proof. split; [repeat constructor|]. split; [|split]; vm_compute; reflexivity. Qed.

Theorem C02_cnt11_word : forall x, is_word x -> cnt11 x = N.of_nat (fst (greedy11 false (bits_of_N 64 x))).
Proof. exact cnt11_correct. Qed.
Print Assumptions C02_cnt11_word.

Theorem C02_map01 : forall x (c : bool) k, is_word x -> k < 64 ->
  tb (map01 x (b2n c)) k = eqb (match k with 0 => c | S j => tb x j end) false && eqb (tb x k) true.
Proof. exact map01_bits. Qed.
Print Assumptions C02_map01.
Theorem C02_map10 : forall x (c : bool) k, is_word x -> k < 64 ->
  tb (map10 x (b2n c)) k = eqb (match k with 0 => c | S j => tb x j end) true && eqb (tb x k) false.
Proof. exact map10_bits. Qed.
Print Assumptions C02_map10.

Theorem C02_sel11 : forall x i (c : bool), is_word x ->
  1 <= i <= length (greedy11_ends c 0 (bits_of_N 64 x)) ->
  sel11 x (N.of_nat i) (b2n c) = Some (N.of_nat (nth (i - 1) (greedy11_ends c 0 (bits_of_N 64 x)) 0)).
Proof. exact sel11_correct. Qed.
Print Assumptions C02_sel11.
Example C02_sel11_ex : length (greedy11_ends true 0 (bits_of_N 64 0xE000000000000007)) = 3 /\
  sel11 0xE000000000000007 3 1 = Some 62%N /\ sel11 0xE000000000000007 1 1 = Some 0%N.
Proof. split; [|split]; vm_compute; reflexivity. Qed.

Theorem C02_hi11 : forall x, is_word x ->
  hi11 x = N.of_nat (last (greedy11_ends false 0 (bits_of_N 64 x)) 0).
Proof. exact hi11_correct. Qed.
Print Assumptions C02_hi11.
Example C02_hi11_ex : hi11 0xE000000000000007 = 62%N.
Proof. vm_compute; reflexivity. Qed.

(** C03 *)
Theorem C03_read_int : forall m w off len, words_ok m -> fits m w off len ->
  read_int m w off len = Some (field m (64 * w + off) len).
Proof. exact read_int_correct. Qed.
Print Assumptions C03_read_int.

Theorem C03_write_int : forall m w x off len, words_ok m -> fits m w off len ->
  exists m', write_int m w x off len = Some m' /\ mem_set m (64 * w + off) len x m'.
Proof. exact write_int_correct. Qed.
Print Assumptions C03_write_int.

Theorem C03_read_after_write : forall m p len x m', mem_set m p len x m' ->
  field m' p len = (x mod 2 ^ N.of_nat len)%N.
Proof. exact mem_set_read_same. Qed.
Print Assumptions C03_read_after_write.
Theorem C03_read_other : forall m p len x m' q l, mem_set m p len x m' ->
  q + l <= p \/ p + len <= q -> field m' q l = field m q l.
Proof. exact mem_set_read_other. Qed.
Print Assumptions C03_read_other.

Theorem C03_read_int_and_move : forall m w off len, words_ok m -> fits m w off len ->
  exists w' off', read_int_and_move m w off len = Some (field m (64 * w + off) len, w', off') /\
    64 * w' + off' = 64 * w + off + len /\ off' < 64.
Proof. exact read_int_and_move_correct. Qed.
Print Assumptions C03_read_int_and_move.

Theorem C03_write_int_and_move : forall m w x off len, words_ok m -> fits m w off len ->
  exists m' w' off', write_int_and_move m w x off len = Some (m', w', off') /\
    mem_set m (64 * w + off) len x m' /\ 64 * w' + off' = 64 * w + off + len /\ off' < 64.
Proof. exact write_int_and_move_correct. Qed.
Print Assumptions C03_write_int_and_move.
Example C03_ex : let m := [0xFFFFFFFFFFFFFFFF; 0xFFFFFFFFFFFFFFFF]%N in
  words_ok m /\ fits m 0 60 12 /\
  write_int m 0 0x5A5 60 12 = Some [0x5FFFFFFFFFFFFFFF; 0xFFFFFFFFFFFFFF5A]%N /\
  read_int [0x5FFFFFFFFFFFFFFF; 0xFFFFFFFFFFFFFF5A]%N 0 60 12 = Some 0x5A5%N.
Proof.
  split; [repeat constructor|]. split; [|split; vm_compute; reflexivity].
  unfold fits. cbn [length]. lia.
Qed.

Theorem C03_read_unary : forall m w off p, words_ok m -> off < 64 ->
  first_one_from (mbit m) (64 * w + off) p ->
  read_unary m w off = Some (p - (64 * w + off)).
Proof. exact read_unary_correct. Qed.
Print Assumptions C03_read_unary.

Theorem C03_read_unary_and_move : forall m w off p, words_ok m -> off < 64 ->
  first_one_from (mbit m) (64 * w + off) p ->
  exists w' off', read_unary_and_move m w off = Some (p - (64 * w + off), w', off') /\
     64 * w' + off' = p + 1 /\ off' < 64.
Proof. exact read_unary_and_move_correct. Qed.
Print Assumptions C03_read_unary_and_move.
Example C03_unary_ex : read_unary_and_move [2; 0; 0; 0x8000000000000000]%N 0 2 = Some (253, 4, 0).
Proof. vm_compute; reflexivity. Qed.

Theorem C03_move_right : forall w off len, off < 64 -> len <= 64 ->
  let '(w', off') := move_right w off len in 64 * w' + off' = 64 * w + off + len /\ off' < 64.
Proof. exact move_right_correct. Qed.
Print Assumptions C03_move_right.
Theorem C03_move_left : forall w off len, off < 64 -> len <= 64 -> len <= 64 * w + off ->
  exists w' off', move_left w off len = Some (w', off') /\ 64 * w' + off' = 64 * w + off - len /\ off' < 64.
Proof. exact move_left_correct. Qed.
Print Assumptions C03_move_left.
Example C03_move_ex : move_right 3 60 10 = (4, 6) /\ move_left 4 6 10 = Some (3, 60).
Proof. split; vm_compute; reflexivity. Qed.

Theorem C03_next : forall m w idx p, words_ok m ->
  first_one_from (fun k => mbit m (64 * w + k)) idx p -> next m w idx = Some p.
Proof. exact next_correct. Qed.
Print Assumptions C03_next.
Theorem C03_prev : forall m idx p, words_ok m -> idx < 64 * length m ->
  last_one_upto (mbit m) idx p -> prev m idx = Some p.
Proof. exact prev_correct. Qed.
Print Assumptions C03_prev.
Example C03_next_ex : next [5; 0; 8]%N 0 3 = Some 131 /\ prev [5; 0; 8]%N 130 = Some 2.
Proof. split; vm_compute; reflexivity. Qed.
