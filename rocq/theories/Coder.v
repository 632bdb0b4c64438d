(** * Models of coder::elias_gamma and coder::elias_delta:
    include/sdsl/coder_elias_gamma.hpp, lib/coder_elias_gamma.cpp,
    include/sdsl/coder_elias_delta.hpp, lib/coder_elias_delta.cpp.

    A (word pointer, bit offset) pair with offset < 64 is the pair (w, off) of Bits.v or, where the
    code only reads, the bit position 64*w + off.  [sh] is the shift 1ULL << k in the decoders: the
    code evaluates it also for k = 64 and multiplies the result by 0; with [sh := shl_c] that is
    undefined behaviour ([None]). *)
From Coq Require Import NArith List Bool Arith.
From Verif Require Import Base Bits IntVector AbsVec.
Import ListNotations.

Definition rd_int (m : mem) (p len : nat) : option N := read_int m (p / 64) (p mod 64) len.
Definition rd_unary (m : mem) (p : nat) : option nat := read_unary m (p / 64) (p mod 64).

(** ** elias_gamma *)
(** encoding_length, coder_elias_gamma.hpp:147-151; the result is a uint8_t *)
Definition eg_len (x : N) : nat := 2 * (if (x =? 0)%N then 64 else N.to_nat (hi x)) + 1.
(** encode(x, z, offset), coder_elias_gamma.hpp:196-210 and the loop body 176-192 *)
Definition eg_enc1 (m : mem) (w off : nat) (x : N) : option (mem * nat * nat) :=
  let* r := (if (x =? 0)%N then
               let* (m, w, off) := write_int_and_move m w 0 off 64 in
               let* (m, w, off) := write_int_and_move m w 1 off 1 in
               Some (m, w, off, 64)
             else
               let len_1 := N.to_nat (hi x) in
               let* b := shl_c 1 len_1 in
               let* (m, w, off) := write_int_and_move m w b off (len_1 + 1) in
               Some (m, w, off, len_1)) in
  let '(m, w, off, len_1) := r in
  if negb (len_1 =? 0) then write_int_and_move m w x off len_1 else Some (m, w, off).
(** one round of decode(d, start_idx, n, it), coder_elias_gamma.hpp:240-248: the decoded value and
    the new pointer *)
Definition eg_dec1 (sh : N -> nat -> option N) (m : mem) (w off : nat) : option (N * nat * nat) :=
  let* (len_1, w, off) := read_unary_and_move m w off in
  if len_1 =? 0 then Some (1%N, w, off) else
  let* (x, w, off) := read_int_and_move m w off len_1 in
  let* b := sh 1%N len_1 in
  Some (wadd x (if len_1 <? 64 then b else 0%N), w, off).
(** one round of the counting loop of decode(z, v), coder_elias_gamma.hpp:219-225 *)
Definition eg_skip1 (m : mem) (w off : nat) : option (nat * nat) :=
  let* (len_1, w, off) := read_unary_and_move m w off in
  Some (if negb (len_1 =? 0) then move_right w off len_1 else (w, off)).

(** ** elias_delta *)
(** encoding_length, coder_elias_delta.hpp:151-155 *)
Definition ed_len (x : N) : nat :=
  let len_1 := if (x =? 0)%N then 64 else N.to_nat (hi x) in
  len_1 + 2 * N.to_nat (hi (N.of_nat (len_1 + 1))) + 1.
(** encode(x, z, offset), coder_elias_delta.hpp:198-211 *)
Definition ed_enc1 (m : mem) (w off : nat) (x : N) : option (mem * nat * nat) :=
  let len := if (x =? 0)%N then 65 else N.to_nat (hi x) + 1 in
  let len_1_len := N.to_nat (hi (N.of_nat len)) in
  let* b := shl_c 1 len_1_len in
  let* (m, w, off) := write_int_and_move m w b off (len_1_len + 1) in
  if negb (len_1_len =? 0) then
    let* (m, w, off) := write_int_and_move m w (N.of_nat len) off len_1_len in
    write_int_and_move m w x off (len - 1)
  else Some (m, w, off).
(** one round of decode, coder_elias_delta.hpp:242-250 *)
Definition ed_dec1 (sh : N -> nat -> option N) (m : mem) (w off : nat) : option (N * nat * nat) :=
  let* (len_1_len, w, off) := read_unary_and_move m w off in
  if len_1_len =? 0 then Some (1%N, w, off) else
  let* (y, w, off) := read_int_and_move m w off len_1_len in
  let* b := shl_c 1 len_1_len in
  let len := N.to_nat (wadd y b) in
  let* (x, w, off) := read_int_and_move m w off (len - 1) in
  let* b := sh 1%N (len - 1) in
  Some (wadd x (if len - 1 <? 64 then b else 0%N), w, off).
(** the counting loop of decode(z, v), coder_elias_delta.hpp:220-228 *)
Definition ed_skip1 (m : mem) (w off : nat) : option (nat * nat) :=
  let* (len_1_len, w, off) := read_unary_and_move m w off in
  if negb (len_1_len =? 0) then
    let* (y, w, off) := read_int_and_move m w off len_1_len in
    let* b := shl_c 1 len_1_len in
    Some (move_right w off (N.to_nat (wadd y b) - 1))
  else Some (w, off).

(** ** the parts common to both coders *)
Section Common.
Variable len1 : N -> nat.
Variable enc1 : mem -> nat -> nat -> N -> option (mem * nat * nat).
Variable dec1 : mem -> nat -> nat -> option (N * nat * nat).
Variable skip1 : mem -> nat -> nat -> option (nat * nat).

(** encode(x, z, offset) for each value *)
Fixpoint enc_all (m : mem) (w off : nat) (xs : list N) : option (mem * nat * nat) :=
  match xs with
  | [] => Some (m, w, off)
  | x :: t => let* (m, w, off) := enc1 m w off x in enc_all m w off t
  end.
(** encode(v, z), coder_elias_gamma.hpp:153-194, coder_elias_delta.hpp:157-196, for an int_vector
    with elements [xs] of [width] bits; [g] is the content of fresh memory ([bit_resize]).
    Returns the words of z and its bit size. *)
Definition cd_zero (width : nat) (x : N) : N :=
  if (x =? 0)%N then (if width <? 64 then shl 1 width else 0%N) else x.
Definition cd_bits (width : nat) (xs : list N) : nat := list_sum (map (fun x => len1 (cd_zero width x)) xs).
Definition cd_encode (g : nat -> N) (width : nat) (xs : list N) : option (mem * nat) :=
  let bits := cd_bits width xs in
  let m := map g (seq 0 (bits / 64 + 1)) in
  let* m := (if negb (bits mod 64 =? 0) then st m (bits / 64) 0%N else Some m) in
  let* (m, w, off) := enc_all m 0 0 (map (cd_zero width) xs) in
  Some (m, bits).
(** decode<t_sumup, true>(d, start, n, it): the values written through [it] *)
Fixpoint dec_all (sumup : bool) (n : nat) (m : mem) (w off : nat) (value : N) : option (list N) :=
  match n with
  | 0 => Some []
  | S n' =>
    let value := if sumup then value else 0%N in
    let* (x, w, off) := dec1 m w off in
    let value := wadd value x in
    let* t := dec_all sumup n' m w off value in
    Some (value :: t)
  end.
Definition cd_decode_n (sumup : bool) (m : mem) (start n : nat) : option (list N) :=
  dec_all sumup n m (start / 64) (start mod 64) 0.
(** the loop that determines n *)
Fixpoint cd_count (fuel : nat) (m : mem) (bits w off : nat) (n : nat) : option nat :=
  match fuel with
  | 0 => None
  | S f =>
    if (w <? bits / 64) || ((w =? bits / 64) && (off <? bits mod 64)) then
      let* (w, off) := skip1 m w off in cd_count f m bits w off (S n)
    else Some n
  end.
(** decode(z, v), coder_elias_gamma.hpp:212-229, coder_elias_delta.hpp:213-231: the elements of v
    (each assignment keeps the low [width] bits) *)
Definition cd_decode (width : nat) (m : mem) (bits : nat) : option (list N) :=
  let* n := cd_count (S bits) m bits 0 0 0 in
  let* l := cd_decode_n false m 0 n in
  Some (map (fun x => (x mod 2 ^ N.of_nat width)%N) l).
End Common.

(** ** prefix sum tables.  Entry for the bits [x]: (offset, numbers, value) before packing;
    [maxi = None] for the 16-bit table, which has no limit on the number of values. *)
(** coder_elias_gamma.hpp:55-69, 84-98 *)
Fixpoint eg_tab (fuel : nat) (x : N) (lim : nat) (maxi : option nat) (off num : nat) (val : N) : option (nat * nat * N) :=
  match fuel with
  | 0 => None
  | S f =>
    if negb (shr x off =? 0)%N && (match maxi with Some k => num <? k | None => true end) then
      let* len_1 := read_unary [x] 0 off in
      if len_1 =? 0 then eg_tab f x lim maxi (off + 1) (num + 1) (val + 1)
      else
        let off2 := off + len_1 + 1 in
        if off2 + len_1 <=? lim then
          let* y := read_int [x] 0 off2 len_1 in
          let* b := shl_c 1 len_1 in
          eg_tab f x lim maxi (off2 + len_1) (num + 1) (val + (y + b))
        else Some (off, num, val)
    else Some (off, num, val)
  end.
(** coder_elias_delta.hpp:55-71, 86-102 *)
Fixpoint ed_tab (fuel : nat) (x : N) (lim : nat) (maxi : option nat) (off num : nat) (val : N) : option (nat * nat * N) :=
  match fuel with
  | 0 => None
  | S f =>
    if negb (shr x off =? 0)%N && (match maxi with Some k => num <? k | None => true end) then
      let* len_1_len := read_unary [x] 0 off in
      if len_1_len =? 0 then ed_tab f x lim maxi (off + 1) (num + 1) (val + 1)
      else
        let off2 := off + len_1_len + 1 in
        let* y := read_int [x] 0 off2 len_1_len in
        let* b := shl_c 1 len_1_len in
        let len := N.to_nat (y + b) in
        let off2 := off2 + len_1_len in
        if off2 + len - 1 <=? lim then
          let* z := read_int [x] 0 off2 (len - 1) in
          let* b := shl_c 1 (len - 1) in
          ed_tab f x lim maxi (off2 + len - 1) (num + 1) (val + (z + b))
        else Some (off, num, val)
    else Some (off, num, val)
  end.
(** an entry packed into an integer: offset << so | numbers << sn | value, and the fields as the
    decoders extract them *)
Definition tpack (so sn : nat) (e : nat * nat * N) : N :=
  let '(o, k, v) := e in N.lor (N.lor (N.shiftl (N.of_nat o) (N.of_nat so)) (N.shiftl (N.of_nat k) (N.of_nat sn))) v.

(** ** decode_prefix_sum(d, start_idx, n): lib/coder_elias_gamma.cpp:151-245,
    lib/coder_elias_delta.cpp:198-294.  The two functions differ in the tables, in the packing of
    the 8-bit table (value in the low [v8] bits, offset from bit [o8] on; the count has 4 bits
    from [v8] on) and in the decoding of a single value [single]. *)
Section PrefixSum.
Variable t16 : N -> option N.
Variable t8 : nat -> N -> option N.
Variables v8 o8 : nat.
Variable single : mem -> nat -> nat -> option (N * nat * nat).

(** inner while loop: [inl] = goto decode_single or leave the loop with i < n: one more value;
    [inr] = i = n *)
Fixpoint dps_inner (fuel : nat) (m : mem) (n i p : nat) (value : N) : option (nat * nat * N) :=
  match fuel with
  | 0 => None
  | S f =>
    if i <? n then
      let* x := rd_int m p 16 in
      let* psum := t16 x in
      let num := N.to_nat (N.land (shr psum 16) 0xFF) in
      if (psum =? 0)%N then Some (i, p, value)
      else if n <? i + num then
        if n - i <=? 8 then
          let* y := rd_int m p 8 in
          let* psum := t8 (n - i) y in
          if (0 <? psum)%N then
            Some (i + N.to_nat (N.land (shr psum v8) 0xF), p + N.to_nat (shr psum o8), wadd value (N.land psum (lo_set v8)))
          else Some (i, p, value)
        else Some (i, p, value)
      else dps_inner f m n (i + num) (p + N.to_nat (shr psum 24)) (wadd value (N.land psum 0xFFFF))
    else Some (i, p, value)
  end.
Fixpoint dps_loop (fuel : nat) (m : mem) (n i p : nat) (value : N) : option N :=
  match fuel with
  | 0 => None
  | S f =>
    if i <? n then
      let* v := ld m (p / 64) in
      let* r :=
        (if (N.land (shr v (p mod 64)) 0xF =? 0xF)%N then
           let maxdecode := if 63 <? n - i then 63 else n - i in
           let* y := rd_int m p maxdecode in
           let rbp := N.to_nat (lo (wnot y)) in
           Some (i + rbp, p + rbp, wadd value (N.of_nat rbp), rbp =? maxdecode)
         else Some (i, p, value, false)) in
      let '(i, p, value, cont) := r in
      if cont then dps_loop f m n i p value else
      let* (i, p, value) := dps_inner (S n) m n i p value in
      if i <? n then
        let* (x, w, off) := single m (p / 64) (p mod 64) in
        dps_loop f m n (i + 1) (64 * w + off) (wadd value x)
      else dps_loop f m n i p value
    else Some value
  end.
(** The loop [while (n >= 64)] of the first branch never runs, because n < 24. *)
Definition dps (m : mem) (start n : nat) : option N :=
  if n =? 0 then Some 0%N else
  let off := start mod 64 in
  if n <? 24 then
    let* v := ld m (start / 64) in
    if n + off <=? 64 then
      if (N.land (shr v off) (lo_set n) =? lo_set n)%N then Some (N.of_nat n)
      else dps_loop (S n) m n 0 start 0
    else
      if (shr v off =? lo_set (64 - off))%N then
        let value := N.of_nat (64 - off) in
        let p := start + (64 - off) in
        let n := n - (64 - off) in
        let* v := ld m (p / 64) in
        if (N.land v (lo_set n) =? lo_set n)%N then Some (wadd value (N.of_nat n))
        else dps_loop (S n) m n 0 p value
      else dps_loop (S n) m n 0 start 0
  else dps_loop (S n) m n 0 start 0.
End PrefixSum.

(** decode_single, lib/coder_elias_gamma.cpp:238-242 *)
Definition eg_single (sh : N -> nat -> option N) (m : mem) (w off : nat) : option (N * nat * nat) :=
  let* (len_1, w, off) := read_unary_and_move m w off in
  let* (x, w, off) := read_int_and_move m w off len_1 in
  let* b := sh 1%N len_1 in
  Some (wadd x (if len_1 <? 64 then b else 0%N), w, off).
(** decode_single, lib/coder_elias_delta.cpp:285-291 *)
Definition ed_single (sh : N -> nat -> option N) (m : mem) (w off : nat) : option (N * nat * nat) :=
  let* (len_1_len, w, off) := read_unary_and_move m w off in
  let* (y, w, off) := read_int_and_move m w off len_1_len in
  let* b := shl_c 1 len_1_len in
  let len_1 := N.to_nat (wsub (wadd y b) 1) in
  let* (x, w, off) := read_int_and_move m w off len_1 in
  let* b := sh 1%N len_1 in
  Some (wadd x (if len_1 <? 64 then b else 0%N), w, off).
Definition eg_t16 (x : N) : option N := let* e := eg_tab 17 x 16 None 0 0 0 in Some (tpack 24 16 e).
Definition eg_t8 (k : nat) (x : N) : option N := let* e := eg_tab 17 x 8 (Some k) 0 0 0 in Some (tpack 12 8 e).
Definition ed_t16 (x : N) : option N := let* e := ed_tab 17 x 16 None 0 0 0 in Some (tpack 24 16 e).
Definition ed_t8 (k : nat) (x : N) : option N := let* e := ed_tab 17 x 8 (Some k) 0 0 0 in Some (tpack 8 4 e).
Definition eg_prefix_sum (sh : N -> nat -> option N) : mem -> nat -> nat -> option N := dps eg_t16 eg_t8 8 12 (eg_single sh).
Definition ed_prefix_sum (sh : N -> nat -> option N) : mem -> nat -> nat -> option N := dps ed_t16 ed_t8 4 8 (ed_single sh).
