(** * Model of coder::fibonacci: include/sdsl/coder_fibonacci.hpp, lib/coder_fibonacci.cpp.
    Not modelled: decode1 (a variant for a block layout used nowhere in the library) and the overload
    of decode_prefix_sum that ignores its end position. *)
From Coq Require Import NArith List Bool Arith.
From Verif Require Import Base Tables Bits IntVector AbsVec WtBase Coder.
Import ListNotations.

(** bits::lt_fib[j], lib/bits.cpp (92 entries) *)
Definition lt_fib (j : nat) : option N := nth_error tbl_lt_fib j.
Definition fibs : nat := length tbl_lt_fib.

(** ** encoder *)
(** while (++len_1 < 92 && w >= lt_fib[len_1]); coder_fibonacci.hpp:160 *)
Fixpoint el_loop (fuel len_1 : nat) (w : N) : option nat :=
  match fuel with
  | 0 => None
  | S f =>
    let len_1 := len_1 + 1 in
    if len_1 <? fibs then
      let* t := lt_fib len_1 in
      if (t <=? w)%N then el_loop f len_1 w else Some len_1
    else Some len_1
  end.
(** encoding_length, coder_fibonacci.hpp:153-162 *)
Definition fib_len_o (w : N) : option nat :=
  if (w =? 0)%N then Some 93 else
  let* l := el_loop 93 (N.to_nat (hi w)) w in Some (l + 1).
Definition fib_len (w : N) : nat := match fib_len_o w with Some l => l | None => 0 end.
(** the loop for the positions above 63, coder_fibonacci.hpp:224-237 (189-202 in encode(v, z)); the
    argument [c] is j + 1.  The shift by 64-j has a negative distance for j > 64: undefined *)
Fixpoint hi_loop (c : nat) (hw x : N) : option (N * N) :=
  match c with
  | 0 => Some (hw, x)
  | S j =>
    if 63 <? j then
      let hw := shl hw 1 in
      let* t := lt_fib j in
      if (t <=? x)%N then
        let x := (x - t)%N in
        let hw := N.lor hw 1 in
        if negb (x =? 0)%N && (64 <? j) then
          let hw := shl hw 1 in
          match j with 0 => None | S j' => hi_loop j' hw x end
        else if 64 <? j then None else Some (shl hw 0, x)
      else hi_loop j hw x
    else Some (hw, x)
  end.
(** the loop for the other positions, coder_fibonacci.hpp:242-254 (208-220); [c] is j + 1 *)
Fixpoint lo_loop (c : nat) (lw x : N) : option N :=
  match c with
  | 0 => Some lw
  | S j =>
    let lw := shl lw 1 in
    let* t := lt_fib j in
    if (t <=? x)%N then
      let x := (x - t)%N in
      let lw := N.lor lw 1 in
      if negb (x =? 0)%N then
        let lw := shl lw 1 in
        match j with 0 => Some lw | S j' => lo_loop j' lw x end
      else shl_c lw j
    else lo_loop j lw x
  end.
(** encode(x, z, offset), coder_fibonacci.hpp:205-261, and the loop body of encode(v, z), 176-229 *)
Definition fib_enc1 (m : mem) (w off : nat) (x : N) : option (mem * nat * nat) :=
  let* len := fib_len_o x in
  let len_1 := len - 1 in
  if 64 <=? len_1 then
    let* (hw, x) := (if (x =? 0)%N then
                       let* t := lt_fib (len_1 - 1) in
                       hi_loop (len_1 - 2) (shl (N.lor (shl 1 1) 1) 1) (wsub x t)
                     else hi_loop len_1 1 x) in
    let* lw := lo_loop 65 1 x in
    let* (m, w, off) := write_int_and_move m w lw off 64 in
    write_int_and_move m w hw off (len_1 - 63)
  else
    let* lw := lo_loop len_1 1 x in
    write_int_and_move m w lw off (len_1 + 1).
Definition fib_encode := cd_encode fib_len fib_enc1.

(** ** decoding tables, impl(), coder_fibonacci.hpp:57-102 *)
(** fib2bin_shift[x] *)
Definition fib_shift (x : N) : option nat :=
  if (cnt11 x =? 0)%N then Some 0 else let* p := sel11 x 1 0 in Some (N.to_nat p + 1).
(** the entry of fib2bin_16_greedy[x] before packing: offset and w (the latter a uint16_t) *)
Fixpoint g16_loop (fuel : nat) (y : N) (cnt fib_pos offset : nat) (w : N) : option (nat * N) :=
  match fuel with
  | 0 => None
  | S f =>
    let* r := (if tb y 0 then
                 let* t := lt_fib (fib_pos - 1) in
                 let w := ((w + t) mod 2 ^ 16)%N in
                 if tb y 1 then let* cnt := csub cnt 1 in Some (shr y 1, cnt, 0, offset + 1, w)
                 else Some (y, cnt, fib_pos, offset, w)
               else Some (y, cnt, fib_pos, offset, w)) in
    let '(y, cnt, fib_pos, offset, w) := r in
    if cnt =? 0 then Some (offset + 1, w) else g16_loop f (shr y 1) cnt (fib_pos + 1) (offset + 1) w
  end.
(** fib2bin_16_greedy[x]: (offset << 11) | w, kept in 16 bits *)
Definition fib_g16 (x : N) : option N :=
  let cnt := N.to_nat (cnt11 x) in
  let* (offset, w) := (if cnt =? 0 then Some (0, 0%N) else g16_loop 17 x cnt 1 0 0) in
  Some (N.lor (N.shiftl (N.of_nat offset) 11) w mod 2 ^ 16)%N.
(** fib2bin_0_95[(p<<12)|x]: the loop from j on, [k] = 12 - j *)
Fixpoint t95_loop (k : nat) (p : nat) (x : N) (j : nat) (w : N) : option N :=
  match k with
  | 0 => Some w
  | S k' =>
    if 12 * p + j <? fibs then
      if tb x j then
        let* t := lt_fib (12 * p + j) in
        let w := wadd w t in
        if tb x (j + 1) then Some w else t95_loop k' p x (j + 1) w
      else t95_loop k' p x (j + 1) w
    else Some w
  end.
(** the table has 8 << 12 entries *)
Definition fib_t95 (p : nat) (x : N) : option N := if p <? 8 then t95_loop 12 p x 0 0 else None.

(** ** decode<t_sumup, true>(data, start_idx, n, it), coder_fibonacci.hpp:290-330 *)
(** while (buffered < 13 and cnt11(w) < n) ...; the loop runs at most twice *)
Fixpoint fd_fill (fuel : nat) (m : mem) (n d read buffered : nat) (w : N) : option (nat * nat * nat * N) :=
  match fuel with
  | 0 => None
  | S f =>
    if (buffered <? 13) && (cnt11 w <? N.of_nat n)%N then
      let* x := ld m d in
      let* y := shl_c (shr x read) buffered in
      let w := N.lor w y in
      if buffered <=? read then fd_fill f m n (d + 1) 0 (buffered + (64 - read)) w
      else fd_fill f m n d (read + (64 - buffered)) 64 w
    else Some (d, read, buffered, w)
  end.
(** the outer loop; [n] counts the values still to be decoded.  A negative buffered is [None]: the
    next refill would shift by a negative distance *)
Fixpoint fd_loop (fuel : nat) (sumup : bool) (m : mem) (n d read buffered : nat) (w value : N) (ft : nat) : option (list N) :=
  match fuel with
  | 0 => None
  | S f =>
    if n =? 0 then Some [] else
    let* (d, read, buffered, w) := fd_fill 3 m n d read buffered w in
    let* t := fib_t95 ft (N.land w 4095) in
    let value := wadd value t in
    let* shift := fib_shift (N.land w 8191) in
    if 0 <? shift then
      let* b := csub buffered shift in
      let* r := fd_loop f sumup m (n - 1) d read b (shr w shift) (if negb sumup && negb (n =? 1) then 0%N else value) 0 in
      Some (value :: r)
    else
      let* b := csub buffered 12 in
      fd_loop f sumup m n d read b (shr w 12) value (ft + 1)
  end.
(** the fuel exceeds the number of readable bits *)
Definition fib_decode_n (sumup : bool) (m : mem) (start n : nat) : option (list N) :=
  fd_loop (64 * length m + 1) sumup m n (start / 64) (start mod 64) 0 0 0 0.
(** decode(z, v), coder_fibonacci.hpp:263-286; z has [bits] bits and capacity()>>6 = ceil(bits/64) *)
Definition fib_decode (width : nat) (m : mem) (bits : nat) : option (list N) :=
  if bits =? 0 then Some [] else
  let k := (bits + 63) / 64 - 1 in
  let* _ := (if k <=? length m then Some tt else None) in
  let '(n, carry) := fold_left (fun nc x => let '(n, c) := cnt11c x (snd nc) in ((fst nc + n)%N, c)) (firstn k m) (0%N, 0%N) in
  let* x := ld m k in
  let y := if negb (bits mod 64 =? 0) then N.land x (lo_set (bits mod 64)) else x in
  let n := N.add n (fst (cnt11c y carry)) in
  let* l := fib_decode_n false m 0 (N.to_nat n) in
  Some (map (fun x => (x mod 2 ^ N.of_nat width)%N) l).

(** ** decode_prefix_sum, lib/coder_fibonacci.cpp:11-95 *)
(** do { oldcarry = carry; i += (temp = cnt11( *(d+(++w)), carry)); } while (i<n): the final w,
    i - temp and oldcarry *)
Fixpoint fp_count (fuel : nat) (m : mem) (d n i : nat) (carry : N) (w : nat) : option (nat * nat * N) :=
  match fuel with
  | 0 => None
  | S f =>
    let w := w + 1 in
    let* x := ld m (d + w) in
    let '(t, c) := cnt11c x carry in
    if i + N.to_nat t <? n then fp_count f m d n (i + N.to_nat t) c w else Some (w, i, carry)
  end.
(** bits_to_decode, lines 22-36; it is an int32_t, so [fib_prefix_sum] rejects 2^31 bits and more *)
Definition fp_bits (m : mem) (d read n : nat) : option nat :=
  let* x := ld m d in
  let '(i, carry) := cnt11c (N.land x (wnot (lo_set read))) 0 in
  let i := N.to_nat i in
  if i <? n then
    let* (w, i, oldcarry) := fp_count (length m) m d n i carry 0 in
    let* y := ld m (d + w) in
    let* s := sel11 y (N.of_nat (n - i)) oldcarry in
    csub ((w - 1) * 64 + N.to_nat s + 65) read
  else
    let* s := sel11 (shr x read) (N.of_nat n) 0 in Some (N.to_nat s + 1).
(** the refill loop, lines 44-61; runs at most twice *)
Fixpoint fp_fill (fuel : nat) (m : mem) (d read buffered btd : nat) (w : N) : option (nat * nat * nat * nat * N) :=
  match fuel with
  | 0 => None
  | S f =>
    if (buffered <? 64) && (0 <? btd) then
      let* x := ld m d in
      let* y := shl_c (shr x read) buffered in
      let w := N.lor w y in
      let '(d, read, b, k) := (if buffered <=? read then (d + 1, 0, buffered + (64 - read), 64 - read)
                               else (d, read + (64 - buffered), 64, 64 - buffered)) in
      if btd <? k then fp_fill f m d read (b - (k - btd)) 0 (N.land w (lo_set (b - (k - btd))))
      else fp_fill f m d read b (btd - k) w
    else Some (d, read, buffered, btd, w)
  end.
(** do { ... } while (buffered>15), lines 72-84: the new buffered ([None] inside: negative), w, value, i *)
Fixpoint fp_greedy (fuel : nat) (buffered : nat) (w value : N) : option (option nat * N * N * nat) :=
  match fuel with
  | 0 => None
  | S f =>
    let* temp := fib_g16 (N.land w 65535) in
    let shift := N.to_nat (N.shiftr temp 11) in
    if 0 <? shift then
      let value := wadd value (N.land temp 2047) in
      let* b := csub buffered shift in
      if 15 <? b then fp_greedy f b (shr w shift) value else Some (Some b, shr w shift, value, 0)
    else
      let* t := fib_t95 0 (N.land w 4095) in
      Some (csub buffered 12, shr w 12, wadd value t, 1)
  end.
(** lines 63-71 *)
Definition fp_ones (buffered : nat) (w value : N) : option (nat * N * N) :=
  if (N.land w 16777215 =? 16777215)%N then let* b := csub buffered 24 in Some (b, shr w 24, wadd value 12) else Some (buffered, w, value).
Definition fp_multi (buffered : nat) (w value : N) : option (nat * N * N) :=
  let* (b, w', v) := fp_ones buffered w value in
  if (N.land w 16777215 =? 16777215)%N then fp_ones b w' v else Some (b, w', v).
(** the outer loop, lines 42-94; a negative buffered ends the loop if nothing is left to decode and is
    undefined behaviour (negative shift) otherwise *)
Fixpoint fp_loop (fuel : nat) (m : mem) (d read buffered btd : nat) (w value : N) (i : nat) : option N :=
  match fuel with
  | 0 => None
  | S f =>
    let* (d, read, buffered, btd, w) := fp_fill 3 m d read buffered btd w in
    let* (ob, w, value, i) :=
      (if i =? 0 then
         let* (b, w, value) := fp_multi buffered w value in fp_greedy 33 b w value
       else
         let* t := fib_t95 i (N.land w 4095) in
         let* shift := fib_shift (N.land w 8191) in
         if 0 <? shift then let* b := csub buffered shift in Some (Some b, shr w shift, wadd value t, 0)
         else Some (csub buffered 12, shr w 12, wadd value t, i + 1)) in
    match ob with
    | Some b => if (0 <? btd) || (0 <? b) then fp_loop f m d read b btd w value i else Some value
    | None => if 0 <? btd then None else Some value
    end
  end.
Definition fib_prefix_sum (m : mem) (start n : nat) : option N :=
  if n =? 0 then Some 0%N else
  let d := start / 64 in
  let read := start mod 64 in
  let* btd := fp_bits m d read n in
  let* _ := (if (N.of_nat btd <? 2 ^ 31)%N then Some tt else None) in
  if btd =? 2 * n then Some (N.of_nat n) else
  if btd =? 2 * n + 1 then Some (N.of_nat (n + 1)) else
  fp_loop (64 * length m + 1) m d read 0 btd 0 0 0.
