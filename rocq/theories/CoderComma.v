(** * Model of coder::comma<t_width>: include/sdsl/coder_comma.hpp, and the round-trip functions of
    the Elias coders.  [t] is t_width.  The model is for t_width <= 30: [(1 << t_width) - 1] is
    computed in a signed int, so t_width = 31 and 32 (allowed by the static_assert) overflow. *)
From Coq Require Import NArith List Bool Arith.
From Verif Require Import Base Bits IntVector AbsVec Coder.
Import ListNotations.

(** base, coder_comma.hpp:69 *)
Definition cm_base (t : nat) : N := (2 ^ N.of_nat t - 1)%N.
(** codelentbllen = base_fits_in_64(base, 2^64-1, 0), coder_comma.hpp:63-66, 74 *)
Fixpoint cm_fits (fuel : nat) (base product : N) (res : nat) : nat :=
  match fuel with
  | 0 => res
  | S f => if (product =? 0)%N then res else cm_fits f base (product / base)%N (res + 1)
  end.
(** codelentbl, coder_comma.hpp:76-86: n = (n << t_width) - n in 64 bits *)
Fixpoint cm_tbl (t k : nat) (n : N) : list N :=
  match k with 0 => [] | S k' => n :: cm_tbl t k' (wsub (shl n t) n) end.
Definition cm_codelentbl (t : nat) : list N := cm_tbl t (cm_fits 65 (cm_base t) (W64 - 1) 0) 1.
(** encoding_length, coder_comma.hpp:194-204.  std::upper_bound on the sorted table = index of the
    first entry greater than w. *)
Fixpoint upper_idx (l : list N) (w : N) : nat :=
  match l with [] => 0 | a :: r => if (w <? a)%N then 0 else S (upper_idx r w) end.
Definition cm_len (t : nat) (w : N) : nat := (upper_idx (cm_codelentbl t) w + 1) * t.
(** encode_in_base, coder_comma.hpp:206-217 (64 levels of recursion suffice for base >= 3) *)
Fixpoint cm_digits (fuel : nat) (t : nat) (m : mem) (w off : nat) (x : N) : option (mem * nat * nat) :=
  match fuel with
  | 0 => if (x =? 0)%N then Some (m, w, off) else None
  | S f =>
    if (x =? 0)%N then Some (m, w, off) else
    let digit := (x mod cm_base t)%N in
    let* (m, w, off) := cm_digits f t m w off (x / cm_base t)%N in
    write_int_and_move m w digit off t
  end.
(** encode(x, z, offset), coder_comma.hpp:219-226 *)
Definition cm_enc1 (t : nat) (m : mem) (w off : nat) (x : N) : option (mem * nat * nat) :=
  let* (m, w, off) := cm_digits 64 t m w off x in
  write_int_and_move m w (cm_base t) off t.
(** encode(v, z), coder_comma.hpp:228-252 *)
Definition cm_encode (t : nat) (g : nat -> N) (xs : list N) : option (mem * nat) :=
  let bits := list_sum (map (cm_len t) xs) in
  let* (m, w, off) := enc_all (cm_enc1 t) (map g (seq 0 (bits / 64 + 1))) 0 0 xs in
  Some (m, bits).
(** the digits of one value in decode, coder_comma.hpp:266-270 *)
Fixpoint cm_dec_digits (fuel : nat) (t : nat) (m : mem) (w off : nat) (v : N) : option (N * nat * nat) :=
  match fuel with
  | 0 => None
  | S f =>
    let* (digit, w, off) := read_int_and_move m w off t in
    if (digit =? cm_base t)%N then Some (v, w, off)
    else cm_dec_digits f t m w off (wadd (wsub (shl v t) v) digit)
  end.
Definition cm_dec1 (t : nat) (m : mem) (w off : nat) : option (N * nat * nat) :=
  cm_dec_digits (S (64 * length m)) t m w off 0.
(** decode_prefix_sum, coder_comma.hpp:278-285: the final value of decode<true, false> *)
Definition cm_prefix_sum (t : nat) (m : mem) (start n : nat) : option N :=
  let* l := cd_decode_n (cm_dec1 t) true m start n in Some (last l 0%N).
(** the loop counting termination digits, coder_comma.hpp:314-317: (n, last digit) *)
Fixpoint cm_count (k : nat) (t : nat) (m : mem) (w off : nat) (n : nat) (digit : N) : option (nat * N) :=
  match k with
  | 0 => Some (n, digit)
  | S k' =>
    let* (digit, w, off) := read_int_and_move m w off t in
    cm_count k' t m w off (if (digit =? cm_base t)%N then S n else n) digit
  end.
(** decode(z, v), coder_comma.hpp:296-329: [Some None] when it returns false *)
Definition cm_decode (t width : nat) (m : mem) (bits : nat) : option (option (list N)) :=
  if negb (bits mod t =? 0) then Some None else
  let* (n, digit) := cm_count (bits / t) t m 0 0 0 (cm_base t) in
  if negb (digit =? cm_base t)%N then Some None else
  let* l := cd_decode_n (cm_dec1 t) false m 0 n in
  Some (Some (map (fun x => (x mod 2 ^ N.of_nat width)%N) l)).

(** ** the Elias coders' vector functions *)
Definition eg_encode := cd_encode eg_len eg_enc1.
Definition eg_decode (sh : N -> nat -> option N) := cd_decode (eg_dec1 sh) eg_skip1.
Definition ed_encode := cd_encode ed_len ed_enc1.
Definition ed_decode (sh : N -> nat -> option N) := cd_decode (ed_dec1 sh) ed_skip1.
