(** * Model of rrr_helper.hpp: binomial coefficients and the enumerative code of the blocks of
    rrr_vector (include/sdsl/rrr_helper.hpp).

    number_type (uint64_t, uint128_t or uint256_t, chosen by the block size) is [N] without overflow:
    every number is below a binomial coefficient that fits the type (C21).  A block of n bits is a
    [list bool], bit 0 first; [n] is the template parameter. *)
From Coq Require Import NArith List Bool Arith.
From Verif Require Import Base.
Import ListNotations.

(** ** bit_vector as a list of bits: get_int and set_int (int_vector.hpp; C04, C06) *)
Fixpoint bits_N (l : list bool) : N := match l with [] => 0%N | b :: t => (N.b2n b + 2 * bits_N t)%N end.
Definition N_bits (len : nat) (x : N) : list bool := map (fun i => N.testbit x (N.of_nat i)) (seq 0 len).
Definition sub (l : list bool) (pos len : nat) : list bool := firstn len (skipn pos l).
Definition bget (l : list bool) (pos len : nat) : option N :=
  if (len <=? 64) && (pos + len <=? length l) then Some (bits_N (sub l pos len)) else None.
Definition bset (l : list bool) (pos : nat) (x : N) (len : nat) : option (list bool) :=
  if (len <=? 64) && (pos + len <=? length l) then Some (firstn pos l ++ N_bits len x ++ skipn (pos + len) l) else None.

(** MAX_LOG, rrr_helper.hpp:234 *)
Definition max_log (n : nat) : nat := if 128 <? n then 8 else if 64 <? n then 7 else 6.
(** trait::get_int for 64, 128 and 256 bits, rrr_helper.hpp:57-61, 98-106, 133-148.  The additions and
    ors of disjoint fields are additions here *)
Definition tget (lg : nat) (l : list bool) (pos len : nat) : option N :=
  if lg =? 6 then bget l pos len else
  if lg =? 7 then
    if len <=? 64 then bget l pos len else
    let* h := bget l (pos + 64) (len - 64) in
    let* a := bget l pos 64 in Some (h * 2 ^ 64 + a)%N
  else
    if len <=? 64 then bget l pos len
    else if len <=? 128 then
      let* a := bget l pos 64 in let* b := bget l (pos + 64) (len - 64) in Some (a + b * 2 ^ 64)%N
    else if len <=? 192 then
      let* a := bget l pos 64 in let* b := bget l (pos + 64) 64 in let* d := bget l (pos + 128) (len - 128) in
      Some (a + b * 2 ^ 64 + d * 2 ^ 128)%N
    else
      let* a := bget l pos 64 in let* b := bget l (pos + 64) 64 in let* d := bget l (pos + 128) 64 in
      let* e := bget l (pos + 192) (len - 192) in
      Some (a + b * 2 ^ 64 + (e * 2 ^ 64 + d) * 2 ^ 128)%N.
(** trait::set_int, rrr_helper.hpp:71-74, 109-118, 150-166 *)
Definition tset (lg : nat) (l : list bool) (pos : nat) (x : N) (len : nat) : option (list bool) :=
  if lg =? 6 then bset l pos x len else
  if lg =? 7 then
    if len <=? 64 then bset l pos x len else
    let* l := bset l pos x 64 in bset l (pos + 64) (N.shiftr x 64) (len - 64)
  else
    if len <=? 64 then bset l pos x len
    else if len <=? 128 then
      let* l := bset l pos x 64 in bset l (pos + 64) (N.shiftr x 64) (len - 64)
    else if len <=? 192 then
      let* l := bset l pos x 64 in let* l := bset l (pos + 64) (N.shiftr x 64) 64 in
      bset l (pos + 128) (N.shiftr x 128) (len - 128)
    else
      let* l := bset l pos x 64 in let* l := bset l (pos + 64) (N.shiftr x 64) 64 in
      let* l := bset l (pos + 128) (N.shiftr x 128) 64 in bset l (pos + 192) (N.shiftr x 192) (len - 192).
(** trait::popcount, rrr_helper.hpp:81-83, 120-122, 168-170 (bits::cnt is C01, popcount of uint256_t is C49) *)
Fixpoint pos_cnt (p : positive) : nat := match p with xH => 1 | xO q => pos_cnt q | xI q => S (pos_cnt q) end.
Definition popcount (x : N) : nat := match x with N0 => 0 | Npos p => pos_cnt p end.

(** ** the table, rrr_helper.hpp:182-195: row nn from row nn-1; entries with k > nn are 0 *)
Fixpoint zadd (a b : list N) : list N :=
  match a, b with x :: a', y :: b' => (x + y)%N :: zadd a' b' | _, _ => [] end.
Fixpoint row (nn : nat) : list N := match nn with 0 => [1%N] | S m => let r := row m in zadd (0%N :: r) (r ++ [0%N]) end.
Definition C (nn k : nat) : N := nth k (row nn) 0%N.

(** space[k], rrr_helper.hpp:251-255 *)
Definition space_for_bt (n k : nat) : nat := if (C n k =? 1)%N then 0 else N.to_nat (N.log2 (C n k)) + 1.

(** bin_to_nr, rrr_helper.hpp:304-321 *)
Fixpoint btn_loop (fuel : nat) (bin nr : N) (k nn : nat) : option N :=
  if (bin =? 0)%N then Some nr else
  match fuel with
  | 0 => None
  | S f =>
    if N.odd bin then btn_loop f (N.shiftr bin 1) (nr + C (nn - 1) k) (k - 1) (nn - 1)
    else btn_loop f (N.shiftr bin 1) nr k (nn - 1)
  end.
Definition bin_to_nr (n : nat) (bin : N) : option N :=
  if (bin =? 0)%N || (bin =? N.ones (N.of_nat n))%N then Some 0%N else btn_loop n bin 0 (popcount bin) n.

(** the binary search used by the decoders, rrr_helper.hpp:338-346, 426-434, 476-484: the value of
    nn_lb at the end *)
Fixpoint bsearch (fuel : nat) (nr : N) (k lb rb : nat) : option nat :=
  if lb <? rb then
    match fuel with
    | 0 => None
    | S f =>
      let mid := (lb + rb) / 2 in
      if (C (mid - 1) k <=? nr)%N then bsearch f nr k (mid + 1) rb else bsearch f nr k lb mid
    end
  else Some lb.
Section Dec.
Variable n : nat.
Definition threshold : nat := n / max_log n.

(** decode_bit, rrr_helper.hpp:323-371 *)
Fixpoint bit_bs (k nn : nat) (nr : N) (off : nat) : option bool :=
  match k with
  | S (S _ as k') =>
    let* r := bsearch (nn + 2) nr k k (nn + 1) in
    let nn := r - 1 in
    if off <=? n - nn then Some (n - nn =? off)
    else bit_bs k' (nn - 1) (nr - C (nn - 1) k) off
  | _ => Some (N.of_nat n - nr - 1 =? N.of_nat off)%N
  end.
Fixpoint bit_lin (nn k : nat) (nr : N) (i off : nat) : option bool :=
  if 1 <? k then
    if off <? i then Some false else
    match nn with
    | 0 => None
    | S nn' =>
      if (C nn' k <=? nr)%N then
        if i =? off then Some true else bit_lin nn' (k - 1) (nr - C nn' k) (S i) off
      else bit_lin nn' k nr (S i) off
    end
  else Some (N.of_nat n - nr - 1 =? N.of_nat off)%N.
Definition decode_bit (k : nat) (nr : N) (off : nat) : option bool :=
  if k =? n then Some true else if k =? 0 then Some false
  else if k =? 1 then Some (N.of_nat n - nr - 1 =? N.of_nat off)%N
  else if k + 1 <? threshold + 1 then bit_bs k n nr off else bit_lin n k nr 0 off.

(** decode_int, rrr_helper.hpp:374-407; the bits of the result, which are distinct, are added *)
Fixpoint int_lin (nn k : nat) (nr : N) (i off len : nat) (res : N) : option N :=
  if 1 <? k then
    if off + len - 1 <? i then Some res else
    match nn with
    | 0 => None
    | S nn' =>
      if (C nn' k <=? nr)%N then
        int_lin nn' (k - 1) (nr - C nn' k) (S i) off len (if off <=? i then N.lor res (2 ^ N.of_nat (i - off)) else res)
      else int_lin nn' k nr (S i) off len res
    end
  else
    let p := N.to_nat (N.of_nat n - nr - 1) in
    Some (if (off <=? p) && (p <=? off + len - 1) then N.lor res (2 ^ N.of_nat (p - off)) else res).
Definition decode_int (k : nat) (nr : N) (off len : nat) : option N :=
  if k =? n then Some (N.ones (N.of_nat len)) else if k =? 0 then Some 0%N
  else if k =? 1 then
    let p := N.to_nat (N.of_nat n - nr - 1) in
    Some (if (off <=? p) && (p <=? off + len - 1) then (2 ^ N.of_nat (p - off))%N else 0%N)
  else int_lin n k nr 0 off len 0.

(** decode_popcount, rrr_helper.hpp:411-460 *)
Fixpoint pop_bs (k nn : nat) (nr : N) (off result : nat) : option nat :=
  match k with
  | S (S _ as k') =>
    let* r := bsearch (nn + 2) nr k k (nn + 1) in
    let nn := r - 1 in
    if off <=? n - nn then Some result
    else pop_bs k' (nn - 1) (nr - C (nn - 1) k) off (S result)
  | _ => Some (result + (if (N.of_nat n - nr - 1 <? N.of_nat off)%N then 1 else 0))
  end.
Fixpoint pop_lin (nn k : nat) (nr : N) (i off result : nat) : option nat :=
  if 1 <? k then
    if off <=? i then Some result else
    match nn with
    | 0 => None
    | S nn' =>
      if (C nn' k <=? nr)%N then pop_lin nn' (k - 1) (nr - C nn' k) (S i) off (S result)
      else pop_lin nn' k nr (S i) off result
    end
  else Some (result + (if (N.of_nat n - nr - 1 <? N.of_nat off)%N then 1 else 0)).
Definition decode_popcount (k : nat) (nr : N) (off : nat) : option nat :=
  if k =? n then Some off else if k =? 0 then Some 0
  else if k =? 1 then Some (if (N.of_nat n - nr - 1 <? N.of_nat off)%N then 1 else 0)
  else if k + 1 <? threshold + 1 then pop_bs k n nr off 0 else pop_lin n k nr 0 off 0.

(** decode_select, rrr_helper.hpp:464-505 *)
Fixpoint sel_bs (sel k nn : nat) (nr : N) : option nat :=
  match sel with
  | 0 => Some (n - nn - 1)
  | S s =>
    let* r := bsearch (nn + 2) nr k k (nn + 1) in
    let nn := r - 1 in
    sel_bs s (k - 1) (nn - 1) (nr - C (nn - 1) k)
  end.
Fixpoint sel_lin (nn sel k : nat) (nr : N) (i : nat) : option nat :=
  match sel with
  | 0 => Some (i - 1)
  | S s =>
    match nn with
    | 0 => None
    | S nn' =>
      if (C nn' k <=? nr)%N then sel_lin nn' s (k - 1) (nr - C nn' k) (S i)
      else sel_lin nn' sel k nr (S i)
    end
  end.
Definition decode_select (k : nat) (nr : N) (sel : nat) : option nat :=
  if k =? n then Some (sel - 1)
  else if (k =? 1) && (sel =? 1) then Some (N.to_nat (N.of_nat n - nr - 1))
  else if sel + 1 <? threshold + 1 then sel_bs sel k n nr else sel_lin n sel k nr 0.

(** decode_select_bitpattern<0, 1>, rrr_helper.hpp:510-533 *)
Fixpoint sel0_lin (nn sel k : nat) (nr : N) (i : nat) : option nat :=
  match sel with
  | 0 => Some (i - 1)
  | S s =>
    match nn with
    | 0 => None
    | S nn' =>
      if (C nn' k <=? nr)%N then sel0_lin nn' sel (k - 1) (nr - C nn' k) (S i)
      else sel0_lin nn' s k nr (S i)
    end
  end.
Definition decode_select0 (k : nat) (nr : N) (sel : nat) : option nat := sel0_lin n sel k nr 0.
End Dec.
