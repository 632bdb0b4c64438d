(** * Model of include/sdsl/bits.hpp (portable code paths).

    Words are [N] below 2^64 (see Base.v).  The [#ifdef __SSE4_2__ / __BMI2__]
    branches use compiler builtins and are not modelled; the [#else] branches are.
    Pointers into a word array are a pair (memory, word index).
    Table lookups with an index that is out of bounds return [None], or, for the
    lookups whose index is masked to the table size, the poison value 999. *)
From Coq Require Import NArith List Bool Arith.
From Verif Require Import Base Tables.
Import ListNotations.
Local Open Scope N_scope.

Definition tlook (t : list N) (i : N) : N := nth (N.to_nat i) t 999.

Global Arguments tlook : simpl never.

Definition m55 : N := 0x5555555555555555.
Definition m33 : N := 0x3333333333333333.
Definition m0f : N := 0x0f0f0f0f0f0f0f0f.
Definition m01 : N := 0x0101010101010101.

(** bits.hpp:258-261 (shared by cnt, cnt11, sel): sideways addition *)
(* bits.hpp:258  x = x-((x>>1) & 0x5555...) *)
Definition swar1 (x : N) : N := wsub x (N.land (shr x 1) m55).
(* bits.hpp:259  x = (x & 0x3333...) + ((x >> 2) & 0x3333...) *)
Definition swar2 (x : N) : N := wadd (N.land x m33) (N.land (shr x 2) m33).
(* bits.hpp:260  x = (x + (x >> 4)) & 0x0f0f... *)
Definition swar3 (x : N) : N := N.land (wadd x (shr x 4)) m0f.
(* bits.hpp:261  0x0101...*x *)
Definition swar4 (x : N) : N := wmul m01 x.

(** bits::cnt, bits.hpp:248-264, [#else/#else] branch *)
Definition cnt (x : N) : N := shr (swar4 (swar3 (swar2 (swar1 x)))) 56.

(** bits::cnt, bits.hpp:254-257, [POPCOUNT_TL] branch *)
Definition cnt_tl (x : N) : N :=
  tlook tbl_lt_cnt (N.land x 0xFF) + tlook tbl_lt_cnt (N.land (shr x 8) 0xFF) +
  tlook tbl_lt_cnt (N.land (shr x 16) 0xFF) + tlook tbl_lt_cnt (N.land (shr x 24) 0xFF) +
  tlook tbl_lt_cnt (N.land (shr x 32) 0xFF) + tlook tbl_lt_cnt (N.land (shr x 40) 0xFF) +
  tlook tbl_lt_cnt (N.land (shr x 48) 0xFF) + tlook tbl_lt_cnt (N.land (shr x 56) 0xFF).

(** bits::cnt32, bits.hpp:267-272; arithmetic modulo 2^32 *)
Definition cnt32 (x : N) : N :=
  let x1 := (x + (2^32 - N.land (shr x 1) 0x55555555)) mod 2^32 in
  let x2 := (N.land x1 0x33333333 + N.land (shr x1 2) 0x33333333) mod 2^32 in
  (shr ((0x10101010 * x2) mod 2^32) 28 + shr ((0x01010101 * x2) mod 2^32) 28) mod 2^32.

(** common part of cnt11, hi11 and sel11, bits.hpp:277-280 *)
(* ex11 = (x&(x>>1))&0x5555... *)
Definition ex11 (x : N) : N := N.land (N.land x (shr x 1)) m55.
(* ex11|(ex11<<1) *)
Definition ex11d (x : N) : N := N.lor (ex11 x) (shl (ex11 x) 1).
(* ex10or01 = (ex11|(ex11<<1))^x *)
Definition ex10or01 (x : N) : N := N.lxor (ex11d x) x.
(* t = (ex11|(ex11<<1))+(((ex10or01<<1)&0x5555...)|c) *)
Definition t11 (x c : N) : N :=
  wadd (ex11d x) (N.lor (N.land (shl (ex10or01 x) 1) m55) c).

(** bits::cnt11(x, c), bits.hpp:275-288: result and new carry *)
Definition cnt11c (x c : N) : N * N :=
  let t := t11 x c in
  let y := N.lor (ex11 x) (N.land t (N.land (ex10or01 x) m55)) in
  let c' := b2n (negb (shr (ex10or01 x) 63 =? 0) || (t <? ex11d x)) in
  (shr (swar4 (swar3 (swar2 y))) 56, c').

(** bits::cnt11(x), bits.hpp:290-302 *)
Definition cnt11 (x : N) : N :=
  let t := wadd (ex11d x) (N.land (shl (ex10or01 x) 1) m55) in
  let y := N.lor (ex11 x) (N.land t (N.land (ex10or01 x) m55)) in
  shr (swar4 (swar3 (swar2 y))) 56.

(** bits::cnt10(x, c), bits.hpp:304-309 *)
Definition cnt10c (x c : N) : N * N :=
  (cnt (N.land (N.lxor x (N.lor (shl x 1) c)) (wnot x)), shr x 63).
(** bits::map10, bits.hpp:311-314 *)
Definition map10 (x c : N) : N := N.land (N.lxor x (N.lor (shl x 1) c)) (wnot x).
(** bits::cnt01(x, c), bits.hpp:316-321 *)
Definition cnt01c (x c : N) : N * N :=
  (cnt (N.land (N.lxor x (N.lor (shl x 1) c)) x), shr x 63).
(** bits::map01, bits.hpp:322-325 *)
Definition map01 (x c : N) : N := N.land (N.lxor x (N.lor (shl x 1) c)) x.

(** uint32_t subtraction/masking of the lt_sel index: (a + i - d) & 0x7FF, bits.hpp:369-385.
    [i] is a uint32_t and the other operands uint64_t, so the sum is modulo 2^64. *)
Definition sel_ix (a i d : N) : N := N.land (wsub (wadd a i) d) 0x7FF.

(** lookup in bits::lt_sel (bits.cpp:293-429), out of bounds = [None] *)
Definition lt_sel_at (j : N) : option N := nth_error tbl_lt_sel (N.to_nat j).

(** bits::_sel, bits.hpp:355-387.  [i] is 1-based; ps_overflow[i] is out of
    bounds for i > 64.  [i = 0] makes (i-1)<<8 = 2^32 - 256. *)
Definition sel (x i : N) : option N :=
  let s := swar4 (swar3 (swar2 (swar1 x))) in
  let* po := nth_error tbl_ps_overflow (N.to_nat i) in
  let b := wadd s po in
  let i8 := (((i + (2^32 - 1)) mod 2^32) * 256) mod 2^32 in
  let lk := lt_sel_at in
  if negb (N.land b 0x0000000080000000 =? 0) then
    if negb (N.land b 0x0000000000008000 =? 0) then
      if negb (N.land b 0x0000000000000080 =? 0) then
        lk (N.land x 0xFF + i8)
      else let* v := lk (sel_ix (N.land (shr x 8) 0xFF) i8 (shl (N.land s 0xFF) 8)) in Some (8 + v)
    else
      if negb (N.land b 0x0000000000800000 =? 0) then
        let* v := lk (sel_ix (N.land (shr x 16) 0xFF) i8 (N.land s 0xFF00)) in Some (16 + v)
      else let* v := lk (sel_ix (N.land (shr x 24) 0xFF) i8 (N.land (shr s 8) 0xFF00)) in Some (24 + v)
  else
    if negb (N.land b 0x0000800000000000 =? 0) then
      if negb (N.land b 0x0000008000000000 =? 0) then
        let* v := lk (sel_ix (N.land (shr x 32) 0xFF) i8 (N.land (shr s 16) 0xFF00)) in Some (32 + v)
      else let* v := lk (sel_ix (N.land (shr x 40) 0xFF) i8 (N.land (shr s 24) 0xFF00)) in Some (40 + v)
    else
      if negb (N.land b 0x0080000000000000 =? 0) then
        let* v := lk (sel_ix (N.land (shr x 48) 0xFF) i8 (N.land (shr s 32) 0xFF00)) in Some (48 + v)
      else let* v := lk (sel_ix (N.land (shr x 56) 0xFF) i8 (N.land (shr s 40) 0xFF00)) in Some (56 + v).

(** bits::hi, bits.hpp:392-414 *)
Definition hi (x : N) : N :=
  let lk j := tlook tbl_lt_hi j in
  let tt := shr x 32 in
  if negb (tt =? 0) then
    let t := shr tt 16 in
    if negb (t =? 0) then
      let tt' := shr t 8 in
      if negb (tt' =? 0) then 56 + lk tt' else 48 + lk t
    else
      let t' := shr tt 8 in
      if negb (t' =? 0) then 40 + lk t' else 32 + lk tt
  else
    let t := shr x 16 in
    if negb (t =? 0) then
      let tt' := shr t 8 in
      if negb (tt' =? 0) then 24 + lk tt' else 16 + lk t
    else
      let tt' := shr x 8 in
      if negb (tt' =? 0) then 8 + lk tt' else lk x.

(** bits::lo, bits.hpp:418-434 *)
Definition lo (x : N) : N :=
  if negb (N.land x 1 =? 0) then 0
  else if negb (N.land x 3 =? 0) then 1
  else if negb (N.land x 7 =? 0) then 2
  else if negb (N.land x 0x7FF =? 0) then tlook tbl_lt_lo (shr (N.land x 0x7FF) 3) + 3
  else tlook tbl_lt_deBruijn_to_idx (shr (wmul (N.land x (wsub 0 x)) deBruijn64) 58).

(** bits::hi11, bits.hpp:436-445 *)
Definition hi11 (x : N) : N :=
  let t := wadd (ex11d x) (N.land (shl (ex10or01 x) 1) m55) in
  hi (wadd (ex11 x) (N.land t (N.lor (N.land (ex10or01 x) m55) (ex11 x)))).

(** bits::sel11, bits.hpp:448-454 *)
Definition sel11 (x i c : N) : option N :=
  sel (wadd (ex11 x) (N.land (t11 x c) (N.lor (N.land (ex10or01 x) m55) (ex11 x)))) i.

(** bits::rev, bits.hpp:622-631 *)
Definition rev_step (x ml mh : N) (k : nat) : N :=
  N.lor (shl (N.land x ml) k) (shr (N.land x mh) k).
Definition rev64 (x : N) : N :=
  let x := rev_step x 0x5555555555555555 0xAAAAAAAAAAAAAAAA 1 in
  let x := rev_step x 0x3333333333333333 0xCCCCCCCCCCCCCCCC 2 in
  let x := rev_step x 0x0F0F0F0F0F0F0F0F 0xF0F0F0F0F0F0F0F0 4 in
  let x := rev_step x 0x00FF00FF00FF00FF 0xFF00FF00FF00FF00 8 in
  let x := rev_step x 0x0000FFFF0000FFFF 0xFFFF0000FFFF0000 16 in
  rev_step x 0x00000000FFFFFFFF 0xFFFFFFFF00000000 32.

Local Open Scope nat_scope.

(** bits::write_int, bits.hpp:456-476.  [w] is the word index, [off] < 64, [len] <= 64.
    The shift by [off+len] happens only when it is below 64. *)
Definition write_int (m : mem) (w : nat) (x : N) (off len : nat) : option mem :=
  let x := N.land x (lo_set len) in
  if off + len <? 64 then
    let* v := ld m w in
    let* hm := shl_c (lo_set 64) (off + len) in
    let v := N.land v (N.lor hm (lo_set off)) in
    let* xs := shl_c x off in
    st m w (N.lor v xs)
  else
    let* v := ld m w in
    let v := N.land v (lo_set off) in
    let* xs := shl_c x off in
    let* m := st m w (N.lor v xs) in
    let off' := (off + len) mod 64 in
    if negb (off' =? 0) then
      let* v1 := ld m (w + 1) in
      let v1 := N.land v1 (wnot (lo_set off')) in
      let* xr := shr_c x (len - off') in
      st m (w + 1) (N.lor v1 xr)
    else Some m.

(** bits::write_int_and_move, bits.hpp:478-499: new memory, word pointer and offset *)
Definition write_int_and_move (m : mem) (w : nat) (x : N) (off len : nat)
  : option (mem * nat * nat) :=
  let x := N.land x (lo_set len) in
  if off + len <? 64 then
    let* v := ld m w in
    let* hm := shl_c (lo_set 64) (off + len) in
    let v := N.land v (N.lor hm (lo_set off)) in
    let* xs := shl_c x off in
    let* m := st m w (N.lor v xs) in
    Some (m, w, off + len)
  else
    let* v := ld m w in
    let v := N.land v (lo_set off) in
    let* xs := shl_c x off in
    let* m := st m w (N.lor v xs) in
    if 64 <? off + len then
      let off' := (off + len) mod 64 in
      let* v1 := ld m (w + 1) in
      let v1 := N.land v1 (wnot (lo_set off')) in
      let* xr := shr_c x (len - off') in
      let* m := st m (w + 1) (N.lor v1 xr) in
      Some (m, w + 1, off')
    else Some (m, w + 1, 0).

(** bits::read_int, bits.hpp:501-511 *)
Definition read_int (m : mem) (w off len : nat) : option N :=
  let* v := ld m w in
  let* w1 := shr_c v off in
  if 64 <? off + len then
    let* v2 := ld m (w + 1) in
    let* r := shl_c (N.land v2 (lo_set ((off + len) mod 64))) (64 - off) in
    Some (N.lor w1 r)
  else Some (N.land w1 (lo_set len)).

(** bits::read_int_and_move, bits.hpp:513-529: value, new word pointer, new offset *)
Definition read_int_and_move (m : mem) (w off len : nat) : option (N * nat * nat) :=
  let* v := ld m w in
  let* w1 := shr_c v off in
  if 64 <=? off + len then
    if off + len =? 64 then Some (w1, w + 1, 0)
    else
      let off' := (off + len) mod 64 in
      let* v2 := ld m (w + 1) in
      let* r := shl_c (N.land v2 (lo_set off')) (len - off') in
      Some (N.lor w1 r, w + 1, off')
  else Some (N.land w1 (lo_set len), w, off + len).

(** the [while (0==( w=*(++word) ))] loops, bits.hpp:539-542,
    564-566, 600-603: first nonzero word at index >= w.
    The fuel is the number of words of the array; running off the array is [None]. *)
Fixpoint skip_zero (fuel : nat) (m : mem) (w : nat) : option (nat * N) :=
  match fuel with
  | 0 => None
  | S f => let* v := ld m w in
           if (v =? 0)%N then skip_zero f m (S w) else Some (w, v)
  end.

(** bits::read_unary, bits.hpp:531-545.  cnt starts with 2 at word+2. *)
Definition read_unary (m : mem) (w off : nat) : option nat :=
  let* v := ld m w in
  let* v := shr_c v off in
  if negb (v =? 0)%N then Some (N.to_nat (lo v))
  else
    let* v1 := ld m (w + 1) in
    if negb (v1 =? 0)%N then Some (N.to_nat (lo v1) + 64 - off)
    else
      let* (w', v') := skip_zero (length m) m (w + 2) in
      Some (N.to_nat (lo v') + (w' - w) * 64 - off).

(** bits::read_unary_and_move, bits.hpp:547-574: value, new word pointer, new offset *)
Definition read_unary_and_move (m : mem) (w off : nat) : option (nat * nat * nat) :=
  let* v := ld m w in
  let* v := shr_c v off in
  let adv w o := (if o =? 0 then w + 1 else w, o) in
  if negb (v =? 0)%N then
    let r := N.to_nat (lo v) in
    let '(w', o') := adv w ((off + r + 1) mod 64) in Some (r, w', o')
  else
    let* v1 := ld m (w + 1) in
    if negb (v1 =? 0)%N then
      let rr := (N.to_nat (lo v1) + 64 - off) mod 256 in
      let '(w', o') := adv (w + 1) ((off + rr + 1) mod 64) in Some (rr, w', o')
    else
      let* (w2, v2) := skip_zero (length m) m (w + 2) in
      let rr := (N.to_nat (lo v2) + 64 - off) mod 256 in
      let '(w', o') := adv w2 ((off + rr + 1) mod 64) in
      Some ((w2 - w - 1) * 64 + rr, w', o').

(** bits::move_right, bits.hpp:576-582; offset is a uint8_t *)
Definition move_right (w off len : nat) : nat * nat :=
  let o := (off + len) mod 256 in
  if 64 <=? o then (w + 1, o mod 64) else (w, o).

(** bits::move_left, bits.hpp:584-590; offset is a uint8_t; leaving the array at
    the left end is [None] *)
Definition move_left (w off len : nat) : option (nat * nat) :=
  let o := (off + 256 - len) mod 256 in
  if 64 <=? o then match w with 0 => None | S w' => Some (w', o mod 64) end else Some (w, o).

(** bits::next, bits.hpp:592-605: [idx] counts from word [w] *)
Definition next (m : mem) (w idx : nat) : option nat :=
  let w := w + idx / 64 in
  let* v := ld m w in
  let v := N.land v (wnot (lo_set (idx mod 64))) in
  if negb (v =? 0)%N then Some (idx / 64 * 64 + N.to_nat (lo v))
  else
    let* (w', v') := skip_zero (length m) m (w + 1) in
    Some (idx / 64 * 64 + (w' - w) * 64 + N.to_nat (lo v')).

(** the downward search loop of bits::prev, bits.hpp:615-618: [w] is the word to look at next,
    [Some w] counted from 0; leaving the array is [None] *)
Fixpoint skip_zero_down (m : mem) (w : nat) : option (nat * N) :=
  let* v := ld m w in
  if (v =? 0)%N then match w with 0 => None | S w' => skip_zero_down m w' end
  else Some (w, v).

(** bits::prev, bits.hpp:607-620, with word pointer at the beginning of the array *)
Definition prev (m : mem) (idx : nat) : option nat :=
  let w := idx / 64 in
  let* v := ld m w in
  let v := N.land v (lo_set (idx mod 64 + 1)) in
  if negb (v =? 0)%N then Some (idx / 64 * 64 + N.to_nat (hi v))
  else match w with
       | 0 => None
       | S w0 => let* (w', v') := skip_zero_down m w0 in
                 Some (w' * 64 + N.to_nat (hi v'))
       end.
