(** * Model of uint128_t and uint256_t (include/sdsl/uint128_t.hpp, uint256_t.hpp)

    [u128] is the portable class of uint128_t.hpp (the [#else] of MODE_TI).  uint256_t stores two 64-bit words and one
    128-bit number: there 128-bit numbers are N < 2^128 with arithmetic modulo 2^128, which the theorems about [u128]
    justify for the portable class and the compiler provides for the native type (MODE_TI).  The two differ in shifts:
    the flag [ti] selects the native type, where a shift by 128 is undefined; the class allows it.  Undefined = None. *)
From Coq Require Import NArith List Bool Arith.
From Verif Require Import Base Bits.
Import ListNotations.
Local Open Scope N_scope.

(** class uint128_t, uint128_t.hpp:36-44: m_lo, m_high *)
Record u128 := mk128 { lo128 : N; hi128 : N }.

(** uint128_t.hpp:68-71: popcount, in uint8_t *)
Definition u_popcount (a : u128) : N := (cnt (lo128 a) mod 2^8 + cnt (hi128 a) mod 2^8) mod 2^8.
(** uint128_t.hpp:73-80: hi *)
Definition u_hi (a : u128) : N := if hi128 a =? 0 then hi (lo128 a) else hi (hi128 a) + 64.
(** uint128_t.hpp:82-90: select *)
Definition u_select (a : u128) (i : N) : option N :=
  let x := cnt (lo128 a) in
  if i <=? x then sel (lo128 a) i
  else let* p := sel (hi128 a) (i - x) in Some (p + 64).
(** uint128_t.hpp:104-107: operator+ (a bool is added as 0 or 1); += 92-96 is the same *)
Definition u_add (a b : u128) : u128 :=
  mk128 (wadd (lo128 a) (lo128 b)) (wadd (wadd (hi128 a) (hi128 b)) (b2n (wadd (lo128 a) (lo128 b) <? lo128 a))).
(** uint128_t.hpp:109-112: operator+(uint64_t) *)
Definition u_add64 (a : u128) (x : N) : u128 := mk128 (wadd (lo128 a) x) (wadd (hi128 a) (b2n (wadd (lo128 a) x <? lo128 a))).
(** uint128_t.hpp:114-117: operator-; -= 124-128 is the same *)
Definition u_sub (a b : u128) : u128 :=
  mk128 (wsub (lo128 a) (lo128 b)) (wsub (wsub (hi128 a) (hi128 b)) (b2n (lo128 a <? wsub (lo128 a) (lo128 b)))).
(** uint128_t.hpp:119-122: operator~ *)
Definition u_not (a : u128) : u128 := mk128 (wnot (lo128 a)) (wnot (hi128 a)).
(** uint128_t.hpp:130-144: operator| and |=, with uint128_t and uint64_t *)
Definition u_or (a b : u128) : u128 := mk128 (N.lor (lo128 a) (lo128 b)) (N.lor (hi128 a) (hi128 b)).
Definition u_or64 (a : u128) (x : N) : u128 := mk128 (N.lor (lo128 a) x) (hi128 a).
(** uint128_t.hpp:146-149: operator& *)
Definition u_and (a b : u128) : u128 := mk128 (N.land (lo128 a) (lo128 b)) (N.land (hi128 a) (hi128 b)).
(** uint128_t.hpp:156-166: operator<<; for x < 64 neither x nor 63-x leaves the legal range *)
Definition u_shl (a : u128) (x : nat) : option u128 :=
  if (x <? 64)%nat then
    let* h := shl_c (hi128 a) x in let* l1 := shr_c (lo128 a) (63 - x) in let* l2 := shr_c l1 1 in
    let* l := shl_c (lo128 a) x in Some (mk128 l (N.lor h l2))
  else if (x =? 128)%nat then Some (mk128 0 0)
  else let* h := shl_c (lo128 a) (x - 64) in Some (mk128 0 h).
(** uint128_t.hpp:168-177: operator>> *)
Definition u_shr (a : u128) (x : nat) : option u128 :=
  if (x <? 64)%nat then
    let* l := shr_c (lo128 a) x in let* h1 := shl_c (hi128 a) (63 - x) in let* h2 := shl_c h1 1 in
    let* h := shr_c (hi128 a) x in Some (mk128 (N.lor l h2) h)
  else if (x =? 128)%nat then Some (mk128 0 0)
  else let* l := shr_c (hi128 a) (x - 64) in Some (mk128 l 0).
(** uint128_t.hpp:186-194: operator== with uint128_t and uint64_t; != 196-199 negates it *)
Definition u_eqb (a b : u128) : bool := (lo128 a =? lo128 b) && (hi128 a =? hi128 b).
Definition u_eqb64 (a : u128) (x : N) : bool := (lo128 a =? x) && (hi128 a =? 0).
(** uint128_t.hpp:201-245: >=, <=, >, >(uint64_t), < *)
Definition u_geb (a b : u128) : bool := if negb (hi128 a =? hi128 b) then hi128 b <? hi128 a else lo128 b <=? lo128 a.
Definition u_leb (a b : u128) : bool := if negb (hi128 a =? hi128 b) then hi128 a <? hi128 b else lo128 a <=? lo128 b.
Definition u_gtb (a b : u128) : bool := if negb (hi128 a =? hi128 b) then hi128 b <? hi128 a else lo128 b <? lo128 a.
Definition u_gtb64 (a : u128) (x : N) : bool := if 0 <? hi128 a then true else x <? lo128 a.
Definition u_ltb (a b : u128) : bool := if negb (hi128 a =? hi128 b) then hi128 a <? hi128 b else lo128 a <? lo128 b.

(** the 16 hexadecimal digits printed for one word, lib/uint128_t.cpp:10-13 and uint256_t.cpp:10-13 *)
Fixpoint hexdigits (n : nat) (w : N) : list N :=
  match n with O => [] | S n' => N.land (shr w 60) 0xF :: hexdigits n' (shl w 4) end.
(** lib/uint128_t.cpp:7-16: operator<<(ostream) on the portable class; x >> 64 is [u_shr] *)
Definition u_print (a : u128) : option (list N) :=
  let* h := u_shr a 64 in Some (hexdigits 16 (lo128 h) ++ hexdigits 16 (lo128 a)).

(** ** uint256_t *)

Definition M128 : N := 2 ^ 128.
(** 128-bit operations used by uint256_t *)
Definition add128 (a b : N) : N := (a + b) mod M128.
Definition not128 (a : N) : N := N.lxor a (N.ones 128).
Definition sh_ok (ti : bool) (x : nat) : bool := if ti then (x <? 128)%nat else (x <=? 128)%nat.
Definition shl128 (ti : bool) (a : N) (x : nat) : option N := if sh_ok ti x then Some ((a * 2 ^ N.of_nat x) mod M128) else None.
Definition shr128 (ti : bool) (a : N) (x : nat) : option N := if sh_ok ti x then Some (a / 2 ^ N.of_nat x) else None.
(** conversion to uint64_t *)
Definition to64 (a : N) : N := a mod W64.

(** uint256_t.hpp:34-40: m_lo, m_mid, m_high *)
Record u256 := mk256 { lo256 : N; mid256 : N; hi256 : N }.

(** uint256_t.hpp:63-66: popcount, in uint16_t *)
Definition x_popcount (ti : bool) (a : u256) : option N :=
  let* hh := shr128 ti (hi256 a) 64 in
  Some ((cnt (lo256 a) + cnt (mid256 a) + cnt (to64 hh) + cnt (to64 (hi256 a))) mod 2^16).
(** uint256_t.hpp:68-83: hi *)
Definition x_hi (ti : bool) (a : u256) : option N :=
  if hi256 a =? 0 then Some (if negb (mid256 a =? 0) then hi (mid256 a) + 64 else hi (lo256 a))
  else let* h := shr128 ti (hi256 a) 64 in
       let hh := to64 h in
       Some (if negb (hh =? 0) then hi hh + 192 else hi (to64 (hi256 a)) + 128).
(** uint256_t.hpp:85-102: select *)
Definition x_select (ti : bool) (a : u256) (i : N) : option N :=
  let x := cnt (lo256 a) in
  if i <=? x then sel (lo256 a) i else
  let i1 := i - x in
  let y := cnt (mid256 a) in
  if i1 <=? y then let* p := sel (mid256 a) i1 in Some (p + 64) else
  let i2 := i1 - y in
  let* h := shr128 ti (hi256 a) 64 in
  let hh := to64 h in let lh := to64 (hi256 a) in
  let z := cnt lh in
  if i2 <=? z then let* p := sel lh i2 in Some (p + 128)
  else let* p := sel hh (i2 - z) in Some (p + 192).
(** uint256_t.hpp:104-117: operator+= and operator+ *)
Definition x_add (ti : bool) (a b : u256) : option u256 :=
  let lo := add128 (lo256 a) (lo256 b) in
  let* c := shr128 ti lo 64 in
  let mid := add128 (add128 (mid256 a) (mid256 b)) c in
  let* d := shr128 ti mid 64 in
  Some (mk256 (to64 lo) (to64 mid) (add128 (add128 (hi256 a) (hi256 b)) d)).
(** uint256_t.hpp:119-134: operator- and operator-=, adding the two's complement *)
Definition x_sub (ti : bool) (a b : u256) : option u256 :=
  let lo := add128 (add128 (lo256 a) (wnot (lo256 b))) 1 in
  let* c := shr128 ti lo 64 in
  let mid := add128 (add128 (mid256 a) (wnot (mid256 b))) c in
  let* d := shr128 ti mid 64 in
  Some (mk256 (to64 lo) (to64 mid) (add128 (add128 (hi256 a) (not128 (hi256 b))) d)).
(** uint256_t.hpp:137-148: operator|, |= and & *)
Definition x_or (a b : u256) : u256 := mk256 (N.lor (lo256 a) (lo256 b)) (N.lor (mid256 a) (mid256 b)) (N.lor (hi256 a) (hi256 b)).
Definition x_and (a b : u256) : u256 := mk256 (N.land (lo256 a) (lo256 b)) (N.land (mid256 a) (mid256 b)) (N.land (hi256 a) (hi256 b)).
(** uint256_t.hpp:155-166: operator<< *)
Definition x_shl (ti : bool) (a : u256) (x : nat) : option u256 :=
  let* m := shl128 ti (mid256 a) 64 in
  let low := N.lor m (lo256 a) in
  if (x <? 128)%nat then
    let* high := shl128 ti (hi256 a) x in
    let* carry := shr128 ti low (128 - x) in
    let* low' := shl128 ti low x in
    let* l64 := shr128 ti low' 64 in
    Some (mk256 (to64 low') (to64 l64) (N.lor high carry))
  else
    let* high := shl128 ti low (x - 128) in Some (mk256 0 0 high).
(** uint256_t.hpp:168-177: operator>> *)
Definition x_shr (ti : bool) (a : u256) (x : nat) : option u256 :=
  if (x <? 128)%nat then
    let* m := shl128 ti (mid256 a) 64 in
    let* low0 := shr128 ti (N.lor m (lo256 a)) x in
    let* h1 := shl128 ti (hi256 a) (127 - x) in
    let* h2 := shl128 ti h1 1 in
    let low := N.lor low0 h2 in
    let* l64 := shr128 ti low 64 in
    let* h := shr128 ti (hi256 a) x in
    Some (mk256 (to64 low) (to64 l64) h)
  else
    let* low := shr128 ti (hi256 a) (x - 128) in
    let* l64 := shr128 ti low 64 in
    Some (mk256 (to64 low) (to64 l64) 0).
(** uint256_t.hpp:186-241: comparisons *)
Definition x_eqb (a b : u256) : bool := (lo256 a =? lo256 b) && (mid256 a =? mid256 b) && (hi256 a =? hi256 b).
Definition x_cmp (fh fl : N -> N -> bool) (a b : u256) : bool :=
  if negb (hi256 a =? hi256 b) then fh (hi256 a) (hi256 b)
  else if negb (mid256 a =? mid256 b) then fh (mid256 a) (mid256 b)
  else fl (lo256 a) (lo256 b).
Definition x_geb := x_cmp (fun x y => y <? x) (fun x y => y <=? x).
Definition x_leb := x_cmp (fun x y => x <? y) (fun x y => x <=? y).
Definition x_gtb := x_cmp (fun x y => y <? x) (fun x y => y <? x).
Definition x_ltb := x_cmp (fun x y => x <? y) (fun x y => x <? y).
Definition x_gtb64 (a : u256) (x : N) : bool := if (0 <? hi256 a) || (0 <? mid256 a) then true else x <? lo256 a.
(** lib/uint256_t.cpp:6-15: operator<<(ostream) *)
Definition x_print (ti : bool) (a : u256) : option (list N) :=
  let* h := shr128 ti (hi256 a) 64 in
  Some (hexdigits 16 (to64 h) ++ hexdigits 16 (to64 (hi256 a)) ++ hexdigits 16 (mid256 a) ++ hexdigits 16 (lo256 a)).
