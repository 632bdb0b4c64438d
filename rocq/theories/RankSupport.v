(** * Model of the rank supports: rank_support.hpp, rank_support_v.hpp, rank_support_v5.hpp,
    rank_support_scan.hpp.

    A bit_vector is an [ivec] of width 1.  The counter table (int_vector<64> m_basic_block) is a
    list of 64-bit words; int_vector<64> is proved to behave like one in PropIntVector.v.  Fresh
    memory has unknown contents [g]. *)
From Coq Require Import NArith List Bool Arith.
From Verif Require Import Base Bits IntVector SpecRank.
Import ListNotations.

(** ** rank_support_trait, rank_support.hpp:94-304 *)

(** The word in which bit k is set iff the pattern ends at bit k; [c] is the previous bit.
    rank_support.hpp: <0,1> 121-146, <1,1> 148-171, <10,2> 173-200 (bits::map10),
    <01,2> 202-229 (bits::map01), <00,2> 231-260, <11,2> 262-291 *)
Definition rt_map (p : pat) (x c : N) : N :=
  match p with
  | P0 => wnot x
  | P1 => x
  | P10 => map10 x c
  | P01 => map01 x c
  | P00 => wnot (N.lor x (N.lor (shl x 1) c))
  | P11 => N.land x (N.lor (shl x 1) c)
  end.
(** init_carry() *)
Definition rt_init_carry (p : pat) : N := match p with P01 | P00 => 1%N | _ => 0%N end.
(** args_in_the_word(w, carry): count and new carry; <0,1> and <1,1> leave the carry alone,
    <10,2> and <01,2> call bits::cnt10/cnt01 *)
Definition rt_args (p : pat) (x c : N) : N * N :=
  match p with
  | P0 | P1 => (cnt (rt_map p x c), c)
  | P10 => cnt10c x c
  | P01 => cnt01c x c
  | P00 | P11 => (cnt (rt_map p x c), shr x 63)
  end.
(** carry = (idx>63) ? *(data-1)>>63 : init_carry(); <0,1>, <1,1> do not read it *)
Definition rt_carry (p : pat) (m : mem) (idx : nat) : option N :=
  match p with
  | P0 | P1 => Some 0%N
  | _ => if 63 <? idx then let* x := ld m (idx / 64 - 1) in Some (shr x 63) else Some (rt_init_carry p)
  end.
(** word_rank(data, idx) *)
Definition rt_word_rank (p : pat) (m : mem) (idx : nat) : option N :=
  let* x := ld m (idx / 64) in
  let* c := rt_carry p m idx in
  Some (cnt (N.land (rt_map p x c) (lo_set (idx mod 64)))).
(** full_word_rank(data, idx) *)
Definition rt_full_word_rank (p : pat) (m : mem) (idx : nat) : option N :=
  let* x := ld m (idx / 64) in
  let* c := rt_carry p m idx in
  Some (cnt (rt_map p x c)).

(** ** rank_support_v *)

(** state of the construction loop: m_basic_block, j, sum, second_level_cnt *)
Definition rsv_st : Type := mem * nat * N * N.
(** body of the loop up to the update of sum, rank_support_v.hpp:88-96 *)
Definition rsv_step (i : nat) (s : rsv_st) : option rsv_st :=
  let '(bb, j, sum, sl) := s in
  if i mod 8 =? 0 then
    let j := j + 2 in
    let* bb := st bb (j - 1) sl in
    let* prev := ld bb (j - 2) in
    let* bb := st bb j (wadd prev sum) in
    Some (bb, j, 0%N, 0%N)
  else Some (bb, j, sum, N.lor sl (shl sum (63 - 9 * (i mod 8)))).
(** the loop, rank_support_v.hpp:87-98; [todo] iterations from [i] *)
Fixpoint rsv_loop (p : pat) (m : mem) (todo i : nat) (s : rsv_st) (carry : N) : option rsv_st :=
  match todo with
  | 0 => Some s
  | S t =>
    let* (bb, j, sum, sl) := rsv_step i s in
    let* x := ld m i in
    let '(c, carry) := rt_args p x carry in
    rsv_loop p m t (S i) (bb, j, wadd sum c, sl) carry
  end.
(** constructor, rank_support_v.hpp:66-108 *)
Definition rsv_build (p : pat) (g : nat -> N) (v : ivec) : option mem :=
  if iv_empty v then Some [0; 0]%N else
  let n := iv_capacity v / 64 in
  let bb := map g (seq 0 (2 * (iv_capacity v / (64 * 8) + 1))) in
  let* bb := st bb 1 0%N in
  let* bb := st bb 0 0%N in
  let* x := ld (iv_data v) 0 in
  let '(sum, carry) := rt_args p x (rt_init_carry p) in
  let* (bb, j, sum, sl) := rsv_loop p (iv_data v) (n - 1) 1 (bb, 0, sum, 0%N) carry in
  let i := n in (* value of i after the loop: max(1, n) and n >= 1 *)
  if negb (i mod 8 =? 0) then
    st bb (j + 1) (N.lor sl (shl sum (63 - 9 * (i mod 8))))
  else
    let j := j + 2 in
    let* bb := st bb (j - 1) sl in
    let* prev := ld bb (j - 2) in
    let* bb := st bb j (wadd prev sum) in
    st bb (j + 1) 0%N.

(** rank, rank_support_v.hpp:117-130; (idx>>8)&~1 is (idx/256)/2*2 *)
Definition rsv_rank (p : pat) (v : ivec) (bb : mem) (idx : nat) : option N :=
  let q := idx / (64 * 4) / 2 * 2 in
  let* a := ld bb q in
  let* b := ld bb (q + 1) in
  let rel := N.land (shr b (63 - 9 * (idx mod (64 * 8) / 64))) 0x1FF in
  if negb (idx mod 64 =? 0) then
    let* w := rt_word_rank p (iv_data v) idx in
    Some (wadd (wadd a rel) w)
  else Some (wadd a rel).

(** ** rank_support_v5 *)

(** state: m_basic_block, j, sum, second_level_cnt, cnt_words *)
Definition rs5_st : Type := mem * nat * N * N * nat.
(** rank_support_v5.hpp:87-96 *)
Definition rs5_step (s : rs5_st) : option rs5_st :=
  let '(bb, j, sum, sl, cw) := s in
  if cw =? 32 then
    let j := j + 2 in
    let* bb := st bb (j - 1) sl in
    let* prev := ld bb (j - 2) in
    let* bb := st bb j (wadd prev sum) in
    Some (bb, j, 0%N, 0%N, 0)
  else if cw mod 6 =? 0 then Some (bb, j, sum, N.lor sl (shl sum (60 - 12 * (cw / 6))), cw)
  else Some s.
(** rank_support_v5.hpp:86-98 *)
Fixpoint rs5_loop (p : pat) (m : mem) (todo i : nat) (s : rs5_st) (carry : N) : option rs5_st :=
  match todo with
  | 0 => Some s
  | S t =>
    let* (bb, j, sum, sl, cw) := rs5_step s in
    let* x := ld m i in
    let '(c, carry) := rt_args p x carry in
    rs5_loop p m t (S i) (bb, j, wadd sum c, sl, cw + 1) carry
  end.
(** constructor, rank_support_v5.hpp:64-111 *)
Definition rs5_build (p : pat) (g : nat -> N) (v : ivec) : option mem :=
  if iv_empty v then Some [0; 0]%N else
  let n := iv_capacity v / 64 in
  let bb := map g (seq 0 (2 * (iv_capacity v / (64 * 32) + 1))) in
  let* bb := st bb 1 0%N in
  let* bb := st bb 0 0%N in
  let* x := ld (iv_data v) 0 in
  let '(sum, carry) := rt_args p x (rt_init_carry p) in
  let* (bb, j, sum, sl, cw) := rs5_loop p (iv_data v) (n - 1) 1 (bb, 0, sum, 0%N, 1) carry in
  let sl := if cw mod 6 =? 0 then N.lor sl (shl sum (60 - 12 * (cw / 6))) else sl in
  if cw =? 32 then
    let j := j + 2 in
    let* bb := st bb (j - 1) sl in
    let* prev := ld bb (j - 2) in
    let* bb := st bb j (wadd prev sum) in
    st bb (j + 1) 0%N
  else st bb (j + 1) sl.

(** the while loop of rank, rank_support_v5.hpp:132-136; [e] is idx + 1 there *)
Fixpoint rs5_words (p : pat) (m : mem) (todo e : nat) (result : N) : option N :=
  match todo with
  | 0 => Some result
  | S t => let* c := rt_full_word_rank p m (e - 1) in rs5_words p m t (e - 64) (wadd result c)
  end.
(** rank, rank_support_v5.hpp:118-138; 1024, 2048 and 384 are written as products because nat
    literals are unary *)
Definition rs5_rank (p : pat) (v : ivec) (bb : mem) (idx : nat) : option N :=
  let q := idx / (64 * 16) / 2 * 2 in
  let* a := ld bb q in
  let* b := ld bb (q + 1) in
  let rel := N.land (shr b (60 - 12 * (idx mod (64 * 32) / (64 * 6)))) 0x7FF in
  let* w := rt_word_rank p (iv_data v) idx in
  let e := idx - idx mod 64 in
  rs5_words p (iv_data v) ((e / 64) mod 32 mod 6) e (wadd (wadd a rel) w).

(** ** rank_support_scan *)
(** the loop, rank_support_scan.hpp:99-102 *)
Fixpoint rss_loop (p : pat) (m : mem) (fuel i idx : nat) (result : N) : option N :=
  match fuel with
  | 0 => None
  | S f =>
    if i + 64 <=? idx then
      let* c := rt_full_word_rank p m i in rss_loop p m f (i + 64) idx (wadd result c)
    else Some result
  end.
(** rank, rank_support_scan.hpp:91-104 *)
Definition rss_rank (p : pat) (v : ivec) (idx : nat) : option N :=
  let* r := rss_loop p (iv_data v) (S idx) 0 idx 0 in
  let* w := rt_word_rank p (iv_data v) idx in
  Some (wadd r w).
