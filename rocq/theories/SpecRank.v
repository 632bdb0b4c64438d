(** * Specification of rank and select over the bit patterns of sdsl *)
From Coq Require Import NArith List Bool Arith.
From Verif Require Import Base Bits SpecBits IntVector SpecIntVector.
Import ListNotations.

(** The six patterns `0`, `1`, `10`, `01`, `00`, `11`. *)
Inductive pat := P0 | P1 | P10 | P01 | P00 | P11.

(** [occ p f k]: an occurrence of the pattern ends at position [k] *)
Definition occ (p : pat) (f : nat -> bool) (k : nat) : bool :=
  match p with
  | P0 => negb (f k)
  | P1 => f k
  | P10 => (0 <? k) && f (k - 1) && negb (f k)
  | P01 => (0 <? k) && negb (f (k - 1)) && f k
  | P00 => (0 <? k) && negb (f (k - 1)) && negb (f k)
  | P11 => (0 <? k) && f (k - 1) && f k
  end.

(** rank(i): occurrences that end at a position < i.
    select(j): the position at which the j-th occurrence ends ([is_select], SpecBits.v). *)
Definition rank_spec (p : pat) (v : ivec) (i : nat) : nat := rank_of (occ p (iv_bit v)) i.
Definition select_spec (p : pat) (v : ivec) (j pos : nat) : Prop := is_select (occ p (iv_bit v)) j pos.
