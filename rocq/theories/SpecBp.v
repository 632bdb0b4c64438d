(** * Specification of balanced parentheses (true = opening) *)
From Coq Require Import List Arith.
Import ListNotations.

Inductive balanced : list bool -> Prop :=
| bal_nil : balanced []
| bal_pair : forall a b, balanced a -> balanced b -> balanced (true :: a ++ false :: b).

(** the parentheses at i and j match: what stands between them is balanced *)
Definition matches (bp : list bool) (i j : nat) : Prop :=
  exists pre mid suf, bp = pre ++ true :: mid ++ false :: suf /\ balanced mid /\ i = length pre /\ j = length pre + 1 + length mid.

(** the pair that opens at k encloses position i *)
Definition around (bp : list bool) (k i : nat) : Prop := exists m, matches bp k m /\ k < i < m.
(** the closest such pair *)
Definition encl (bp : list bool) (k i : nat) : Prop := around bp k i /\ forall k', around bp k' i -> k' <= k.

(** j is reached from i by d steps to the closest enclosing pair *)
Inductive ancestor (bp : list bool) : nat -> nat -> nat -> Prop :=
| anc_O : forall i, ancestor bp i 0 i
| anc_S : forall i d k j, encl bp k i -> ancestor bp k d j -> ancestor bp i (S d) j.
