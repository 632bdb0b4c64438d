(** * Specification of the rrr block code: binomial coefficients and blocks as numbers *)
From Coq Require Import NArith List Bool Arith.
From Verif Require Import Base SpecBits.
Import ListNotations.

(** Pascal's rule *)
Fixpoint binom (n k : nat) : N :=
  match n, k with
  | _, 0 => 1%N
  | 0, S _ => 0%N
  | S n', S k' => (binom n' k' + binom n' (S k'))%N
  end.
(** [x] is the number whose bit [j] is element [j] of [l] *)
Definition is_bin (l : list bool) (x : N) : Prop := forall j, tb x j = nth j l false.
(** bits equal to [b] *)
Definition lpat (b : bool) (l : list bool) (p : nat) : bool := Bool.eqb b (nth p l false).
