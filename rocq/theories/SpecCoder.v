(** * Vocabulary for the statements about the coders. *)
From Coq Require Import NArith List Arith.
From Verif Require Import Base.
Import ListNotations.
Definition sum_list (xs : list N) : N := fold_right N.add 0%N xs.
(** x_0, x_0 + x_1, x_0 + x_1 + x_2, ... modulo 2^64 *)
Definition running_sums (xs : list N) : list N :=
  map (fun i => (sum_list (firstn (S i) xs) mod 2 ^ 64)%N) (seq 0 (length xs)).
Definition no_zero (xs : list N) : Prop := Forall (fun x => x <> 0%N) xs.
(** A meaning of the C++ expression 1ULL << k for all k: as defined for k < 64. *)
Definition shift_like (sh : N -> nat -> option N) : Prop := forall k, k < 64 -> sh 1%N k = Some (2 ^ N.of_nat k)%N.
(** the platform also defines 1ULL << 64 *)
Definition shift64_defined (sh : N -> nat -> option N) : Prop := sh 1%N 64 <> None.
(** [f] agrees with [g] outside [a, b) *)
Definition same_outside (a b : nat) (f g : nat -> bool) : Prop := forall k, k < a \/ b <= k -> f k = g k.
