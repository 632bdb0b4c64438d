(** * Specification for C45: m is the leftmost position of an extremal value in [l..r] *)
From Coq Require Import NArith List Arith.
Import ListNotations.

(** a is at least as good as b *)
Definition better (t_min : bool) (a b : N) : Prop := if t_min then (a <= b)%N else (b <= a)%N.
Definition is_rmq (t_min : bool) (v : list N) (l r m : nat) : Prop :=
  l <= m <= r /\ (forall i, l <= i <= r -> better t_min (nth m v 0%N) (nth i v 0%N)) /\
  (forall i, l <= i < m -> ~ better t_min (nth i v 0%N) (nth m v 0%N)).
