(** * What a predecessor/successor dictionary over 0..n-1 answers *)
From Coq Require Import List Bool Arith.
From Verif Require Import NnDict.
Import ListNotations.

(** the bits after a history of assignments: the last value assigned, false if there is none *)
Definition nd_step (b : nat -> bool) (o : nn_op) : nat -> bool :=
  match o with Assign i x => fun j => if j =? i then x else b j | Zero => fun _ => false end.
Definition nd_bits (ops : list nn_op) : nat -> bool := fold_left nd_step ops (fun _ => false).
Definition nd_ok (n : nat) (ops : list nn_op) : Prop := forall i x, In (Assign i x) ops -> i < n.

(** [r] is the smallest set index >= i, or n *)
Definition is_next (b : nat -> bool) (n i r : nat) : Prop :=
  (b r = true /\ i <= r < n /\ forall j, i <= j < r -> b j = false) \/ (r = n /\ forall j, i <= j < n -> b j = false).
(** [r] is the largest set index <= i, or n *)
Definition is_prev (b : nat -> bool) (n i r : nat) : Prop :=
  (b r = true /\ r <= i /\ forall j, r < j <= i -> b j = false) \/ (r = n /\ forall j, j <= i -> b j = false).
