(** * Specification of the strings of suffix tree nodes *)
From Coq Require Import List Arith.
From Verif Require Import SpecCsa.
Import ListNotations.

(** [P] is the string of the node with the rows i..j: the longest string all suffixes in these rows start with *)
Definition node_label (T sa : list nat) (i j : nat) (P : list nat) : Prop :=
  (forall k, i <= k <= j -> occurs_at T P (nth k sa 0)) /\
  forall Q, (forall k, i <= k <= j -> occurs_at T Q (nth k sa 0)) -> length Q <= length P.
