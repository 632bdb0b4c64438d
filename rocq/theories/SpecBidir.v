(** * Specification of bidirectional search: the text, read backwards, and pairs of intervals *)
From Coq Require Import List Arith.
From Verif Require Import SpecCsa.
Import ListNotations.

(** the backward text: the symbols in front of the final 0 in reverse order, then the 0 *)
Definition rtext (T : list nat) : list nat := rev (removelast T) ++ [0].
(** [l, r) are the rows of [w] in the suffix array of [T], [l', r') those of the reversed [w] in that of the
    backward text *)
Definition bi_interval (T sa sa' w : list nat) (l r l' r' : nat) : Prop :=
  sa_interval T sa w l r /\ sa_interval (rtext T) sa' (rev w) l' r'.
