(** * Specification: the interleavings of several lists *)
From Coq Require Import List ZArith.
Import ListNotations.

(** [merged ps o rs]: taking the elements of [o] one after the other, each from the front of one of the lists [ps], leaves [rs] *)
Inductive merged {A} (ps : list (list A)) : list A -> list (list A) -> Prop :=
| merged_nil : merged ps [] ps
| merged_snoc o p1 a l p2 : merged ps o (p1 ++ (a :: l) :: p2) -> merged ps (o ++ [a]) (p1 ++ l :: p2).
(** [o] is an interleaving of [ps]: all elements, each list in its own order *)
Definition interleaving {A} (ps : list (list A)) (o : list A) : Prop := exists rs, merged ps o rs /\ Forall (fun r => r = []) rs.
Definition sum (l : list Z) : Z := fold_right Z.add 0%Z l.
