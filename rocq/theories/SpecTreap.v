(** * Weighted points of the plane: a point is ((x, y), weight) *)
From Coq Require Import List Arith Bool Permutation.
Import ListNotations.

Definition inside (x1 y1 x2 y2 : nat) (p : nat * nat * nat) : bool :=
  let '(x, y, _) := p in (x1 <=? x) && (x <=? x2) && (y1 <=? y) && (y <=? y2).
Definition weight_in (w1 w2 : nat) (p : nat * nat * nat) : bool := let '(_, _, w) := p in (w1 <=? w) && (w <=? w2).
(** the order of the reports: larger weights first; ties by smaller x, then smaller y *)
Definition before (p q : nat * nat * nat) : Prop :=
  let '(x, y, w) := p in let '(x', y', w') := q in w' < w \/ w = w' /\ (x < x' \/ x = x' /\ y < y').
(** no two points have the same coordinates *)
Definition distinct_points (v : list (nat * nat * nat)) : Prop := NoDup (map fst v).
(** a function that splits a list by a predicate, as std::partition does (which leaves the order open) *)
Definition splits (part : (nat * nat * nat -> bool) -> list (nat * nat * nat) -> list (nat * nat * nat) * list (nat * nat * nat)) : Prop :=
  forall f l, Permutation l (fst (part f l) ++ snd (part f l)) /\ (forall e, In e (fst (part f l)) -> f e = true) /\ (forall e, In e (snd (part f l)) -> f e = false).
