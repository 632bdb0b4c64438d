(** * Specification of suffix tree nodes: the intervals of an LCP array *)
From Coq Require Import NArith List Arith.
Import ListNotations.

(** a leaf, or an interval i < j whose inner LCP values have the minimum l and whose border values are below l; the value at
    0 does not count, since there is no suffix in front of it *)
Definition lcp_interval (A : list N) (i j : nat) : Prop :=
  i <= j < length A /\
  (i = j \/
   exists l, (forall k, i < k <= j -> (l <= nth k A 0)%N) /\ (exists k, i < k <= j /\ nth k A 0%N = l) /\
     (i = 0 \/ (nth i A 0 < l)%N) /\ (j + 1 = length A \/ (nth (j + 1) A 0 < l)%N)).
Definition inside (i j i' j' : nat) : Prop := i' <= i /\ j <= j'.
(** the smallest node strictly around (i, j) *)
Definition parent_of (A : list N) (i j i' j' : nat) : Prop :=
  lcp_interval A i' j' /\ inside i j i' j' /\ (i, j) <> (i', j') /\
  forall x y, lcp_interval A x y -> inside i j x y -> (x, y) <> (i, j) -> inside i' j' x y.
(** the smallest node around both *)
Definition lca_of (A : list N) (i j k l x y : nat) : Prop :=
  lcp_interval A x y /\ inside i j x y /\ inside k l x y /\
  forall x' y', lcp_interval A x' y' -> inside i j x' y' -> inside k l x' y' -> inside x y x' y'.
(** the minimum of the values inside *)
Definition lcp_value (A : list N) (i j : nat) (l : N) : Prop :=
  (forall k, i < k <= j -> (l <= nth k A 0)%N) /\ exists k, i < k <= j /\ nth k A 0%N = l.
(** the positions of the minimum inside an inner node: its children start at i and at these positions *)
Definition min_positions (A : list N) (i j : nat) (l : N) : list nat := filter (fun k => N.eqb (nth k A 0%N) l) (seq (i + 1) (j - i)).
Definition borders (A : list N) (i j : nat) (l : N) : list nat := i :: min_positions A i j l ++ [j + 1].
(** the number of edges to the root *)
Inductive level (A : list N) : nat -> nat -> nat -> Prop :=
| level_root : level A 0 (length A - 1) 0
| level_child : forall i j i' j' d, parent_of A i j i' j' -> level A i' j' d -> level A i j (S d).
(** what holds of the LCP array of every text that ends with its only 0 (C59_text) *)
Definition lcp_ok (A : list N) : Prop :=
  0 < length A /\ nth 0 A 0%N = 0%N /\ (2 <= length A -> nth 1 A 0%N = 0%N) /\ Forall (fun x => (x <= N.of_nat (length A))%N) A.
Definition zero_count (A : list N) : nat := length (filter (fun x => N.eqb x 0) A).
