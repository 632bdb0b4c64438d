(** * Specification of tree traversals over the intervals of an LCP array *)
From Coq Require Import NArith List Arith Sorted.
From Verif Require Import SpecCst.
Import ListNotations.

(** [cs] is the list of the children of (i, j) from left to right *)
Definition kids (A : list N) (i j : nat) (cs : list (nat * nat)) : Prop :=
  StronglySorted (fun a b => fst a < fst b) cs /\
  forall i' j', In (i', j') cs <-> lcp_interval A i' j' /\ parent_of A i' j' i j.
(** depth first: a leaf is visited once (false), an inner node before (false) and after (true) its children *)
Inductive tour (A : list N) : nat -> nat -> list (nat * nat * bool) -> Prop :=
| tour_leaf : forall i, tour A i i [(i, i, false)]
| tour_inner : forall i j cs l, i < j -> kids A i j cs -> tours A cs l -> tour A i j ((i, j, false) :: l ++ [(i, j, true)])
with tours (A : list N) : list (nat * nat) -> list (nat * nat * bool) -> Prop :=
| tours_nil : tours A [] []
| tours_cons : forall i j cs l l', tour A i j l -> tours A cs l' -> tours A ((i, j) :: cs) (l ++ l').
(** bottom up: every node once, behind its children *)
Inductive post (A : list N) : nat -> nat -> list (nat * nat) -> Prop :=
| post_leaf : forall i, post A i i [(i, i)]
| post_inner : forall i j cs l, i < j -> kids A i j cs -> posts A cs l -> post A i j (l ++ [(i, j)])
with posts (A : list N) : list (nat * nat) -> list (nat * nat) -> Prop :=
| posts_nil : posts A [] []
| posts_cons : forall i j cs l l', post A i j l -> posts A cs l' -> posts A ((i, j) :: cs) (l ++ l').
(** breadth first: the nodes of a level, then the nodes of the next level, which are their children *)
Inductive next_level (A : list N) : list (nat * nat) -> list (nat * nat) -> Prop :=
| nl_nil : next_level A [] []
| nl_cons : forall i j cs q r, kids A i j cs -> next_level A q r -> next_level A ((i, j) :: q) (cs ++ r).
Inductive levels (A : list N) : list (nat * nat) -> list (nat * nat) -> Prop :=
| lv_nil : levels A [] []
| lv_cons : forall q r l, q <> [] -> next_level A q r -> levels A r l -> levels A q (q ++ l).
