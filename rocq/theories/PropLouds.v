(** * C46: louds_tree describes the tree it was built from

    A node is named by the path of child numbers that leads to it from the root ([sub_at], SpecTree.v); [l_walk] takes
    the same path with child(v, i+1).  The trees are those of suffix trees: no inner node with a single child (the
    constructor reserves 4 bits for each leaf). *)
From Coq Require Import List Bool Arith Lia.
From Verif Require Import Base SpecTree Louds LoudsProofs.
Import ListNotations.

Theorem C46_build : forall t, branching t -> exists lt, louds_make t = Some lt /\ l_nodes lt = nodes_of t.
Proof. intros t B. exists (louds (order t)). split. { exact (louds_make_ok t B). } exact (nodes_ok t B _ (louds_make_ok t B)). Qed.
Print Assumptions C46_build.
(** every node of the tree is reached, with its degree; is_leaf is degree 0; ids are below nodes() *)
Theorem C46_walk : forall t, branching t -> forall lt, louds_make t = Some lt -> forall p u, sub_at t p = Some u ->
  exists v, l_walk lt l_root p = Some v /\ l_degree lt v = Some (length (kids u)) /\ l_is_leaf lt v = Some (length (kids u) =? 0) /\
    l_id v < nodes_of t.
Proof. exact nav_ok. Qed.
Print Assumptions C46_walk.
(** parent is the inverse of child *)
Theorem C46_parent : forall t, branching t -> forall lt, louds_make t = Some lt -> forall p i u, sub_at t (p ++ [i]) = Some u ->
  exists v w, l_walk lt l_root p = Some v /\ l_walk lt l_root (p ++ [i]) = Some w /\ l_child lt v (i + 1) = Some w /\ l_parent lt w = Some v.
Proof. exact parent_nav. Qed.
Print Assumptions C46_parent.
Theorem C46_root_parent : forall lt, l_parent lt l_root = Some l_root.
Proof. exact root_parent. Qed.
Print Assumptions C46_root_parent.
(** id() is a bijection between the nodes and 0..nodes()-1 *)
Theorem C46_id_injective : forall t, branching t -> forall lt, louds_make t = Some lt -> forall p q u u' v v',
  sub_at t p = Some u -> sub_at t q = Some u' -> l_walk lt l_root p = Some v -> l_walk lt l_root q = Some v' -> l_id v = l_id v' -> p = q.
Proof. exact id_inj. Qed.
Print Assumptions C46_id_injective.
Theorem C46_id_surjective : forall t, branching t -> forall lt, louds_make t = Some lt -> forall k, k < nodes_of t ->
  exists p u v, sub_at t p = Some u /\ l_walk lt l_root p = Some v /\ l_id v = k.
Proof. exact id_surj. Qed.
Print Assumptions C46_id_surjective.

(** a tree with six nodes *)
Definition louds_demo : rt := Nd [Nd []; Nd []; Nd [Nd []; Nd []]].
Example C46_demo : branching louds_demo /\ exists lt v w, louds_make louds_demo = Some lt /\ l_nodes lt = 6 /\ l_walk lt l_root [2] = Some v /\
  l_walk lt l_root [2; 1] = Some w /\ l_id v = 3 /\ l_id w = 5 /\ l_parent lt w = Some v /\ l_degree lt v = Some 2 /\ l_is_leaf lt w = Some true.
Proof. split. { cbn. repeat split; lia. } do 3 eexists. split; [vm_compute; reflexivity|]. repeat split. Qed.
(** the branching hypothesis is needed: a chain of three nodes does not fit into the reserved bits *)
Example C46_unary : louds_make (Nd [Nd [Nd []]]) = None.
Proof. reflexivity. Qed.
