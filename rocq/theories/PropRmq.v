(** * C45: range minimum queries, sparse table

    Property (properties.jsonl): for every sequence and every range [l..r], the query returns the leftmost position of an
    extremal value. *)
From Coq Require Import NArith List Bool Arith Lia.
From Verif Require Import Base Rmq SpecRmq RmqProofs.
Import ListNotations.

(** rmq_support_sparse_table on every container except a two-element one in the wrong order; the answer is unique.
    Missing (and false): that case *)
Theorem C45_sparse_partial : forall t_min v l r, l <= r < length v -> length v <> 2 \/ better t_min (nth 0 v 0%N) (nth 1 v 0%N) ->
  exists tab m, st_make t_min v = Some tab /\ st_query t_min v tab l r = Some m /\ is_rmq t_min v l r m /\ forall m', is_rmq t_min v l r m' -> m' = m.
Proof. exact st_full. Qed.
Print Assumptions C45_sparse_partial.

(** the constructor writes to a missing table for a decreasing (minimum) pair of values *)
Theorem C45_sparse_refuted : st_make true [2; 1]%N = None /\ st_make false [1; 2]%N = None.
Proof. split; reflexivity. Qed.
Print Assumptions C45_sparse_refuted.

Example C45_sparse_example : exists tab, st_make true [5; 3; 7; 3; 9; 1; 4]%N = Some tab /\ st_query true [5; 3; 7; 3; 9; 1; 4]%N tab 0 4 = Some 1 /\ st_query true [5; 3; 7; 3; 9; 1; 4]%N tab 2 6 = Some 5.
Proof. eexists. split; [vm_compute; reflexivity|]. split; vm_compute; reflexivity. Qed.
