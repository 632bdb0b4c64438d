(** * Ordered trees *)
From Coq Require Import List Arith.
Import ListNotations.
(* a node is the list of its subtrees *)
Inductive rt : Type := Nd (l : list rt).
Definition kids (t : rt) : list rt := match t with Nd l => l end.
(* the number of nodes, the number of leaves *)
Fixpoint nodes_of (t : rt) : nat := match t with Nd l => S (list_sum (map nodes_of l)) end.
Fixpoint leaves_of (t : rt) : nat := match t with Nd l => match l with [] => 1 | _ => list_sum (map leaves_of l) end end.
(* a node of t is the path of child numbers (from 0) that leads to it *)
Fixpoint sub_at (t : rt) (p : list nat) : option rt :=
  match p with [] => Some t | i :: p' => match nth_error (kids t) i with Some u => sub_at u p' | None => None end end.
(* every inner node has at least two children, as in a suffix tree *)
Fixpoint branching (t : rt) : Prop := match t with Nd l => length l <> 1 /\ fold_right (fun u P => branching u /\ P) True l end.
