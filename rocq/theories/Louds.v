(** * louds_tree (include/sdsl/louds_tree.hpp)

    The bit vector is the list of its bits, select as in WtBase.v.  The compressed suffix tree the LOUDS is built from is
    the ordered tree of its nodes: select_child(v,1) and sibling enumerate the children of v, size(v) is the number of
    leaves below v.  Not modelled: swap and serialize (both name members that do not exist, see DESIGN.md), load. *)
From Coq Require Import NArith List Arith Bool Lia.
From Verif Require Import Base SpecBits AbsVec WtBase SpecTree.
Import ListNotations.

(* louds_node, louds_tree.hpp:20-38: number and position *)
Record lnode := mkln { l_nr : nat; l_pos : nat }.
(* the loop 75-80 with the queue of cst_bfs_iterator (cst_iterators.hpp:295-310: pop the front, push its children);
   resize(pos) at the end.  [fuel] bounds the number of nodes *)
Fixpoint louds_loop (fuel : nat) (q : list rt) (pos : nat) (bv : list bool) : option (list bool) :=
  match fuel with
  | 0 => None
  | S f =>
    match q with
    | [] => Some (firstn pos bv ++ repeat false (pos - length bv))
    | v :: q' =>
      let* bv := aset bv pos true in
      let pos := pos + 1 in
      let size := length q in
      let q2 := q' ++ kids v in
      let* d := csub (length q2 + 1) size in
      louds_loop f q2 (pos + d) bv
    end
  end.
(* louds_tree(cst, begin, end), 70-86 *)
Definition louds_make (t : rt) : option (list bool) := louds_loop (S (nodes_of t)) [t] 0 (repeat false (4 * leaves_of t)).

(* root, 119-121 *)
Definition l_root : lnode := mkln 0 0.
(* nodes, 124-126 *)
Definition l_nodes (bv : list bool) : nat := (length bv + 1) / 2.
(* is_leaf, 131-134 *)
Definition l_is_leaf (bv : list bool) (v : lnode) : option bool :=
  if l_pos v + 1 =? length bv then Some true else t_get bv (l_pos v + 1).
(* degree, 140-146 *)
Definition l_degree (bv : list bool) (v : lnode) : option nat :=
  let* b := l_is_leaf bv v in
  if b then Some 0 else let* s := t_sel1 bv (l_nr v + 2) in let* s := csub s (l_pos v) in csub s 1.
(* child, 154-159 *)
Definition l_child (bv : list bool) (v : lnode) (i : nat) : option lnode :=
  let pos := l_pos v + i in
  let* zeros := csub (pos + 1) (l_nr v + 1) in
  let* s := t_sel1 bv (zeros + 1) in Some (mkln zeros s).
(* parent, 162-169 *)
Definition l_parent (bv : list bool) (v : lnode) : option lnode :=
  if (l_nr v =? 0) && (l_pos v =? 0) then Some l_root
  else
    let* zp := t_sel0 bv (l_nr v) in
    let* x := csub (zp + 1) (l_nr v) in
    let* pn := csub x 1 in
    let* s := t_sel1 bv (pn + 1) in Some (mkln pn s).
(* id, 172-174 *)
Definition l_id (v : lnode) : nat := l_nr v.
(* the node a user reaches from the root by child(v, i+1) for the numbers i of a path *)
Fixpoint l_walk (bv : list bool) (v : lnode) (p : list nat) : option lnode :=
  match p with [] => Some v | i :: p' => let* w := l_child bv v (i + 1) in l_walk bv w p' end.
