(** * C58: the suffix tree cst_sct3 navigates the intervals of the LCP array *)
From Coq Require Import NArith List Bool Arith Lia.
From Verif Require Import Base AbsVec WtBase Bp BpRmq SpecCst Cst CstProofs6 CstProofs7.
Import ListNotations.
Open Scope nat_scope.

(** In all theorems: g gives the bits behind the last bit of a vector, B and deg are the block parameters of the parentheses
    support, A is the LCP array, sa the suffix array, and the alphabet size handed to the tree is the number of zeros of A.
    Nodes are written as node(lb, rb). *)
(** the construction never meets undefined behaviour; it yields the root and the leaves *)
Theorem C58_construct : forall B deg A sa, 0 < B -> 2 <= deg -> lcp_ok A -> exists c, cst_make B deg A (zero_count A) sa = Some c.
Proof. intros B deg A sa HB0 Hd OK. destruct (make_some B deg HB0 Hd A sa OK) as (c & bp & t & fc & nodes & E & _). exists c. exact E. Qed.
Print Assumptions C58_construct.
Theorem C58_root_leaves : forall g B deg A sa c, B mod 8 = 0 -> 0 < B -> 2 <= deg -> lcp_ok A -> cst_make B deg A (zero_count A) sa = Some c ->
  (root c = mknode g B deg c 0 (length A - 1) /\ lcp_interval A 0 (length A - 1) /\ root c <> None) /\
  (forall i, i < length A -> select_leaf g B deg c (i + 1) = mknode g B deg c i i /\ lcp_interval A i i /\ mknode g B deg c i i <> None).
Proof. intros. split; [eapply p_root; eauto|intros; eapply p_leaf; eauto]. Qed.
Print Assumptions C58_root_leaves.
(** lb, rb, size, is_leaf, leftmost_leaf, rightmost_leaf *)
Theorem C58_node : forall g B deg A sa c, B mod 8 = 0 -> 0 < B -> 2 <= deg -> lcp_ok A -> cst_make B deg A (zero_count A) sa = Some c ->
  forall i j, lcp_interval A i j -> exists w, mknode g B deg c i j = Some w /\ lb w = i /\ rb w = j /\ node_size w = Some (j - i + 1) /\ is_leaf w = (i =? j) /\
    leftmost_leaf g B deg c w = mknode g B deg c i i /\ rightmost_leaf g B deg c w = mknode g B deg c j j.
Proof. intros. eapply p_node; eauto. Qed.
Print Assumptions C58_node.
(** parent: the smallest node strictly around; the root is its own parent *)
Theorem C58_parent : forall g B deg A sa c, B mod 8 = 0 -> 0 < B -> 2 <= deg -> lcp_ok A -> cst_make B deg A (zero_count A) sa = Some c ->
  (forall i j w, lcp_interval A i j -> mknode g B deg c i j = Some w -> (i, j) <> (0, length A - 1) ->
     exists i' j' w', parent g B deg c w = Some w' /\ mknode g B deg c i' j' = Some w' /\ parent_of A i j i' j') /\
  (forall w, root c = Some w -> parent g B deg c w = Some w).
Proof. intros. split; [intros; eapply p_parent; eauto|intros; eapply p_parent_root; eauto]. Qed.
Print Assumptions C58_parent.
(** degree and select_child: the children, in order, cover the node without gaps, have it as their parent, and are all such
    nodes; behind the last one select_child returns the root *)
Theorem C58_children : forall g B deg A sa c, B mod 8 = 0 -> 0 < B -> 2 <= deg -> lcp_ok A -> cst_make B deg A (zero_count A) sa = Some c ->
  forall i j w, lcp_interval A i j -> i < j -> mknode g B deg c i j = Some w -> exists l, lcp_value A i j l /\
  let b := borders A i j l in let dg := length b - 1 in 2 <= dg /\ degree g c w = Some dg /\
  (forall q, 1 <= q <= dg -> nth (q - 1) b 0 < nth q b 0 /\ lcp_interval A (nth (q - 1) b 0) (nth q b 0 - 1) /\ parent_of A (nth (q - 1) b 0) (nth q b 0 - 1) i j /\
     exists w', select_child g B deg c w q = Some w' /\ mknode g B deg c (nth (q - 1) b 0) (nth q b 0 - 1) = Some w') /\
  (forall q, dg < q -> select_child g B deg c w q = root c) /\
  (forall i' j', lcp_interval A i' j' -> parent_of A i' j' i j -> exists q, 1 <= q <= dg /\ i' = nth (q - 1) b 0 /\ j' = nth q b 0 - 1).
Proof. intros. eapply p_children; eauto. Qed.
Print Assumptions C58_children.
Theorem C58_leaf_children : forall g B deg A sa c, B mod 8 = 0 -> 0 < B -> 2 <= deg -> lcp_ok A -> cst_make B deg A (zero_count A) sa = Some c ->
  forall i w, i < length A -> mknode g B deg c i i = Some w -> degree g c w = Some 0 /\ forall q, select_child g B deg c w q = root c.
Proof. intros. eapply p_leaf_degree; eauto. Qed.
Print Assumptions C58_leaf_children.
(** sibling: the node with the same parent that starts behind; the root behind the last child *)
Theorem C58_sibling : forall g B deg A sa c, B mod 8 = 0 -> 0 < B -> 2 <= deg -> lcp_ok A -> cst_make B deg A (zero_count A) sa = Some c ->
  forall i j w x y, lcp_interval A i j -> mknode g B deg c i j = Some w -> parent_of A i j x y -> (i, j) <> (0, length A - 1) ->
  (j = y -> sibling g B deg c w = root c) /\
  (j < y -> exists e w', sibling g B deg c w = Some w' /\ mknode g B deg c (j + 1) e = Some w' /\ lcp_interval A (j + 1) e /\ parent_of A (j + 1) e x y).
Proof. intros. eapply p_sibling; eauto. Qed.
Print Assumptions C58_sibling.
(** lca: the smallest node around both *)
Theorem C58_lca : forall g B deg A sa c, B mod 8 = 0 -> 0 < B -> 2 <= deg -> lcp_ok A -> cst_make B deg A (zero_count A) sa = Some c ->
  forall i j k l v w, lcp_interval A i j -> lcp_interval A k l -> mknode g B deg c i j = Some v -> mknode g B deg c k l = Some w ->
  exists x y u, lca g B deg c v w = Some u /\ mknode g B deg c x y = Some u /\ lca_of A i j k l x y.
Proof. intros. eapply p_lca; eauto. Qed.
Print Assumptions C58_lca.
(** depth: the length of the suffix for a leaf, the minimum of the LCP values inside for an inner node *)
Theorem C58_depth : forall g B deg A sa c, B mod 8 = 0 -> 0 < B -> 2 <= deg -> lcp_ok A -> cst_make B deg A (zero_count A) sa = Some c ->
  (forall i w, i < length A -> length sa = length A -> nth i sa 0 <= length A -> mknode g B deg c i i = Some w -> depth_ g B deg c w = Some (N.of_nat (length A - nth i sa 0))) /\
  (forall i j w, lcp_interval A i j -> i < j -> mknode g B deg c i j = Some w -> exists l, depth_ g B deg c w = Some l /\ lcp_value A i j l).
Proof. intros. split; [intros; eapply p_depth_leaf; eauto|intros; eapply p_depth; eauto]. Qed.
Print Assumptions C58_depth.
(** node_depth: the number of edges to the root; the loop ends after at most size() steps *)
Theorem C58_node_depth : forall g B deg A sa c, B mod 8 = 0 -> 0 < B -> 2 <= deg -> lcp_ok A -> cst_make B deg A (zero_count A) sa = Some c ->
  forall i j w fuel, lcp_interval A i j -> mknode g B deg c i j = Some w -> length A <= fuel -> exists e, node_depth g B deg c fuel w = Some e /\ level A i j e.
Proof. intros. eapply p_node_depth; eauto. Qed.
Print Assumptions C58_node_depth.
(** id and inv_id are inverse bijections between the nodes and [0, nodes()) *)
Theorem C58_ids : forall g B deg A sa c, B mod 8 = 0 -> 0 < B -> 2 <= deg -> lcp_ok A -> cst_make B deg A (zero_count A) sa = Some c ->
  (forall i j w, lcp_interval A i j -> mknode g B deg c i j = Some w -> exists id, node_id c w = Some id /\ id < c_nodes c /\ inv_id g B deg c id = Some w) /\
  (forall id, id < c_nodes c -> exists i j w, inv_id g B deg c id = Some w /\ mknode g B deg c i j = Some w /\ lcp_interval A i j /\ node_id c w = Some id).
Proof. intros. split; [intros; eapply p_id; eauto|intros; eapply p_inv_id; eauto]. Qed.
Print Assumptions C58_ids.
(** tlcp_idx: rows with the same index have the same LCP value, so storing one value per index loses nothing *)
Theorem C58_tlcp_idx : forall g B deg A sa c, B mod 8 = 0 -> 0 < B -> 2 <= deg -> lcp_ok A -> cst_make B deg A (zero_count A) sa = Some c ->
  exists f, (forall i, i < length A -> tlcp_idx g B deg c i = Some (f i)) /\ forall i i', i < length A -> i' < length A -> f i = f i' -> nth i A 0%N = nth i' A 0%N.
Proof. intros. eapply p_tlcp; eauto. Qed.
Print Assumptions C58_tlcp_idx.

(** abracadabra$ *)
Definition cst_A : list N := [0;0;1;4;1;1;0;3;0;0;0;2]%N.
Definition cst_sa := [11;10;7;0;3;5;8;1;4;6;9;2].
Example cst_A_ok : lcp_ok cst_A /\ zero_count cst_A = 6.
Proof. split; [|reflexivity]. split; [cbn; lia|]. split; [reflexivity|]. split; [reflexivity|]. unfold cst_A. repeat constructor; vm_compute; discriminate. Qed.
Definition cst_demo {X} (f : cst -> option X) : option X := let* c := cst_make 8 2 cst_A 6 cst_sa in f c.
Definition pr (w : option node) : option (nat * nat) := let* w := w in Some (lb w, rb w).
Local Notation gg := (fun _ => true).
Example cst_demo_nodes : cst_demo (fun c => Some (c_nodes c)) = Some 17.
Proof. vm_compute. reflexivity. Qed.
Example cst_demo_inv : cst_demo (fun c => Some (map (fun id => pr (inv_id gg 8 2 c id)) (seq 12 5))) =
  Some [Some (2, 3); Some (1, 5); Some (6, 7); Some (10, 11); Some (0, 11)].
Proof. vm_compute. reflexivity. Qed.
Example cst_demo_parent : cst_demo (fun c => Some (map (fun q => let* w := mknode gg 8 2 c (fst q) (snd q) in pr (parent gg 8 2 c w)) [(3, 3); (2, 3); (5, 5); (7, 7); (8, 8); (1, 5)])) =
  Some [Some (2, 3); Some (1, 5); Some (1, 5); Some (6, 7); Some (0, 11); Some (0, 11)].
Proof. vm_compute. reflexivity. Qed.
Example cst_demo_child : cst_demo (fun c => let* w := mknode gg 8 2 c 1 5 in let* d := degree gg c w in Some (d, map (fun q => pr (select_child gg 8 2 c w q)) [1; 2; 3; 4; 5])) =
  Some (4, [Some (1, 1); Some (2, 3); Some (4, 4); Some (5, 5); Some (0, 11)]).
Proof. vm_compute. reflexivity. Qed.
Example cst_demo_lca : cst_demo (fun c => let* v := mknode gg 8 2 c 3 3 in let* w := mknode gg 8 2 c 5 5 in let* u := mknode gg 8 2 c 10 10 in
  Some (pr (lca gg 8 2 c v w), pr (lca gg 8 2 c w u), pr (sibling gg 8 2 c v), pr (sibling gg 8 2 c w))) = Some (Some (1, 5), Some (0, 11), Some (0, 11), Some (0, 11)).
Proof. vm_compute. reflexivity. Qed.
Example cst_demo_depth : cst_demo (fun c => let* v := mknode gg 8 2 c 2 3 in let* w := mknode gg 8 2 c 7 7 in let* x := depth_ gg 8 2 c v in let* y := depth_ gg 8 2 c w in
  let* d := node_depth gg 8 2 c 12 w in Some (x, y, d)) = Some (4%N, 11%N, 2).
Proof. vm_compute. reflexivity. Qed.
