(** * C61: the suffix tree iterators visit the nodes in depth first, bottom up and breadth first order *)
From Coq Require Import NArith List Bool Arith Lia Sorted.
From Verif Require Import Base AbsVec WtBase Bp BpRmq SpecCst SpecCstIter Cst CstIter CstIterProofs CstIterProofs2 PropCst.
Import ListNotations.
Open Scope nat_scope.

(** The loop from begin(v) to end(v) shows the depth first tour of the subtree of v, whatever the uninitialised stack sizes
    hold.  Missing for the full statement: trees of one row (refuted below) and arrays of more than 2^32 rows, where the 32 bit
    depth counter can wrap. *)
Theorem C61_dfs_partial : forall g B deg A sa c, B mod 8 = 0 -> 0 < B -> 2 <= deg -> lcp_ok A -> cst_make B deg A (zero_count A) sa = Some c ->
  2 <= length A -> (N.of_nat (length A) <= 2 ^ 32)%N ->
  forall i j w junk junk', lcp_interval A i j -> mknode g B deg c i j = Some w ->
  exists b e l, dfs_begin c w junk = Some b /\ dfs_end g B deg c w junk' = Some e /\ tour A i j l /\
    forall fuel, length l < fuel -> dfs_collect g B deg c fuel b e = Some l.
Proof. intros. eapply dfs_ok; eauto. Qed.
Print Assumptions C61_dfs_partial.
(** skip_subtree: after any calls of ++ and skip_subtree(), at a node not yet visited, skip_subtree() and one ++ lead to the
    place where ++ alone leads after the whole tour of the subtree *)
Theorem C61_skip_partial : forall g B deg A sa c, B mod 8 = 0 -> 0 < B -> 2 <= deg -> lcp_ok A -> cst_make B deg A (zero_count A) sa = Some c ->
  2 <= length A -> (N.of_nat (length A) <= 2 ^ 32)%N ->
  forall junk r ops, root c = Some r -> exists b it, dfs_begin c r junk = Some b /\ dfs_run g B deg c ops b = Some it /\
  (d_val it = true -> exists i j, lcp_interval A i j /\ lb (d_v it) = i /\ rb (d_v it) = j /\
     (d_vis it = false -> exists l x y, tour A i j l /\ dfs_run g B deg c (repeat false (length l)) it = Some x /\
        dfs_next g B deg c (dfs_skip it) = Some y /\ dfs_eqb x y = true)).
Proof. intros. eapply skip_ok; eauto. Qed.
Print Assumptions C61_skip_partial.
(** a tour names every inner node of the subtree exactly twice and every leaf exactly once *)
Theorem C61_tour_all : forall A, lcp_ok A -> forall i j l, lcp_interval A i j -> tour A i j l ->
  NoDup l /\ forall a b v, In (a, b, v) l <-> lcp_interval A a b /\ inside a b i j /\ (v = true -> a < b).
Proof.
  intros A OK i j l H T. destruct (C58_construct 8 2 A [] ltac:(lia) ltac:(lia) OK) as (c & MK).
  apply (tour_all (fun _ => true) 8 2 eq_refl ltac:(lia) ltac:(lia) A [] OK c MK (S (j - i))); auto.
Qed.
Print Assumptions C61_tour_all.
(** bottom up: every node behind its children *)
Theorem C61_bottom_up : forall g B deg A sa c, B mod 8 = 0 -> 0 < B -> 2 <= deg -> lcp_ok A -> cst_make B deg A (zero_count A) sa = Some c ->
  exists b e l, bup_begin g B deg c = Some b /\ bup_end c = Some e /\ post A 0 (length A - 1) l /\
    forall fuel, length l < fuel -> bup_collect g B deg c fuel b e = Some l.
Proof. intros. eapply bup_ok; eauto. Qed.
Print Assumptions C61_bottom_up.
Theorem C61_post_all : forall A, lcp_ok A -> forall i j l, lcp_interval A i j -> post A i j l ->
  NoDup l /\ forall a b, In (a, b) l <-> lcp_interval A a b /\ inside a b i j.
Proof.
  intros A OK i j l H T. destruct (C58_construct 8 2 A [] ltac:(lia) ltac:(lia) OK) as (c & MK).
  apply (post_all (fun _ => true) 8 2 eq_refl ltac:(lia) ltac:(lia) A [] OK c MK (S (j - i))); auto.
Qed.
Print Assumptions C61_post_all.
(** breadth first: level by level from any start node *)
Theorem C61_bfs : forall g B deg A sa c, B mod 8 = 0 -> 0 < B -> 2 <= deg -> lcp_ok A -> cst_make B deg A (zero_count A) sa = Some c ->
  forall i j w, lcp_interval A i j -> mknode g B deg c i j = Some w ->
  exists l, levels A [(i, j)] l /\ forall fuel, length l < fuel -> bfs_collect g B deg c fuel (bfs_begin w) bfs_end = Some l.
Proof. intros. eapply bfs_ok; eauto. Qed.
Print Assumptions C61_bfs.
(** finding: in the tree of the empty text, whose only row is root and leaf, the leaf is visited twice *)
Theorem C61_dfs_single_refuted : exists B deg A sa c r b e l, B mod 8 = 0 /\ 0 < B /\ 2 <= deg /\ lcp_ok A /\ cst_make B deg A (zero_count A) sa = Some c /\
  root c = Some r /\ dfs_begin c r 0 = Some b /\ dfs_end (fun _ => true) B deg c r 0 = Some e /\
  dfs_collect (fun _ => true) B deg c 9 b e = Some l /\ ~ tour A 0 0 l.
Proof.
  destruct (cst_make 8 2 [0%N] 1 [0]) as [c|] eqn:E; [|vm_compute in E; discriminate]. vm_compute in E. injection E as <-.
  exists 8, 2, [0%N], [0]. eexists. eexists. eexists. eexists. exists [(0, 0, false); (0, 0, true)].
  split; [reflexivity|]. split; [lia|]. split; [lia|]. split; [split; [cbn; lia|split; [reflexivity|split; [cbn; lia|repeat constructor; vm_compute; discriminate]]]|].
  split; [vm_compute; reflexivity|]. split; [vm_compute; reflexivity|]. split; [vm_compute; reflexivity|]. split; [vm_compute; reflexivity|]. split; [vm_compute; reflexivity|].
  intros T. inversion T. lia.
Qed.
Print Assumptions C61_dfs_single_refuted.

(** a case that meets the hypotheses: abracadabra *)
Local Notation gg := (fun _ => true).
Example iter_demo_hyp : 2 <= length cst_A /\ (N.of_nat (length cst_A) <= 2 ^ 32)%N.
Proof. split; [cbn; lia|vm_compute; discriminate]. Qed.
Example iter_demo_dfs : cst_demo (fun c => let* v := mknode gg 8 2 c 1 5 in let* b := dfs_begin c v 77 in let* e := dfs_end gg 8 2 c v 3 in dfs_collect gg 8 2 c 50 b e) =
  Some [(1, 5, false); (1, 1, false); (2, 3, false); (2, 2, false); (3, 3, false); (2, 3, true); (4, 4, false); (5, 5, false); (1, 5, true)].
Proof. vm_compute. reflexivity. Qed.
Example iter_demo_root : cst_demo (fun c => let* v := root c in let* b := dfs_begin c v 77 in let* e := dfs_end gg 8 2 c v 3 in let* l := dfs_collect gg 8 2 c 50 b e in Some (length l)) = Some 22.
Proof. vm_compute. reflexivity. Qed.
Example iter_demo_skip : cst_demo (fun c => let* v := root c in let* b := dfs_begin c v 77 in
  let* it := dfs_run gg 8 2 c [false; false; true; false] b in Some (lb (d_v it), rb (d_v it), d_vis it)) = Some (6, 7, false).
Proof. vm_compute. reflexivity. Qed.
Example iter_demo_bup : cst_demo (fun c => let* b := bup_begin gg 8 2 c in let* e := bup_end c in bup_collect gg 8 2 c 50 b e) =
  Some [(0, 0); (1, 1); (2, 2); (3, 3); (2, 3); (4, 4); (5, 5); (1, 5); (6, 6); (7, 7); (6, 7); (8, 8); (9, 9); (10, 10); (11, 11); (10, 11); (0, 11)].
Proof. vm_compute. reflexivity. Qed.
Example iter_demo_bfs : cst_demo (fun c => let* v := root c in bfs_collect gg 8 2 c 50 (bfs_begin v) bfs_end) =
  Some [(0, 11); (0, 0); (1, 5); (6, 7); (8, 8); (9, 9); (10, 11); (1, 1); (2, 3); (4, 4); (5, 5); (6, 6); (7, 7); (10, 10); (11, 11); (2, 2); (3, 3)].
Proof. vm_compute. reflexivity. Qed.
