(** * LOUDS: the bit sequence of the breadth-first order and its navigation *)
From Coq Require Import NArith List Arith Bool Lia.
From Verif Require Import Base SpecBits RankSelect AbsVec WtBase WtProofs SpecTree Louds.
Import ListNotations.

Fixpoint rt_rect2 (P : rt -> Prop) (H : forall l, Forall P l -> P (Nd l)) (t : rt) : P t :=
  match t with Nd l => H l ((fix go (l : list rt) : Forall P l := match l with [] => Forall_nil P | u :: l' => Forall_cons u (rt_rect2 P H u) (go l') end) l) end.
Lemma lsc : forall a l, list_sum (a :: l) = a + list_sum l. Proof. reflexivity. Qed.
Ltac sm := cbn [map length] in *; rewrite ?lsc in *.
Notation deg v := (length (kids v)).
Notation ssum q := (list_sum (map nodes_of q)).
Lemma ssum_app : forall a b, ssum (a ++ b) = ssum a + ssum b.
Proof. intros. rewrite map_app, list_sum_app. auto. Qed.
Lemma nodes_kids : forall v, nodes_of v = S (ssum (kids v)). Proof. intros [l]. auto. Qed.
Lemma leaves_pos : forall t, 0 < leaves_of t.
Proof. apply rt_rect2. intros [|u l] F; cbn [leaves_of]; [lia|]. inversion F; subst. sm. lia. Qed.
Lemma branching_size : forall t, branching t -> nodes_of t + 1 <= 2 * leaves_of t.
Proof.
  apply (rt_rect2 (fun t => branching t -> nodes_of t + 1 <= 2 * leaves_of t)). intros l F [L B].
  assert (H : ssum l + length l <= 2 * list_sum (map leaves_of l)). { clear L. induction l as [|u l IH]; auto. inversion F; subst. destruct B as [B1 B2]. specialize (H1 B1). specialize (IH H2 B2). sm. lia. }
  cbn [nodes_of leaves_of]. destruct l as [|u [|u' l]]; cbn [length] in *; [cbn; lia|lia|lia].
Qed.

(** ** Breadth-first order *)
Fixpoint bfs (fuel : nat) (q : list rt) : list rt :=
  match fuel with 0 => [] | S f => match q with [] => [] | v :: q' => v :: bfs f (q' ++ kids v) end end.
Definition dsum (B : list rt) (k : nat) : nat := list_sum (map (fun v => deg v) (firstn k B)).
Lemma ssum_step : forall v q f, ssum (v :: q) <= S f -> ssum (q ++ kids v) <= f.
Proof. intros v q f. rewrite ssum_app. sm. rewrite nodes_kids. lia. Qed.
Lemma bfs_prefix : forall fuel q k v, ssum q <= fuel -> nth_error q k = Some v -> nth_error (bfs fuel q) k = Some v.
Proof.
  induction fuel as [|f IH]; intros q k v H E.
  - destruct q as [|u q]; [destruct k; discriminate|]. sm. rewrite nodes_kids in H. lia.
  - destruct q as [|u q]; [destruct k; discriminate|]. cbn [bfs]. destruct k; auto. cbn [nth_error] in *. apply IH. { apply ssum_step. auto. } rewrite nth_error_app1; auto. apply nth_error_Some. congruence.
Qed.
Lemma bfs_len : forall fuel q, ssum q <= fuel -> length (bfs fuel q) = ssum q.
Proof.
  induction fuel as [|f IH]; intros q H. { destruct q as [|u q]; auto. sm. rewrite nodes_kids in H. lia. }
  destruct q as [|u q]; auto. cbn [bfs length]. rewrite IH by (apply ssum_step; auto). rewrite ssum_app. sm. rewrite nodes_kids. lia.
Qed.
Lemma bfs_deg : forall fuel q, ssum q <= fuel -> length (bfs fuel q) = length q + list_sum (map (fun v => deg v) (bfs fuel q)).
Proof.
  induction fuel as [|f IH]; intros q H. { destruct q as [|u q]; auto. sm. rewrite nodes_kids in H. lia. }
  destruct q as [|u q]; auto. cbn [bfs]. sm. rewrite IH by (apply ssum_step; auto). rewrite app_length. lia.
Qed.
Lemma bfs_child : forall fuel q k v i u, ssum q <= fuel -> nth_error (bfs fuel q) k = Some v -> nth_error (kids v) i = Some u ->
  nth_error (bfs fuel q) (length q + dsum (bfs fuel q) k + i) = Some u.
Proof.
  induction fuel as [|f IH]; intros q k v i u H K I; [destruct k; discriminate|]. destruct q as [|w q]; [destruct k; discriminate|]. cbn [bfs] in *. pose proof (ssum_step _ _ _ H) as H'. destruct k as [|k].
  - cbn [nth_error] in K. injection K as ->. change (dsum (v :: bfs f (q ++ kids v)) 0) with 0. cbn [length]. replace (S (length q) + 0 + i) with (S (length q + i)) by lia. cbn [nth_error]. apply bfs_prefix; auto. rewrite nth_error_app2 by lia. rewrite <- I. f_equal. lia.
  - cbn [nth_error] in K. pose proof (IH _ _ _ _ _ H' K I) as R. rewrite app_length in R. unfold dsum in *. cbn [firstn]. sm.
    replace (S (length q) + (deg w + list_sum (map (fun v => deg v) (firstn k (bfs f (q ++ kids w))))) + i) with (S (length q + deg w + list_sum (map (fun v => deg v) (firstn k (bfs f (q ++ kids w)))) + i)) by lia. cbn [nth_error]. auto.
Qed.
Lemma dsum_S : forall B k v, nth_error B k = Some v -> dsum B (S k) = dsum B k + deg v.
Proof. induction B as [|w B IH]; intros [|k] v E; cbn in E; try discriminate. { injection E as ->. cbn. lia. } unfold dsum in *. cbn [firstn]. sm. specialize (IH _ _ E). cbn [firstn] in IH. cbn [firstn] in *. destruct B; [destruct k; discriminate|]. lia. Qed.
Lemma dsum_mono : forall B a b, a <= b -> dsum B a <= dsum B b.
Proof. intros B a b H. induction H as [|b H IH]; auto. destruct (nth_error B b) eqn:E. { rewrite (dsum_S _ _ _ E). lia. } unfold dsum in *. apply nth_error_None in E. rewrite (firstn_all2 (n := b)) in IH by auto. rewrite (firstn_all2 (n := S b)) by lia. auto. Qed.
Lemma dsum_all : forall B, dsum B (length B) = list_sum (map (fun v => deg v) B).
Proof. intros. unfold dsum. rewrite firstn_all. auto. Qed.

(** ** The bit sequence *)
Fixpoint louds (B : list rt) : list bool := match B with [] => [] | v :: B' => (true :: repeat false (deg v)) ++ louds B' end.
Lemma louds_len : forall B, length (louds B) = length B + list_sum (map (fun v => deg v) B).
Proof. induction B as [|v B IH]; auto. cbn [louds app]. sm. rewrite app_length, repeat_length, IH. lia. Qed.
Lemma louds_app : forall A B, louds (A ++ B) = louds A ++ louds B.
Proof. induction A as [|v A IH]; intros B; auto. cbn [app louds]. rewrite IH. rewrite app_assoc. auto. Qed.
Lemma louds_split : forall B k v, nth_error B k = Some v -> louds B = louds (firstn k B) ++ (true :: repeat false (deg v)) ++ louds (skipn (S k) B).
Proof. intros B k v E. change ((true :: repeat false (deg v)) ++ louds (skipn (S k) B)) with (louds (v :: skipn (S k) B)). rewrite <- louds_app. f_equal. rewrite <- (firstn_skipn k B) at 1. f_equal. revert B E. induction k; intros [|w B] E; cbn in *; try discriminate; auto. congruence. Qed.
Lemma firstn_louds_len : forall B k v, nth_error B k = Some v -> length (louds (firstn k B)) = k + dsum B k.
Proof. intros B k v E. rewrite louds_len. unfold dsum. f_equal. apply firstn_length_le. apply Nat.lt_le_incl. apply nth_error_Some. congruence. Qed.
Lemma rank_louds : forall B X, rank_of (t_bit (louds B ++ X)) (length (louds B)) = length B.
Proof.
  induction B as [|v B IH]; intros X; auto. cbn [louds]. rewrite <- app_assoc. set (b := true :: repeat false (deg v)). rewrite app_length. rewrite rank_of_add.
  rewrite (rank_of_ext (fun j => t_bit (b ++ louds B ++ X) (length b + j)) (t_bit (louds B ++ X))). 2: { intros j _. unfold t_bit. rewrite app_nth2 by lia. f_equal. lia. }
  rewrite IH. cbn [length]. change (S (length B)) with (1 + length B). f_equal. unfold b. cbn [length]. rewrite repeat_length. change (S (deg v)) with (1 + deg v). rewrite rank_of_add. rewrite (rank_of_ext (fun j => t_bit _ (1 + j)) (fun _ => false)). { rewrite rank_of_const_false. reflexivity. }
  intros j J. unfold t_bit. cbn [Nat.add app nth]. rewrite app_nth1 by (rewrite repeat_length; auto). apply nth_repeat.
Qed.
Section Bits.
Variables (B : list rt) (k : nat) (v : rt).
Hypothesis K : nth_error B k = Some v.
Let o := k + dsum B k.
Lemma rank_block : forall i, i <= deg v -> rank_of (t_bit (louds B)) (o + 1 + i) = k + 1 /\ rank_of (t_bit (louds B)) o = k.
Proof.
  intros i I. assert (R0 : rank_of (t_bit (louds B)) o = k). { unfold o. rewrite <- (firstn_louds_len B k v K). rewrite (louds_split B k v K). rewrite rank_louds. apply firstn_length_le. apply Nat.lt_le_incl. apply nth_error_Some. congruence. }
  split; auto. replace (o + 1 + i) with (o + (1 + i)) by lia. rewrite rank_of_add, R0. f_equal. rewrite rank_of_add. rewrite (rank_of_ext (fun j => t_bit (louds B) (o + (1 + j))) (fun _ => false)).
  - rewrite rank_of_const_false, rank_of_S, rank_of_0. rewrite Nat.add_0_r. unfold t_bit. rewrite (louds_split B k v K). rewrite app_nth2 by (rewrite (firstn_louds_len B k v K); unfold o; lia). rewrite (firstn_louds_len B k v K). unfold o. rewrite Nat.add_0_r, Nat.sub_diag. auto.
  - intros j J. unfold t_bit. rewrite (louds_split B k v K). rewrite app_nth2 by (rewrite (firstn_louds_len B k v K); unfold o; lia). rewrite (firstn_louds_len B k v K). unfold o. replace (k + dsum B k + (1 + j) - (k + dsum B k)) with (S j) by lia. cbn [app nth]. rewrite app_nth1 by (rewrite repeat_length; lia). apply nth_repeat.
Qed.
Lemma bit_one : t_bit (louds B) o = true.
Proof. unfold t_bit. rewrite (louds_split B k v K). rewrite app_nth2 by (rewrite (firstn_louds_len B k v K); unfold o; lia). rewrite (firstn_louds_len B k v K). unfold o. rewrite Nat.sub_diag. auto. Qed.
Lemma bit_zero : forall i, i < deg v -> t_bit (louds B) (o + 1 + i) = false.
Proof. intros i I. unfold t_bit. rewrite (louds_split B k v K). rewrite app_nth2 by (rewrite (firstn_louds_len B k v K); unfold o; lia). rewrite (firstn_louds_len B k v K). unfold o. replace (k + dsum B k + 1 + i - (k + dsum B k)) with (S i) by lia. cbn [app nth]. rewrite app_nth1 by (rewrite repeat_length; lia). apply nth_repeat. Qed.
Lemma block_in : o + deg v < length (louds B).
Proof. rewrite (louds_split B k v K). rewrite !app_length, (firstn_louds_len B k v K). cbn [length]. rewrite repeat_length. unfold o. lia. Qed.
Lemma sel1 : t_sel1 (louds B) (k + 1) = Some o.
Proof. apply t_sel1_some. { split. { apply bit_one. } rewrite (proj2 (rank_block 0 ltac:(lia))). auto. } pose proof block_in. lia. Qed.
Lemma sel0 : forall i, i < deg v -> t_sel0 (louds B) (dsum B k + i + 1) = Some (o + 1 + i).
Proof. intros i I. apply t_sel0_some. { split. { rewrite bit_zero; auto. } rewrite rank_of_negb, (proj1 (rank_block i ltac:(lia))). unfold o. lia. } pose proof block_in. lia. Qed.
Lemma block_end : o + deg v + 1 = length (louds B) \/ exists v', nth_error B (S k) = Some v' /\ S k + dsum B (S k) = o + 1 + deg v.
Proof.
  destruct (nth_error B (S k)) as [v'|] eqn:E. { right. exists v'. split; auto. rewrite (dsum_S _ _ _ K). unfold o. lia. }
  left. apply nth_error_None in E. rewrite (louds_split B k v K). rewrite (skipn_all2 (n := S k)) by auto. cbn [louds]. rewrite !app_length, (firstn_louds_len B k v K). cbn [length]. rewrite repeat_length. unfold o. lia.
Qed.
End Bits.

(** ** The constructor *)
Lemma louds_loop_ok : forall fuel q D rem, ssum q < fuel -> length (louds (bfs fuel q)) <= rem ->
  louds_loop fuel q (length (louds D)) (louds D ++ repeat false rem) = Some (louds D ++ louds (bfs fuel q)).
Proof.
  induction fuel as [|f IH]; intros q D rem F R; [lia|]. cbn [louds_loop]. destruct q as [|v q].
  - cbn [bfs louds]. rewrite app_length. replace (length (louds D) - _) with 0 by lia. cbn [repeat]. rewrite !app_nil_r. rewrite firstn_app, firstn_all, Nat.sub_diag. cbn [firstn]. rewrite app_nil_r. auto.
  - cbn [bfs louds] in R. rewrite app_length in R. cbn [length] in R. rewrite repeat_length in R. rewrite aset_some by (rewrite app_length, repeat_length; lia). cbn [obind].
    rewrite (csub_some _ _ (deg v)) by (rewrite app_length; cbn [length]; lia). cbn [obind].
    destruct rem as [|rem]; [lia|]. assert (UP : upd (louds D ++ repeat false (S rem)) (length (louds D)) true = louds (D ++ [v]) ++ repeat false (rem - deg v)).
    { rewrite upd_app_r by lia. rewrite Nat.sub_diag. cbn [repeat upd]. rewrite louds_app. cbn [louds]. rewrite app_nil_r, <- app_assoc. f_equal. cbn [app]. f_equal. rewrite <- repeat_app. f_equal. lia. }
    rewrite UP. replace (length (louds D) + 1 + deg v) with (length (louds (D ++ [v]))). 2: { rewrite louds_app, app_length. cbn [louds]. rewrite app_nil_r. cbn [length]. rewrite repeat_length. lia. }
    rewrite IH. { cbn [bfs]. rewrite louds_app. cbn [louds]. rewrite app_nil_r, <- app_assoc. auto. } { rewrite ssum_app. sm. rewrite nodes_kids in F. lia. } lia.
Qed.
Lemma bfs_ge : forall fuel q k, ssum q <= fuel -> k < length (bfs fuel q) -> k < length q + dsum (bfs fuel q) k.
Proof.
  induction fuel as [|f IH]; intros q k H L; [cbn in L; lia|]. destruct q as [|v q]; [cbn in L; lia|]. destruct k as [|k]; [cbn; lia|]. cbn [bfs length] in *. pose proof (IH _ k (ssum_step _ _ _ H) ltac:(lia)) as R. rewrite app_length in R. unfold dsum in *. cbn [firstn]. sm. lia.
Qed.
Definition order (t : rt) : list rt := bfs (S (nodes_of t)) [t].
Lemma ssum1 : forall t, ssum [t] = nodes_of t. Proof. intros. cbn. lia. Qed.
Lemma order_len : forall t, length (order t) = nodes_of t.
Proof. intros. unfold order. rewrite bfs_len; rewrite ssum1; auto. Qed.
Lemma order_deg : forall t, dsum (order t) (length (order t)) + 1 = nodes_of t.
Proof. intros. rewrite dsum_all. pose proof (order_len t) as L. unfold order in *. pose proof (bfs_deg (S (nodes_of t)) [t] ltac:(rewrite ssum1; auto)) as D. cbn [length] in D. lia. Qed.
Lemma order_ge : forall t k, k < length (order t) -> k < 1 + dsum (order t) k.
Proof. intros t k K. apply (bfs_ge (S (nodes_of t)) [t] k); auto. rewrite ssum1. auto. Qed.
Lemma louds_order_len : forall t, length (louds (order t)) = 2 * nodes_of t - 1.
Proof. intros. rewrite louds_len, <- dsum_all. pose proof (order_deg t). rewrite order_len in *. lia. Qed.
Theorem louds_make_ok : forall t, branching t -> louds_make t = Some (louds (order t)).
Proof.
  intros t B. unfold louds_make. change 0 with (length (louds [])) at 1. change (repeat false (4 * leaves_of t)) with (louds [] ++ repeat false (4 * leaves_of t)). apply louds_loop_ok. { rewrite ssum1. lia. }
  fold (order t). rewrite louds_order_len. pose proof (branching_size t B). lia.
Qed.

(** ** Navigation *)
Section Nav.
Variable t : rt.
Notation B := (order t).
Notation bv := (louds B).
Definition node_at (k : nat) : lnode := mkln k (k + dsum B k).
Lemma root_at : nth_error B 0 = Some t. Proof. reflexivity. Qed.
Lemma child_at : forall k v i u, nth_error B k = Some v -> nth_error (kids v) i = Some u -> nth_error B (1 + dsum B k + i) = Some u.
Proof. intros k v i u K I. apply (bfs_child (S (nodes_of t)) [t] k v i u); auto. rewrite ssum1. auto. Qed.
Lemma is_leaf_ok : forall k v, nth_error B k = Some v -> l_is_leaf bv (node_at k) = Some (deg v =? 0).
Proof.
  intros k v K. unfold l_is_leaf, node_at, t_get. cbn [l_pos]. destruct (Nat.eqb_spec (k + dsum B k + 1) (length bv)) as [E|E].
  - pose proof (block_in B k v K). destruct (Nat.eqb_spec (deg v) 0); auto. lia.
  - assert (L : k + dsum B k + 1 < length bv) by (pose proof (block_in B k v K); lia). rewrite (nth_error_nth' _ false L). f_equal. destruct (Nat.eqb_spec (deg v) 0) as [Z|Z].
    + destruct (block_end B k v K) as [X|(v' & X & Y)]; [lia|]. pose proof (bit_one B (S k) v' X) as O. rewrite Y in O. rewrite Z, Nat.add_0_r in O. auto.
    + pose proof (bit_zero B k v K 0 ltac:(lia)) as O. rewrite Nat.add_0_r in O. auto.
Qed.
Lemma child_ok : forall k v i, nth_error B k = Some v -> i < deg v -> l_child bv (node_at k) (i + 1) = Some (node_at (1 + dsum B k + i)).
Proof.
  intros k v i K I. unfold l_child, node_at. cbn [l_pos l_nr]. rewrite (csub_some _ _ (1 + dsum B k + i)) by lia. cbn [obind].
  destruct (nth_error (kids v) i) as [u|] eqn:U. 2: { apply nth_error_None in U. lia. } rewrite (sel1 B _ u) by (eapply child_at; eauto). auto.
Qed.
Lemma degree_ok : forall k v, nth_error B k = Some v -> l_degree bv (node_at k) = Some (deg v).
Proof.
  intros k v K. unfold l_degree. rewrite (is_leaf_ok k v K). cbn [obind]. destruct (Nat.eqb_spec (deg v) 0) as [Z|Z]. { rewrite Z. auto. }
  destruct (block_end B k v K) as [X|(v' & X & Y)].
  - exfalso. destruct (nth_error (kids v) 0) as [u|] eqn:U. 2: { apply nth_error_None in U. lia. } pose proof (child_at k v 0 u K U) as C. pose proof (order_deg t) as OD. pose proof (order_len t).
    assert (NE : nth_error B (S k) = None). { apply nth_error_None. destruct (Nat.le_gt_cases (length B) (S k)) as [|G]; auto. exfalso. destruct (nth_error B (S k)) as [w|] eqn:W. 2: { apply nth_error_None in W. lia. } pose proof (block_in B (S k) w W) as BI. rewrite (dsum_S _ _ _ K) in BI. lia. }
    apply nth_error_None in NE. assert (1 + dsum B k + 0 < length B) by (apply nth_error_Some; congruence). pose proof (order_ge t k ltac:(apply nth_error_Some; congruence)). lia.
  - unfold node_at. cbn [l_nr l_pos]. replace (k + 2) with (S k + 1) by lia. rewrite (sel1 B (S k) v' X). cbn [obind]. rewrite Y. rewrite (csub_some _ _ (1 + deg v)) by lia. cbn [obind]. apply csub_some. lia.
Qed.
Lemma dsum_lt : forall k v, nth_error B k = Some v -> dsum B k + deg v < nodes_of t.
Proof. intros k v K. pose proof (order_deg t). rewrite <- (dsum_S _ _ _ K). assert (S k <= length B) by (apply nth_error_Some; congruence). pose proof (dsum_mono B (S k) (length B) H0). lia. Qed.
Lemma parent_ok : forall k v i, nth_error B k = Some v -> i < deg v -> l_parent bv (node_at (1 + dsum B k + i)) = Some (node_at k).
Proof.
  intros k v i K I. unfold l_parent. set (c := 1 + dsum B k + i). cbn [node_at l_nr l_pos]. destruct (Nat.eqb_spec c 0) as [Z|Z]; [unfold c in Z; lia|]. cbn [andb].
  unfold c at 1. replace (1 + dsum B k + i) with (dsum B k + i + 1) by lia. rewrite (sel0 B k v K i I). cbn [obind]. rewrite (csub_some _ _ (k + 1)) by (unfold c; lia). cbn [obind]. rewrite (csub_some _ _ k) by lia. cbn [obind]. rewrite (sel1 B k v K). auto.
Qed.
Lemma slot_inj : forall k v i k' v' i', nth_error B k = Some v -> i < deg v -> nth_error B k' = Some v' -> i' < deg v' -> dsum B k + i = dsum B k' + i' -> k = k' /\ i = i'.
Proof.
  assert (A : forall k v i k' i', nth_error B k = Some v -> i < deg v -> dsum B k + i = dsum B k' + i' -> ~ k < k'). { intros k v i k' i' K I E L. pose proof (dsum_mono B (S k) k' L) as M. rewrite (dsum_S _ _ _ K) in M. lia. }
  intros k v i k' v' i' K I K' I' E. assert (k = k'). { destruct (Nat.lt_trichotomy k k') as [H|[H|H]]; auto; exfalso; [eapply (A k v i k' i')|eapply (A k' v' i' k i)]; eauto. } subst k'. split; auto. lia.
Qed.
(* the number of the node a path leads to *)
Fixpoint num (k : nat) (p : list nat) : nat := match p with [] => k | i :: p' => num (1 + dsum B k + i) p' end.
Lemma num_ok : forall p k v u, nth_error B k = Some v -> sub_at v p = Some u -> nth_error B (num k p) = Some u /\ l_walk bv (node_at k) p = Some (node_at (num k p)).
Proof.
  induction p as [|i p IH]; intros k v u K E; cbn [sub_at num l_walk] in *. { injection E as ->. auto. } destruct (nth_error (kids v) i) as [w|] eqn:W; [|discriminate].
  rewrite (child_ok k v i K) by (apply nth_error_Some; congruence). cbn [obind]. eapply IH; eauto. eapply child_at; eauto.
Qed.
Lemma num_snoc : forall p k i, num k (p ++ [i]) = 1 + dsum B (num k p) + i.
Proof. induction p as [|a p IH]; intros k i; cbn [app num]; auto. Qed.
Lemma sub_snoc : forall p v i, sub_at v (p ++ [i]) = match sub_at v p with Some w => nth_error (kids w) i | None => None end.
Proof. induction p as [|a p IH]; intros v i; cbn [app sub_at]. { destruct (nth_error (kids v) i); auto. } destruct (nth_error (kids v) a); auto. Qed.
Lemma num_inj : forall p q u w, sub_at t p = Some u -> sub_at t q = Some w -> num 0 p = num 0 q -> p = q.
Proof.
  intros p. induction p as [|i p IH] using rev_ind; intros q u w P Q E.
  - destruct q as [|j q _] using rev_ind; auto. exfalso. rewrite num_snoc in E. cbn in E. lia.
  - destruct q as [|j q _] using rev_ind. { exfalso. rewrite num_snoc in E. cbn in E. lia. }
    rewrite sub_snoc in P, Q. destruct (sub_at t p) as [u'|] eqn:P'; [|discriminate]. destruct (sub_at t q) as [w'|] eqn:Q'; [|discriminate]. rewrite !num_snoc in E.
    destruct (slot_inj (num 0 p) u' i (num 0 q) w' j) as [A ->]; try (apply nth_error_Some; congruence); try lia. { apply (num_ok p 0 t u'); auto. } { apply (num_ok q 0 t w'); auto. } rewrite (IH q u' w'); auto.
Qed.
Lemma slot_ex : forall m z, m <= length B -> z < dsum B m -> exists k v i, nth_error B k = Some v /\ i < deg v /\ z = dsum B k + i /\ k < m.
Proof.
  induction m as [|m IH]; intros z M Z. { cbn in Z. lia. } destruct (nth_error B m) as [v|] eqn:E. 2: { apply nth_error_None in E. lia. } rewrite (dsum_S _ _ _ E) in Z.
  destruct (Nat.lt_ge_cases z (dsum B m)) as [L|L]. { destruct (IH z ltac:(lia) L) as (k & w & i & A & I & Q & K). exists k, w, i. split; auto. } exists m, v, (z - dsum B m). split; auto. lia.
Qed.
Lemma num_surj : forall k, k < nodes_of t -> exists p u, sub_at t p = Some u /\ num 0 p = k.
Proof.
  induction k as [k IH] using (well_founded_induction Wf_nat.lt_wf). intros K. destruct (Nat.eq_dec k 0) as [-> |Z]. { exists [], t. auto. }
  pose proof (order_deg t). destruct (slot_ex (length B) (k - 1)) as (k' & v & i & A & I & Q & L); auto; [lia|]. rewrite order_len in L. assert (k' < k). { pose proof (order_ge t k' ltac:(rewrite order_len; auto)). lia. }
  destruct (IH k' H0 L) as (p & u & P & N). destruct (num_ok p 0 t u root_at P) as [NB _]. rewrite N in NB. rewrite A in NB. injection NB as <-. destruct (nth_error (kids v) i) as [w|] eqn:W. 2: { apply nth_error_None in W. lia. }
  exists (p ++ [i]), w. rewrite sub_snoc, P, num_snoc, N. split; auto. lia.
Qed.
Hypothesis BR : branching t.
Variable lt : list bool.
Hypothesis MK : louds_make t = Some lt.
Lemma lt_eq : lt = bv. Proof. rewrite louds_make_ok in MK by auto. congruence. Qed.
Theorem nav_ok : forall p u, sub_at t p = Some u -> exists v, l_walk lt l_root p = Some v /\ l_degree lt v = Some (length (kids u)) /\ l_is_leaf lt v = Some (length (kids u) =? 0) /\ l_id v < nodes_of t.
Proof.
  intros p u P. destruct (num_ok p 0 t u root_at P) as [N W]. rewrite lt_eq. exists (node_at (num 0 p)). split; auto. split. { apply degree_ok. auto. } split. { apply is_leaf_ok. auto. } cbn. rewrite <- order_len. apply nth_error_Some. congruence.
Qed.
Theorem parent_nav : forall p i u, sub_at t (p ++ [i]) = Some u -> exists v w, l_walk lt l_root p = Some v /\ l_walk lt l_root (p ++ [i]) = Some w /\ l_child lt v (i + 1) = Some w /\ l_parent lt w = Some v.
Proof.
  intros p i u P. destruct (num_ok _ 0 t u root_at P) as [N W]. rewrite lt_eq. rewrite sub_snoc in P. destruct (sub_at t p) as [u'|] eqn:P'; [|discriminate]. destruct (num_ok p 0 t u' root_at P') as [N' W'].
  exists (node_at (num 0 p)), (node_at (num 0 (p ++ [i]))). split; auto. split; auto. rewrite num_snoc. assert (i < deg u') by (apply nth_error_Some; congruence). split. { eapply child_ok; eauto. } eapply parent_ok; eauto.
Qed.
Theorem id_inj : forall p q u u' v v', sub_at t p = Some u -> sub_at t q = Some u' -> l_walk lt l_root p = Some v -> l_walk lt l_root q = Some v' -> l_id v = l_id v' -> p = q.
Proof.
  intros p q u u' v v' P Q V V' E. destruct (num_ok p 0 t u root_at P) as [N W]. destruct (num_ok q 0 t u' root_at Q) as [N' W']. rewrite lt_eq in *. change l_root with (node_at 0) in *. rewrite W in V. rewrite W' in V'. injection V as <-. injection V' as <-. eapply num_inj; eauto.
Qed.
Theorem id_surj : forall k, k < nodes_of t -> exists p u v, sub_at t p = Some u /\ l_walk lt l_root p = Some v /\ l_id v = k.
Proof. intros k K. destruct (num_surj k K) as (p & u & P & N). exists p, u, (node_at (num 0 p)). split; auto. rewrite lt_eq. split; auto. apply (num_ok p 0 t u root_at P). Qed.
Theorem nodes_ok : l_nodes lt = nodes_of t.
Proof. rewrite lt_eq. unfold l_nodes. rewrite louds_order_len. rewrite nodes_kids. replace (2 * S (ssum (kids t)) - 1 + 1) with (S (ssum (kids t)) * 2) by lia. apply Nat.div_mul. lia. Qed.
Theorem root_parent : l_parent lt l_root = Some l_root. Proof. auto. Qed.
End Nav.
