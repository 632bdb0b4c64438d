(** * C47: k2_tree stores exactly the given relation

    [matrix_rel M x y]: matrix[x][y] is 1; [edge_rel E x y]: (x, y) is one of the edges (SpecK2.v).  [k] is the arity,
    [h] the height; the theorems hold for every height with size <= k^h (the code takes the rounded-up logarithm). *)
From Coq Require Import List Bool Arith Lia NArith.
From Verif Require Import Base SpecK2 K2Tree K2Proofs K2Build K2Sort K2Edges.
Import ListNotations.

(** ** Built from a matrix *)
Lemma cut_seq : forall (f : nat -> bool) n m, n <= m -> (forall x, n <= x -> f x = false) -> filter f (seq 0 m) = filter f (seq 0 n).
Proof. intros f n m L H. replace m with (n + (m - n)) by lia. rewrite seq_app, filter_app, (filter_none f (seq (0 + n) _)). apply app_nil_r. intros x X. apply in_seq in X. apply H. lia. Qed.
Lemma mrel_out : forall M x y, square M -> length M <= x \/ length M <= y -> matrix_rel M x y = false.
Proof.
  intros M x y SQ H. unfold matrix_rel. destruct (nth_error M x) as [row|] eqn:E; auto. assert (x < length M) by (apply nth_error_Some; congruence). rewrite (proj2 (nth_error_None row y)); auto. rewrite (SQ row (nth_error_In _ _ E)). lia.
Qed.
(** adj(i, j), neigh(i) and reverse_neigh(i) are exactly the relation; the lists are in increasing order, without duplicates *)
Theorem C47_matrix : forall k h M, 1 < k -> 1 <= h -> square M -> 1 <= length M <= k ^ h -> (N.of_nat k ^ N.of_nat h < 2 ^ 31)%N ->
  exists t, k2_from_matrix k h M = Some t /\
    (forall i j, i < k ^ h -> j < k ^ h -> k2_adj t i j = Some (matrix_rel M i j)) /\
    (forall i, i < k ^ h -> k2_neigh t i = Some (filter (fun j => matrix_rel M i j) (seq 0 (length M)))) /\
    (forall i, i < k ^ h -> k2_reverse_neigh t i = Some (filter (fun j => matrix_rel M j i) (seq 0 (length M)))).
Proof.
  intros k h M K H1 SQ L B. destruct (matrix_rep M k h K SQ) as (t & G & R); try lia. exists t. split; auto. destruct R as [R|R].
  - split; [|split].
    + intros. apply (rep_adj _ _ _ _ K R); auto.
    + intros i I. rewrite (rep_neigh _ _ _ _ K R i I). f_equal. apply cut_seq; [lia|]. intros x X. apply mrel_out; auto.
    + intros i I. rewrite (rep_rneigh _ _ _ _ K R i I). f_equal. apply (cut_seq (fun x => matrix_rel M x i)); [lia|]. intros x X. apply mrel_out; auto.
  - split; [|split].
    + intros. apply (r0_adj _ _ _ _ R).
    + intros. apply (r0_neigh _ _ _ _ R).
    + intros. apply (r0_rneigh _ _ _ _ R).
Qed.
Print Assumptions C47_matrix.
(** range reports exactly the pairs of the relation in the rectangle, each once, if the relation is not empty *)
Theorem C47_matrix_range : forall k h M, 1 < k -> 1 <= h -> square M -> 1 <= length M <= k ^ h -> (N.of_nat k ^ N.of_nat h < 2 ^ 31)%N ->
  (exists x y, matrix_rel M x y = true) ->
  exists t, k2_from_matrix k h M = Some t /\
    forall r1 r2 c1 c2, r1 <= r2 < k ^ h -> c1 <= c2 < k ^ h ->
      exists res, k2_range t r1 r2 c1 c2 = Some res /\ NoDup res /\
        forall x y, In (x, y) res <-> r1 <= x <= r2 /\ c1 <= y <= c2 /\ matrix_rel M x y = true.
Proof.
  intros k h M K H1 SQ L B (x & y & E). destruct (matrix_rep M k h K SQ) as (t & G & R); try lia. exists t. split; auto. destruct R as [R|R].
  - intros. apply (rep_range _ _ _ _ K R); auto.
  - destruct R as (_ & _ & _ & _ & _ & F). rewrite F in E. discriminate.
Qed.
Print Assumptions C47_matrix_range.
(** on a matrix without ones range reads k_l out of bounds *)
Theorem C47_range_empty_refuted : exists k h M t, 1 < k /\ 1 <= h /\ square M /\ 1 <= length M <= k ^ h /\ k2_from_matrix k h M = Some t /\ k2_range t 0 1 0 1 = None.
Proof.
  exists 2, 1, [[0; 0]; [0; 0]]. eexists. split; [lia|]. split; [lia|]. split. { intros row [<- | [<- | []]]; auto. } split; [cbn; lia|]. split; [vm_compute; reflexivity|].
  vm_compute. reflexivity.
Qed.
Print Assumptions C47_range_empty_refuted.

(** ** Built from a list of edges *)
(** the edges may be given in any order and repeatedly *)
Theorem C47_edges : forall k h size E, 1 < k -> 1 <= h -> size <= k ^ h -> E <> [] -> (forall u v, In (u, v) E -> u < size /\ v < size) ->
  exists t, k2_from_edges k h E = Some t /\
    (forall i j, i < size -> j < size -> k2_adj t i j = Some (edge_rel E i j)) /\
    (forall i, i < size -> k2_neigh t i = Some (filter (fun j => edge_rel E i j) (seq 0 size))) /\
    (forall i, i < size -> k2_reverse_neigh t i = Some (filter (fun j => edge_rel E j i) (seq 0 size))) /\
    (forall r1 r2 c1 c2, r1 <= r2 < size -> c1 <= c2 < size ->
       exists res, k2_range t r1 r2 c1 c2 = Some res /\ NoDup res /\
         forall x y, In (x, y) res <-> r1 <= x <= r2 /\ c1 <= y <= c2 /\ edge_rel E x y = true).
Proof.
  intros k h size E K H1 L NE R. destruct (edges_rep k h E K H1 NE) as (t & G & RP). { intros u v I. destruct (R u v I). lia. } exists t. split; auto.
  assert (OUT : forall x y, size <= x \/ size <= y -> edge_rel E x y = false).
  { intros x y H. destruct (edge_rel E x y) eqn:Q; auto. unfold edge_rel in Q. apply existsb_exists in Q. destruct Q as ([u v] & I & Q). apply andb_true_iff in Q. destruct Q as [Q1 Q2]. apply Nat.eqb_eq in Q1, Q2. cbn [fst snd] in *. destruct (R u v I). lia. }
  split; [|split; [|split]].
  - intros. apply (rep_adj _ _ _ _ K RP); lia.
  - intros i I. rewrite (rep_neigh _ _ _ _ K RP i) by lia. f_equal. apply (cut_seq (edge_rel E i)); auto.
  - intros i I. rewrite (rep_rneigh _ _ _ _ K RP i) by lia. f_equal. apply (cut_seq (fun x => edge_rel E x i)); auto.
  - intros. apply (rep_range _ _ _ _ K RP); lia.
Qed.
Print Assumptions C47_edges.
(** the two constructors build the same tree (k_t, k_l, k and height agree) *)
Theorem C47_constructors_agree : forall k h M E, 1 < k -> 1 <= h -> square M -> 1 <= length M <= k ^ h -> (N.of_nat k ^ N.of_nat h < 2 ^ 31)%N ->
  E <> [] -> (forall u v, In (u, v) E <-> matrix_rel M u v = true) ->
  exists t, k2_from_matrix k h M = Some t /\ k2_from_edges k h E = Some t.
Proof.
  intros k h M E K H1 SQ L B NE EQ.
  assert (R : forall u v, In (u, v) E -> u < length M /\ v < length M).
  { intros u v I. apply EQ in I. split. { destruct (Nat.lt_ge_cases u (length M)); auto. rewrite mrel_out in I; auto. discriminate. } destruct (Nat.lt_ge_cases v (length M)); auto. rewrite mrel_out in I; auto. discriminate. }
  destruct (edges_rep k h E K H1 NE) as (t & G & RP). { intros u v I. destruct (R u v I). lia. }
  destruct (matrix_rep M k h K SQ) as (t' & G' & RP'); try lia.
  assert (PE : forall x y, edge_rel E x y = matrix_rel M x y).
  { intros x y. apply eq_true_iff_eq. rewrite <- EQ. unfold edge_rel. rewrite existsb_exists. split.
    - intros ([u v] & I & Q). apply andb_true_iff in Q. destruct Q as [Q1 Q2]. apply Nat.eqb_eq in Q1, Q2. cbn [fst snd] in *. subst. auto.
    - intros I. exists (x, y). cbn [fst snd]. rewrite !Nat.eqb_refl. auto. }
  exists t. split; auto. rewrite G'. f_equal. destruct RP' as [RP'|RP'].
  2: { destruct RP' as (_ & _ & _ & _ & _ & F). destruct E as [|[u v] E]; [contradiction|]. pose proof (proj1 (EQ u v) ltac:(left; auto)). rewrite F in H. discriminate. }
  assert (NEQ : forall d rc, ne (edge_rel E) k d rc = ne (matrix_rel M) k d rc).
  { intros d [r c]. apply eq_true_iff_eq. rewrite !(ne_iff _ _ K). split; intros (x & y & X & Y & Q); exists x, y; [rewrite <- PE|rewrite PE]; auto. }
  assert (BEQ : forall d cs, bits (edge_rel E) k d cs = bits (matrix_rel M) k d cs) by (intros; unfold bits; apply map_ext; auto).
  assert (XEQ : forall d cs, next (edge_rel E) k d cs = next (matrix_rel M) k d cs) by (intros; unfold next; apply filter_ext; auto).
  assert (TEQ : forall d cs, tbits (edge_rel E) k d cs = tbits (matrix_rel M) k d cs) by (induction d as [|d IH]; intros cs; auto; cbn [tbits]; rewrite BEQ, XEQ, IH; auto).
  assert (LEQ : forall d cs, lbits (edge_rel E) k d cs = lbits (matrix_rel M) k d cs) by (induction d as [|d IH]; intros cs; cbn [lbits]; rewrite ?BEQ, ?XEQ, ?IH; auto).
  destruct RP as (A1 & A2 & A3 & A4 & A5). destruct RP' as (B1 & B2 & B3 & B4 & B5). destruct t as [a1 a2 a3 a4], t' as [b1 b2 b3 b4]. cbn [kt kl kk kh] in *. rewrite TEQ in A4. rewrite LEQ in A5. congruence.
Qed.
Print Assumptions C47_constructors_agree.

(** ** Examples *)
Definition k2_demo : list (nat * nat) := [(1, 2); (0, 3); (4, 0); (4, 4); (2, 2); (1, 2); (5, 1)].
Definition k2_demo_m : list (list nat) := [[0;0;0;1;0;0]; [0;0;1;0;0;0]; [0;0;1;0;0;0]; [0;0;0;0;0;0]; [1;0;0;0;1;0]; [0;1;0;0;0;0]].
Example C47_demo : (forall u v, In (u, v) k2_demo -> u < 6 /\ v < 6) /\ exists t, k2_from_edges 2 3 k2_demo = Some t /\ k2_from_matrix 2 3 k2_demo_m = Some t /\
  k2_adj t 4 4 = Some true /\ k2_adj t 3 3 = Some false /\ k2_neigh t 4 = Some [0; 4] /\ k2_reverse_neigh t 2 = Some [1; 2] /\
  k2_range t 1 4 0 2 = Some [(4, 0); (2, 2); (1, 2)].
Proof.
  split. { intros u v H. cbn in H. repeat (destruct H as [H|H]; [inversion H; subst; lia|]). destruct H. }
  eexists. split; [vm_compute; reflexivity|]. repeat split; vm_compute; reflexivity.
Qed.
Example C47_demo3 : square k2_demo_m /\ exists t, k2_from_edges 3 2 k2_demo = Some t /\ k2_from_matrix 3 2 k2_demo_m = Some t /\ k2_neigh t 4 = Some [0; 4].
Proof. split. { intros row H. cbn in H. repeat (destruct H as [<- | H]; [reflexivity|]). destruct H. } eexists. split; [vm_compute; reflexivity|]. repeat split; vm_compute; reflexivity. Qed.
