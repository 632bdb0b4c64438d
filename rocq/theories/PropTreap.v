(** * C56: k2_treap reports the points of a rectangle by decreasing weight, counts them, and filters them by weight

    [h] bounds the coordinates: they are below k^h, and k^h is representable both in 64 bits and in the coordinate type of
    the input tuples ([wx] bits; [ww] bits for the weights). *)
From Coq Require Import List Arith Bool Lia NArith Permutation Sorted.
From Verif Require Import Base SpecTreap K2Treap K2TreapProofs K2TreapQ K2TreapTop.
Import ListNotations.

Definition coordinates_fit (k h wx : nat) (v : list (nat * nat * nat)) : Prop :=
  (forall x y w, In (x, y, w) v -> x < k ^ h /\ y < k ^ h) /\ (N.of_nat k ^ N.of_nat h < 2 ^ 64)%N /\ (N.of_nat k ^ N.of_nat h < 2 ^ N.of_nat wx)%N.
(** some point is not the origin *)
Definition not_only_origin (v : list (nat * nat * nat)) : Prop := exists x y w, In (x, y, w) v /\ (x, y) <> (0, 0).

Lemma plt_before : forall a b, plt b a = true -> before a b.
Proof. intros [[x y] w] [[x' y'] w'] H. apply plt_iff in H. cbn in *. lia. Qed.
Lemma sorted_before : forall l, NoDup l -> sorted_out l -> StronglySorted before l.
Proof.
  induction l as [|a l IH]; intros ND SO; constructor; inversion ND; inversion SO; subst; auto. rewrite Forall_forall in *. intros b B. apply plt_before. pose proof (H6 b B) as E. apply plt_false in E. destruct E as [E| ->]; auto.
Qed.
Lemma fits_of : forall k h wx v, coordinates_fit k h wx v -> fits k h wx v.
Proof. intros k h wx v (H1 & H2). split; auto. intros [[x y] w] I. cbn. eapply H1. eauto. Qed.
Lemma treap_all : forall k part wx ww h v, 1 < k -> splits part -> distinct_points v -> coordinates_fit k h wx v -> not_only_origin v ->
  exists T, k2_treap_make k part wx ww v = Some T /\ tsize T = length v /\ (forall q, tcount k T q = Some (length (filter (p_in q) v))) /\
    forall q rng, exists r, it_start k T q rng = Some r /\ Permutation (filter (okp q rng) v) r /\ StronglySorted before r.
Proof.
  intros k part wx ww h v K PS D C (x & y & w & I & N). destruct (make_ok k part wx ww h v K PS D (fits_of _ _ _ _ C)) as (T & E & S1 & CN & IT).
  - intros ->. contradiction.
  - exists (x, y, w). auto.
  - exists T. split; auto. split; auto. split; auto. intros q rng. destruct (IT q rng) as (r & R1 & R2 & R3). exists r. split; auto. split; auto. apply sorted_before; auto. eapply Permutation_NoDup; [exact R2|]. apply NoDup_filter. apply NoDup_map_inv with (f := fst). exact D.
Qed.
Lemma in_inside : forall x1 y1 x2 y2 p, p_in (mkrect x1 y1 x2 y2) p = inside x1 y1 x2 y2 p.
Proof. intros x1 y1 x2 y2 [[x y] w]. reflexivity. Qed.

(** count(treap, p1, p2), and size() *)
Theorem C56_count : forall k part wx ww h v, 1 < k -> splits part -> distinct_points v -> coordinates_fit k h wx v -> not_only_origin v ->
  exists T, k2_treap_make k part wx ww v = Some T /\ tsize T = length v /\
    forall x1 y1 x2 y2, tcount k T (mkrect x1 y1 x2 y2) = Some (length (filter (inside x1 y1 x2 y2) v)).
Proof.
  intros k part wx ww h v K PS D C N. destruct (treap_all k part wx ww h v K PS D C N) as (T & E & S1 & CN & _). exists T. split; auto. split; auto. intros. rewrite CN. do 2 f_equal. apply filter_ext. apply in_inside.
Qed.
Print Assumptions C56_count.

(** top_k(treap, p1, p2), iterated to the end *)
Theorem C56_top_k : forall k part wx ww h v, 1 < k -> splits part -> distinct_points v -> coordinates_fit k h wx v -> not_only_origin v ->
  exists T, k2_treap_make k part wx ww v = Some T /\
    forall x1 y1 x2 y2, exists r, top_k k T (mkrect x1 y1 x2 y2) = Some r /\ Permutation r (filter (inside x1 y1 x2 y2) v) /\ StronglySorted before r.
Proof.
  intros k part wx ww h v K PS D C N. destruct (treap_all k part wx ww h v K PS D C N) as (T & E & S1 & _ & IT). exists T. split; auto. intros. destruct (IT (mkrect x1 y1 x2 y2) None) as (r & R1 & R2 & R3). exists r. split; auto. split; auto. apply Permutation_sym. erewrite filter_ext; [exact R2|]. intros p. unfold okp, wok. rewrite andb_true_r. symmetry. apply in_inside.
Qed.
Print Assumptions C56_top_k.

(** range_3d(treap, p1, p2, (w1, w2)), iterated to the end *)
Theorem C56_range_3d : forall k part wx ww h v, 1 < k -> splits part -> distinct_points v -> coordinates_fit k h wx v -> not_only_origin v ->
  exists T, k2_treap_make k part wx ww v = Some T /\
    forall x1 y1 x2 y2 w1 w2, exists r, range_3d k T (mkrect x1 y1 x2 y2) w1 w2 = Some r /\
      Permutation r (filter (fun p => inside x1 y1 x2 y2 p && weight_in w1 w2 p) v) /\ StronglySorted before r.
Proof.
  intros k part wx ww h v K PS D C N. destruct (treap_all k part wx ww h v K PS D C N) as (T & E & S1 & _ & IT). exists T. split; auto. intros. destruct (IT (mkrect x1 y1 x2 y2) (Some (w1, w2))) as (r & R1 & R2 & R3). exists r. split; auto. split; auto. apply Permutation_sym. erewrite filter_ext; [exact R2|]. intros [[x y] w]. reflexivity.
Qed.
Print Assumptions C56_range_3d.

(** the empty set *)
Theorem C56_empty : forall k part wx ww, exists T, k2_treap_make k part wx ww [] = Some T /\ tsize T = 0 /\
  forall q w1 w2, tcount k T q = Some 0 /\ top_k k T q = Some [] /\ range_3d k T q w1 w2 = Some [].
Proof. intros. eexists. split; [reflexivity|]. split; [reflexivity|]. intros. repeat split. Qed.
Print Assumptions C56_empty.

(** a partition that is not stable *)
Definition part0 (f : nat * nat * nat -> bool) (l : list (nat * nat * nat)) := (rev (filter f l), filter (fun e => negb (f e)) l).
Example C56_part0 : splits part0.
Proof.
  intros f l. unfold part0. cbn [fst snd]. split; [|split].
  - eapply perm_trans; [|apply Permutation_app_tail; apply Permutation_rev]. induction l as [|a l IH]; auto. cbn. destruct (f a); cbn; [constructor; auto|]. apply Permutation_cons_app. auto.
  - intros e I. apply in_rev in I. apply filter_In in I. apply I.
  - intros e I. apply filter_In in I. apply negb_true_iff. apply I.
Qed.
Definition tp_demo : list (nat * nat * nat) := [(1,2,5);(0,0,5);(3,3,9);(4,1,7);(2,2,1);(5,5,9);(4,4,4);(0,5,2)].
Definition demo_q (k : nat) {A} (f : treap -> option A) : option A := match k2_treap_make k part0 32 32 tp_demo with Some T => f T | None => None end.
Example C56_ex : distinct_points tp_demo /\ coordinates_fit 2 3 32 tp_demo /\ not_only_origin tp_demo /\
  demo_q 2 (fun T => tcount 2 T (mkrect 1 1 4 4)) = Some 5 /\
  demo_q 2 (fun T => top_k 2 T (mkrect 1 1 4 4)) = Some [(3,3,9);(4,1,7);(1,2,5);(4,4,4);(2,2,1)] /\
  demo_q 3 (fun T => top_k 3 T (mkrect 1 1 4 4)) = Some [(3,3,9);(4,1,7);(1,2,5);(4,4,4);(2,2,1)] /\
  demo_q 2 (fun T => range_3d 2 T (mkrect 0 0 100 4) 4 7) = Some [(4,1,7);(0,0,5);(1,2,5);(4,4,4)].
Proof.
  split. { unfold distinct_points, tp_demo. cbn [map fst]. repeat constructor; cbn; intuition discriminate. }
  split. { split; [|split; vm_compute; auto]. intros x y w I. cbn in I. repeat (destruct I as [I|I]; [inversion I; cbn; lia|]). contradiction. }
  split. { exists 1, 2, 5. split; [left; auto|discriminate]. }
  repeat split; vm_compute; reflexivity.
Qed.

(** ** What does not hold *)
(** a set whose only point is the origin cannot be queried: root() reads m_coord[-1] *)
Theorem C56_origin_refuted : exists T, k2_treap_make 2 part0 32 32 [(0, 0, 7)] = Some T /\ tsize T = 1 /\ tcount 2 T (mkrect 0 0 5 5) = None /\ top_k 2 T (mkrect 0 0 5 5) = None.
Proof. eexists. split; [vm_compute; reflexivity|]. repeat split; vm_compute; reflexivity. Qed.
Print Assumptions C56_origin_refuted.
(** when k^t does not fit the coordinate type, the mark of a removed point is (0,0,0), and a real point with these
    coordinates and weight is lost: 8-bit coordinates, one of them 128 *)
Theorem C56_narrow_refuted : exists v T, distinct_points v /\ not_only_origin v /\ (forall x y w, In (x, y, w) v -> x < 2 ^ 8 /\ y < 2 ^ 8 /\ w < 2 ^ 8) /\
  k2_treap_make 2 part0 8 8 v = Some T /\ length v = 3 /\ tsize T = 2.
Proof.
  exists [(0, 0, 0); (1, 1, 3); (128, 0, 5)]. eexists. split. { repeat constructor; cbn; intuition discriminate. } split. { exists 128, 0, 5. split; [right; right; left; auto|discriminate]. }
  split. { intros x y w [I|[I|[I|[]]]]; inversion I; repeat split; apply Nat.ltb_lt; vm_compute; reflexivity. } split; [vm_compute; reflexivity|]. split; vm_compute; reflexivity.
Qed.
Print Assumptions C56_narrow_refuted.
(** several points with the same coordinates are not all kept *)
Theorem C56_duplicates_refuted : exists v T, not_only_origin v /\ coordinates_fit 2 1 32 v /\ k2_treap_make 2 part0 32 32 v = Some T /\ length v = 3 /\ tsize T = 2.
Proof.
  exists [(1, 1, 3); (1, 1, 2); (1, 1, 1)]. eexists. split. { exists 1, 1, 3. split; [left; auto|discriminate]. } split.
  { split; [|split; vm_compute; auto]. intros x y w [I|[I|[I|[]]]]; inversion I; cbn; lia. } split; [vm_compute; reflexivity|]. split; vm_compute; reflexivity.
Qed.
Print Assumptions C56_duplicates_refuted.
