(** * Mathematical facts about rank and select on predicates over positions. *)
From Coq Require Import NArith ZArith List Lia Bool Arith.
From Verif Require Import Base SpecBits.
Import ListNotations.

Lemma positions_S : forall f n, positions f (S n) = positions f n ++ if f n then [n] else [].
Proof.
  intros. unfold positions. rewrite seq_S, filter_app. simpl. destruct (f n); auto.
Qed.

Global Arguments rank_of : simpl never.
Global Arguments positions : simpl never.

Lemma rank_of_0 : forall f, rank_of f 0 = 0. Proof. reflexivity. Qed.
Lemma rank_of_S : forall f n, rank_of f (S n) = rank_of f n + b2nat (f n).
Proof. intros. unfold rank_of. rewrite positions_S, app_length. destruct (f n); auto. Qed.

Lemma rank_of_le : forall f n, rank_of f n <= n.
Proof. induction n; auto. rewrite rank_of_S. destruct (f n); cbn [b2nat negb]; lia. Qed.

Lemma rank_of_mono : forall f a b, a <= b -> rank_of f a <= rank_of f b.
Proof. induction 1; auto. rewrite rank_of_S. lia. Qed.

Lemma rank_of_step : forall f a b, a <= b -> rank_of f b - rank_of f a <= b - a.
Proof. induction 1 as [|m H IH]; [lia|]. rewrite rank_of_S. pose proof (rank_of_mono f a m H). destruct (f m); cbn [b2nat]; lia. Qed.

Lemma rank_of_add : forall f a b, rank_of f (a + b) = rank_of f a + rank_of (fun j => f (a + j)) b.
Proof.
  induction b. { rewrite Nat.add_0_r, rank_of_0. lia. }
  rewrite Nat.add_succ_r, !rank_of_S, IHb. lia.
Qed.

Lemma rank_of_ext : forall f g n, (forall j, j < n -> f j = g j) -> rank_of f n = rank_of g n.
Proof. induction n; intros; auto. rewrite !rank_of_S, IHn by auto. rewrite H by lia. auto. Qed.

Lemma rank_of_all_false : forall f a b, a <= b -> (forall j, a <= j < b -> f j = false) -> rank_of f b = rank_of f a.
Proof.
  induction 1; intros; auto. rewrite rank_of_S, IHle by (intros; apply H0; lia). rewrite H0 by lia. simpl. lia.
Qed.
Lemma rank_of_all_true : forall f n, (forall j, j < n -> f j = true) -> rank_of f n = n.
Proof. induction n; intros; auto. rewrite rank_of_S, IHn by auto. rewrite H by lia. simpl. lia. Qed.

Lemma rank_of_negb : forall f n, rank_of (fun j => negb (f j)) n = n - rank_of f n.
Proof.
  induction n; auto. rewrite !rank_of_S, IHn. pose proof (rank_of_le f n). destruct (f n); cbn [b2nat negb]; lia.
Qed.

Lemma rank_of_const_false : forall n, rank_of (fun _ => false) n = 0.
Proof. induction n; auto. rewrite rank_of_S, IHn. auto. Qed.

(** select *)
Lemma is_select_unique : forall f i p q, is_select f i p -> is_select f i q -> p = q.
Proof.
  intros f i p q [A1 A2] [B1 B2]. destruct (Nat.lt_trichotomy p q) as [L|[L|L]]; auto; exfalso.
  - pose proof (rank_of_mono f (S p) q L). rewrite rank_of_S, A1 in H. simpl in H. lia.
  - pose proof (rank_of_mono f (S q) p L). rewrite rank_of_S, B1 in H. simpl in H. lia.
Qed.

Lemma is_select_pos : forall f i p, is_select f i p -> 1 <= i.
Proof. intros f i p [_ H]. lia. Qed.

Lemma is_select_le_rank : forall f i p n, is_select f i p -> p < n -> i <= rank_of f n.
Proof.
  intros f i p n [H1 H2] L. pose proof (rank_of_mono f (S p) n L). rewrite rank_of_S, H1 in H. simpl in H. lia.
Qed.

Lemma is_select_lt : forall f i p n, is_select f i p -> i <= rank_of f n -> p < n.
Proof.
  intros f i p n [H1 H2] L. apply Nat.nle_gt. intro. pose proof (rank_of_mono f n p H). lia.
Qed.

Lemma nth_positions : forall f n k d, k < rank_of f n ->
  is_select f (k + 1) (nth k (positions f n) d) /\ nth k (positions f n) d < n.
Proof.
  induction n; intros. { rewrite rank_of_0 in H. lia. }
  rewrite positions_S. rewrite rank_of_S in H.
  destruct (Nat.lt_ge_cases k (rank_of f n)) as [L|L].
  - rewrite app_nth1 by auto. destruct (IHn k d L). auto with arith.
  - destruct (f n) eqn:E; simpl in H; [|lia].
    rewrite app_nth2 by auto. fold (rank_of f n). replace (k - rank_of f n) with 0 by lia. simpl.
    split; auto. split; auto. lia.
Qed.

Lemma select_exists : forall f n i, 1 <= i <= rank_of f n -> exists p, p < n /\ is_select f i p.
Proof.
  intros. destruct (nth_positions f n (i - 1) 0) as [A B]; [lia|].
  exists (nth (i - 1) (positions f n) 0). split; auto. replace (i - 1 + 1) with i in A by lia. auto.
Qed.

Lemma select_positions : forall f n i p d, is_select f i p -> p < n -> nth (i - 1) (positions f n) d = p.
Proof.
  intros. pose proof (is_select_pos _ _ _ H). pose proof (is_select_le_rank _ _ _ _ H H0).
  destruct (nth_positions f n (i - 1) d) as [A B]; [lia|].
  replace (i - 1 + 1) with i in A by lia. eapply is_select_unique; eauto.
Qed.

Lemma is_select_mono : forall f i j p q, is_select f i p -> is_select f j q -> i < j -> p < q.
Proof.
  intros f i j p q [A1 A2] [B1 B2] L. apply Nat.nle_gt. intro H.
  pose proof (rank_of_mono f q p H). lia.
Qed.

Lemma is_select_ext : forall f g i p, (forall j, j <= p -> f j = g j) -> is_select f i p -> is_select g i p.
Proof.
  intros f g i p H [A B]. split. { rewrite <- H; auto. }
  rewrite <- (rank_of_ext f g); auto. intros; apply H; lia.
Qed.

(** rank after select, select after rank *)
Lemma rank_select : forall f i p, is_select f i p -> rank_of f p = i - 1 /\ rank_of f (S p) = i.
Proof. intros f i p [A B]. rewrite rank_of_S, A. simpl. lia. Qed.
Lemma select_rank : forall f p, f p = true -> is_select f (rank_of f p + 1) p.
Proof. intros. split; auto. Qed.

(** shifting the origin *)
Lemma is_select_shift : forall f a i p, is_select (fun j => f (a + j)) i p ->
  is_select f (rank_of f a + i) (a + p).
Proof. intros f a i p [A B]. split; auto. rewrite rank_of_add. lia. Qed.

Lemma positions_add : forall f a b,
  positions f (a + b) = positions f a ++ map (Nat.add a) (positions (fun j => f (a + j)) b).
Proof.
  induction b. { rewrite Nat.add_0_r, app_nil_r. auto. }
  rewrite Nat.add_succ_r, !positions_S, IHb, map_app, app_assoc. f_equal. destruct (f (a + b)); auto.
Qed.

Lemma positions_In : forall f n p, In p (positions f n) <-> p < n /\ f p = true.
Proof. intros. unfold positions. rewrite filter_In, in_seq. intuition lia. Qed.

Lemma positions_ext : forall f g n, (forall j, j < n -> f j = g j) -> positions f n = positions g n.
Proof. induction n; intros; auto. rewrite !positions_S, IHn by auto. rewrite H by lia. auto. Qed.

(** bridge to lists of booleans *)
Lemma count_true_rank : forall l, count_true l = rank_of (fun i => nth i l false) (length l).
Proof.
  induction l using rev_ind; auto.
  rewrite count_true_app, app_length, IHl. simpl length. rewrite Nat.add_1_r, rank_of_S.
  rewrite app_nth2, Nat.sub_diag by auto. rewrite count_true_cons. simpl.
  rewrite (rank_of_ext _ (fun i => nth i (l ++ [x]) false) (length l)).
  - unfold count_true; simpl; lia.
  - intros. rewrite app_nth1; auto.
Qed.

Lemma count_true_map : forall f n, count_true (map f (seq 0 n)) = rank_of f n.
Proof.
  intros. rewrite count_true_rank, map_length, seq_length. apply rank_of_ext.
  intros. apply nth_map_seq; auto.
Qed.
Lemma popcount_rank : forall x, popcount x = rank_of (tb x) 64.
Proof. intros. apply count_true_map. Qed.
Lemma ones_below_rank : forall x p, ones_below x p = rank_of (tb x) p.
Proof. intros. apply count_true_map. Qed.
Lemma count_true_map_seq : forall f a n, count_true (map f (seq a n)) = rank_of (fun j => f (a + j)) n.
Proof. intros. rewrite map_seq_shift. apply count_true_map. Qed.
