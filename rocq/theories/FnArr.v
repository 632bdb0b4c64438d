(** * Arrays given by a function on their indices *)
From Coq Require Import NArith List Bool Arith Lia.
From Verif Require Import Base SpecBits RankSelect AbsVec RrrVector.
Import ListNotations.

Definition arr (w n : nat) (f : nat -> nat) : avec := mkav w (map (fun j => N.of_nat (f j)) (seq 0 n)).
Definition farr {A} (n : nat) (f : nat -> A) : list A := map f (seq 0 n).

Lemma farr_length : forall A n (f : nat -> A), length (farr n f) = n.
Proof. intros. unfold farr. rewrite map_length, seq_length. auto. Qed.
Lemma farr_nth_error : forall A n (f : nat -> A) i, i < n -> nth_error (farr n f) i = Some (f i).
Proof.
  intros. unfold farr. rewrite nth_error_nth' with (d := f 0) by (rewrite map_length, seq_length; auto).
  rewrite map_nth, seq_nth by auto. auto.
Qed.
Lemma farr_nth : forall A n (f : nat -> A) i d, i < n -> nth i (farr n f) d = f i.
Proof. intros. apply nth_error_nth. apply farr_nth_error. auto. Qed.
Lemma farr_ext : forall A n (f g : nat -> A), (forall j, j < n -> f j = g j) -> farr n f = farr n g.
Proof. intros. apply map_ext_in. intros j J. apply in_seq in J. apply H. lia. Qed.
Lemma list_eq_nth : forall A (a b : list A) d, length a = length b -> (forall i, i < length a -> nth i a d = nth i b d) -> a = b.
Proof. intros. apply nth_ext with d d; auto. Qed.
Lemma farr_of_list : forall A (l : list A) d, l = farr (length l) (fun i => nth i l d).
Proof. intros. apply list_eq_nth with d. { rewrite farr_length. auto. } intros. rewrite farr_nth; auto. Qed.
Lemma farr_upd : forall A n (f : nat -> A) i x, i < n -> upd (farr n f) i x = farr n (fun j => if j =? i then x else f j).
Proof.
  intros. apply list_eq_nth with x. { rewrite upd_length, !farr_length. auto. }
  intros k K. rewrite upd_length, farr_length in K. rewrite nth_upd by (rewrite farr_length; auto). rewrite !farr_nth by auto.
  rewrite farr_length. replace (k <? n) with true by lia. rewrite andb_true_r. auto.
Qed.
Lemma farr_aset : forall A n (f : nat -> A) i x, i < n -> aset (farr n f) i x = Some (farr n (fun j => if j =? i then x else f j)).
Proof. intros. rewrite aset_some by (rewrite farr_length; auto). f_equal. apply farr_upd. auto. Qed.
Lemma farr_repeat : forall A n (x : A), repeat x n = farr n (fun _ => x).
Proof. intros. apply list_eq_nth with x. { rewrite repeat_length, farr_length. auto. } intros i I. rewrite repeat_length in I. rewrite farr_nth, nth_repeat; auto. Qed.

Lemma arr_ext : forall w n f g, (forall j, j < n -> f j = g j) -> arr w n f = arr w n g.
Proof. intros. unfold arr. f_equal. apply (farr_ext N). intros. f_equal. auto. Qed.
Lemma arr_size : forall w n f, av_size (arr w n f) = n.
Proof. intros. unfold av_size. apply (farr_length N). Qed.
Lemma arr_avn : forall w n f i, i < n -> avn (arr w n f) i = Some (f i).
Proof. intros. unfold avn, av_get, arr. cbn [av_l]. fold (farr n (fun j => N.of_nat (f j))). rewrite farr_nth_error by auto. cbn. rewrite Nat2N.id. auto. Qed.
Lemma arr_new : forall w n, av_new n 0 w = arr w n (fun _ => 0).
Proof. intros. unfold av_new, arr. f_equal. rewrite N.mod_0_l by (apply N.pow_nonzero; discriminate). apply (farr_repeat N). Qed.
Lemma arr_avs : forall w n f i x, i < n -> (N.of_nat x < 2 ^ N.of_nat w)%N ->
  avs (arr w n f) i x = Some (arr w n (fun j => if j =? i then x else f j)).
Proof.
  intros. unfold avs. rewrite av_set_some; [|rewrite arr_size; auto | auto]. f_equal. unfold arr. cbn [av_w av_l]. f_equal.
  pose proof (farr_upd N n (fun j => N.of_nat (f j)) i (N.of_nat x) H) as U. unfold farr in U. rewrite U. apply map_ext. intro j. destruct (j =? i); auto.
Qed.

(** prefix sums *)
Fixpoint psum (f : nat -> nat) (n : nat) : nat := match n with 0 => 0 | S n => psum f n + f n end.
Lemma psum_mono : forall f a b, a <= b -> psum f a <= psum f b.
Proof. induction 1; auto. cbn. lia. Qed.
Lemma psum_ext : forall f g n, (forall j, j < n -> f j = g j) -> psum f n = psum g n.
Proof. induction n; intros; auto. cbn. rewrite IHn, H; auto. Qed.
Lemma psum_zero : forall f a b, a <= b -> (forall j, a <= j < b -> f j = 0) -> psum f b = psum f a.
Proof. induction 1; intros; auto. cbn. rewrite IHle by (intros; apply H0; lia). rewrite H0 by lia. lia. Qed.
Lemma psum_bound : forall f c n, (forall j, j < n -> f j <= c) -> psum f n <= n * c.
Proof. induction n; intros; [cbn; lia|]. cbn [psum]. pose proof (H n ltac:(lia)). assert (psum f n <= n * c) by (apply IHn; intros; apply H; lia). cbn. lia. Qed.
