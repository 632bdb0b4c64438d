(** * Proofs about rmq_support_sparse_table *)
From Coq Require Import NArith List Bool Arith Lia.
From Verif Require Import Base AbsVec FnArr WtBase WtProofs Rmq SpecRmq.
Import ListNotations.

Lemma mm_better : forall t a b, mm_compare t a b = true <-> better t a b.
Proof. intros [|] a b; cbn; apply N.leb_le. Qed.
Lemma mm_not : forall t a b, mm_compare t a b = false -> ~ better t a b /\ better t b a.
Proof. intros [|] a b H; cbn in *; apply N.leb_gt in H; lia. Qed.
Lemma better_trans : forall t a b c, better t a b -> better t b c -> better t a c.
Proof. intros [|] a b c; cbn; lia. Qed.
Lemma better_refl : forall t a, better t a a.
Proof. intros [|] a; cbn; lia. Qed.

Lemma combine_rmq : forall t v l m a l' r b, is_rmq t v l m a -> is_rmq t v l' r b -> l <= l' <= m + 1 -> m <= r ->
  is_rmq t v l r (if mm_compare t (nth a v 0%N) (nth b v 0%N) then a else b).
Proof.
  intros t v l m a l' r b (A1 & A2 & A3) (B1 & B2 & B3) H1 H2. destruct (mm_compare t _ _) eqn:E.
  - apply mm_better in E. split; [lia|]. split; auto. intros i Hi. destruct (Nat.le_gt_cases i m); [apply A2; lia|]. apply (better_trans _ _ _ _ E). apply B2. lia.
  - apply mm_not in E. destruct E as [E1 E2]. split; [lia|]. split.
    + intros i Hi. destruct (Nat.le_gt_cases l' i); [apply B2; lia|]. apply (better_trans _ _ _ _ E2). apply A2. lia.
    + intros i Hi X. destruct (Nat.le_gt_cases l' i); [apply (B3 i); auto; lia|]. apply E1. apply (better_trans _ _ (nth i v 0%N)); auto. apply A2. lia.
Qed.

Definition tabf (n k : nat) (T : nat -> nat -> nat) : list (list nat) := farr k (fun i => farr (n - 2 ^ (i + 1) + 1) (T i)).
Definition tupd (T : nat -> nat -> nat) (i j x : nat) : nat -> nat -> nat := fun i' j' => if i' =? i then if j' =? j then x else T i' j' else T i' j'.
Lemma tget_f : forall n k T i j, i < k -> j < n - 2 ^ (i + 1) + 1 -> tget (tabf n k T) i j = Some (T i j).
Proof. intros. unfold tget, tabf. rewrite farr_nth_error by auto. cbn [obind]. apply farr_nth_error. auto. Qed.
Lemma tset_f : forall n k T i j w x, i < k -> j < n - 2 ^ (i + 1) + 1 -> x < 2 ^ w -> tset (tabf n k T) i j w x = Some (tabf n k (tupd T i j x)).
Proof.
  intros. unfold tset, tabf. rewrite farr_nth_error by auto. cbn [obind]. rewrite farr_aset by auto. cbn [obind]. rewrite farr_aset by auto. f_equal. apply farr_ext. intros i' Hi'.
  unfold tupd. rewrite Nat.mod_small by auto. destruct (Nat.eqb_spec i' i) as [->|]; auto.
Qed.
Lemma nth_error_v : forall (v : list N) i, i < length v -> nth_error v i = Some (nth i v 0%N).
Proof. intros. apply nth_error_nth'. auto. Qed.

(** entry (i, j) of a table is right *)
Definition good (t : bool) (v : list N) (T : nat -> nat -> nat) (i j : nat) : Prop := T i j < 2 ^ (i + 1) /\ is_rmq t v j (j + 2 ^ (i + 1) - 1) (j + T i j).

Lemma st_levels_ok : forall fuel n k, 2 <= n -> (k = 0 \/ 2 ^ k < n) -> n < fuel + k -> exists r, st_levels fuel n k = Some r /\ n <= 2 * 2 ^ r /\ (r = 0 \/ 2 ^ r < n).
Proof.
  induction fuel as [|f IH]; intros n k H1 H2 H3; cbn [st_levels].
  - exfalso. pose proof (Nat.pow_gt_lin_r 2 k ltac:(lia)). destruct H2; [subst; lia|lia].
  - destruct (Nat.ltb_spec (2 * 2 ^ k) n).
    + apply IH; auto; [right; rewrite Nat.add_1_r, Nat.pow_succ_r'; auto|lia].
    + exists k. auto.
Qed.
Lemma single_rmq : forall t v i, is_rmq t v i i i.
Proof. intros. split; [lia|]. split; [intros j Hj; replace j with i by lia; apply better_refl|intros; lia]. Qed.
Lemma pair_rmq : forall t v i, is_rmq t v i (i + 1) (if mm_compare t (nth i v 0%N) (nth (i + 1) v 0%N) then i else i + 1).
Proof. intros. apply (combine_rmq t v i i i (i + 1) (i + 1) (i + 1)); try apply single_rmq; lia. Qed.

Lemma st_first_ok : forall t v k m i T, 1 <= k -> 3 <= length v -> i + m = length v - 1 ->
  (forall j, T 0 j = 0 \/ j < i) -> (forall j, j < i -> good t v T 0 j) ->
  exists T', st_first t v (seq i m) (tabf (length v) k T) = Some (tabf (length v) k T') /\ (forall j, j < length v - 1 -> good t v T' 0 j) .
Proof.
  intros t v k. induction m as [|m IH]; intros i T K L E Z G; cbn [seq st_first].
  - exists T. split; auto. intros j Hj. apply G. lia.
  - rewrite (nth_error_v v i) by lia. rewrite (nth_error_v v (i + 1)) by lia. cbn [obind]. pose proof (pair_rmq t v i) as PR.
    assert (Zi : T 0 i = 0) by (destruct (Z i); [auto|lia]).
    destruct (mm_compare t (nth i v 0%N) (nth (i + 1) v 0%N)) eqn:C; cbn [negb].
    + replace (S i) with (i + 1) by lia. apply IH; auto; [lia|intros j; destruct (Z j); [auto|right; lia]|]. intros j Hj. destruct (Nat.eq_dec j i) as [->|]; [|apply G; lia].
      unfold good. rewrite Zi. change (2 ^ (0 + 1)) with 2. rewrite Nat.add_0_r. split; [lia|]. replace (i + 2 - 1) with (i + 1) by lia. auto.
    + rewrite tset_f by (cbn; lia). cbn [obind]. replace (S i) with (i + 1) by lia. apply IH; auto; [lia| |].
      * intros j. unfold tupd. cbn. destruct (Nat.eqb_spec j i); [right; lia|]. destruct (Z j); [auto|right; lia].
      * intros j Hj. unfold good, tupd. change (2 ^ (0 + 1)) with 2. cbn [Nat.eqb]. destruct (Nat.eqb_spec j i) as [->|].
        -- split; [lia|]. replace (i + 2 - 1) with (i + 1) by lia. auto.
        -- destruct (G j ltac:(lia)) as [G1 G2]. change (2 ^ (0 + 1)) with 2 in *. auto.
Qed.
Lemma st_row_ok : forall t v k i m j T, 1 <= i < k -> 2 ^ k < length v -> j + m = length v - 2 ^ (i + 1) + 1 ->
  (forall j, j < length v - 2 ^ i + 1 -> good t v T (i - 1) j) -> (forall j', j' < j -> good t v T i j') ->
  exists T', st_row t v i (seq j m) (tabf (length v) k T) = Some (tabf (length v) k T') /\ (forall j, j < length v - 2 ^ (i + 1) + 1 -> good t v T' i j) /\ (forall i' j, i' <> i -> T' i' j = T i' j).
Proof.
  intros t v k i. induction m as [|m IH]; intros j T I K E G0 G; cbn [seq st_row].
  - exists T. split; auto. split; auto. intros. apply G. lia.
  - assert (PW : 2 ^ (i + 1) = 2 * 2 ^ i) by (rewrite Nat.add_1_r; apply Nat.pow_succ_r').
    assert (PK : 2 ^ (i + 1) <= 2 ^ k) by (apply Nat.pow_le_mono_r; lia). assert (P0 : 0 < 2 ^ i) by (apply Nat.neq_0_lt_0, Nat.pow_nonzero; lia).
    assert (I1 : i - 1 + 1 = i) by lia.
    rewrite !tget_f by (rewrite ?I1; lia). cbn [obind].
    destruct (G0 j ltac:(lia)) as [A1 A2]. destruct (G0 (j + 2 ^ i) ltac:(lia)) as [B1 B2]. rewrite I1 in *.
    rewrite (nth_error_v v (j + T (i - 1) j)) by lia. rewrite (nth_error_v v (j + 2 ^ i + T (i - 1) (j + 2 ^ i))) by lia. cbn [obind].
    assert (C : is_rmq t v j (j + 2 ^ (i + 1) - 1) (j + (if mm_compare t (nth (j + T (i - 1) j) v 0%N) (nth (j + 2 ^ i + T (i - 1) (j + 2 ^ i)) v 0%N) then T (i - 1) j else 2 ^ i + T (i - 1) (j + 2 ^ i)))).
    { replace (j + 2 ^ (i + 1) - 1) with (j + 2 ^ i + 2 ^ i - 1) by lia. pose proof (combine_rmq t v _ _ _ _ _ _ A2 B2 ltac:(lia) ltac:(lia)) as C.
      destruct (mm_compare t _ _); auto. replace (j + (2 ^ i + T (i - 1) (j + 2 ^ i))) with (j + 2 ^ i + T (i - 1) (j + 2 ^ i)) by lia. auto. }
    set (x := if mm_compare t _ _ then _ else _) in *. assert (X : x < 2 ^ (i + 1)) by (unfold x; destruct (mm_compare t _ _); lia). clearbody x.
    rewrite tset_f by lia. cbn [obind]. replace (S j) with (j + 1) by lia.
    destruct (IH (j + 1) (tupd T i j x)) as (T' & E' & G' & K'); auto; [lia| | |].
    + intros j' Hj'. unfold good, tupd. destruct (Nat.eqb_spec (i - 1) i); [lia|]. apply G0. auto.
    + intros j' Hj'. unfold good, tupd. rewrite Nat.eqb_refl. destruct (Nat.eqb_spec j' j) as [->|]; [split; auto|]. apply G. lia.
    + exists T'. split; auto. split; auto. intros i' j' NE. rewrite K' by auto. unfold tupd. destruct (Nat.eqb_spec i' i); [lia|auto].
Qed.
Lemma st_rows_ok : forall t v k m i T, 1 <= i -> i + m = k -> 2 ^ k < length v -> (forall i' j, i' < i -> j < length v - 2 ^ (i' + 1) + 1 -> good t v T i' j) ->
  exists T', st_rows t v (seq i m) (tabf (length v) k T) = Some (tabf (length v) k T') /\ (forall i' j, i' < k -> j < length v - 2 ^ (i' + 1) + 1 -> good t v T' i' j).
Proof.
  intros t v k. induction m as [|m IH]; intros i T I E K G; cbn [seq st_rows].
  - exists T. split; auto. intros. apply G; auto. lia.
  - unfold tabf at 1. rewrite farr_nth_error by lia. cbn [obind]. rewrite farr_length.
    destruct (st_row_ok t v k i (length v - 2 ^ (i + 1) + 1) 0 T) as (T' & E' & G' & K'); auto; [lia| |intros; lia|].
    + intros j Hj. apply G; [lia|]. replace (i - 1 + 1) with i by lia. auto.
    + rewrite E'. cbn [obind]. replace (S i) with (i + 1) by lia. apply IH; auto; [lia|lia|]. intros i' j Hi Hj. destruct (Nat.eq_dec i' i) as [->|]; [apply G'; auto|].
      unfold good. rewrite K' by auto. apply G; auto. lia.
Qed.
(** what the constructor leaves behind *)
Definition st_ok (t : bool) (v : list N) (tab : list (list nat)) : Prop :=
  length v <= 2 \/ exists k T, tab = tabf (length v) k T /\ 1 <= k /\ 2 ^ k < length v <= 2 * 2 ^ k /\ forall i j, i < k -> j < length v - 2 ^ (i + 1) + 1 -> good t v T i j.
Lemma st_make_ok : forall t v, length v <> 2 \/ better t (nth 0 v 0%N) (nth 1 v 0%N) -> exists tab, st_make t v = Some tab /\ st_ok t v tab.
Proof.
  intros t v H. unfold st_make. destruct (Nat.ltb_spec (length v) 2) as [L|L]; [exists []; split; auto; left; lia|].
  destruct (st_levels_ok (length v + 1) (length v) 0 L (or_introl eq_refl) ltac:(lia)) as (k & E & K1 & K2). rewrite E. cbn [obind].
  destruct (Nat.eq_dec (length v) 2) as [L2|L2].
  - assert (k = 0) by (destruct K2 as [|K2]; auto; rewrite L2 in K2; destruct k as [|k]; auto; rewrite Nat.pow_succ_r' in K2; pose proof (Nat.pow_nonzero 2 k ltac:(lia)); lia). subst k. rewrite L2 in *. cbn [seq map Nat.sub].
    cbn [st_first]. rewrite (nth_error_v v 0), (nth_error_v v (0 + 1)) by lia. cbn [obind Nat.add]. destruct H as [|H]; [congruence|]. apply mm_better in H. rewrite H. cbn. exists []. split; auto. left. lia.
  - assert (K : 1 <= k) by (destruct k; [cbn in K1; lia|lia]). assert (K' : 2 ^ k < length v) by (destruct K2; lia).
    assert (ET : map (fun i => repeat 0 (length v - 2 ^ (i + 1) + 1)) (seq 0 k) = tabf (length v) k (fun _ _ => 0)).
    { unfold tabf, farr. apply map_ext. intros i. rewrite farr_repeat. reflexivity. }
    rewrite ET. destruct (st_first_ok t v k (length v - 1) 0 (fun _ _ => 0)) as (T & E1 & G1); auto; try (intros; lia). rewrite E1. cbn [obind].
    destruct (st_rows_ok t v k (k - 1) 1 T) as (T' & E2 & G2); auto; try lia.
    { intros i' j Hi Hj. replace i' with 0 in * by lia. apply G1. cbn in Hj. lia. }
    rewrite E2. eexists. split; [reflexivity|]. right. exists k, T'. repeat split; auto; try apply G2; auto; lia.
Qed.
Lemma st_query_ok : forall t v tab l r, st_ok t v tab -> l <= r < length v -> exists m, st_query t v tab l r = Some m /\ is_rmq t v l r m.
Proof.
  intros t v tab l r OK H. unfold st_query. destruct (Nat.eqb_spec l r) as [->|N1]; [exists r; split; auto; apply single_rmq|].
  destruct (Nat.eqb_spec (l + 1) r) as [<-|N2].
  { rewrite (nth_error_v v l), (nth_error_v v (l + 1)) by lia. cbn [obind]. eexists. split; [reflexivity|]. apply pair_rmq. }
  destruct OK as [|(k & T & -> & K1 & K2 & G)]; [lia|].
  pose proof (Nat.log2_spec (r - l) ltac:(lia)) as [LG1 LG2]. set (q := Nat.log2 (r - l)) in *. rewrite Nat.pow_succ_r' in LG2.
  assert (Q1 : 1 <= q) by (apply (Nat.log2_le_mono 2); lia).
  assert (Q2 : q <= k). { apply (Nat.pow_le_mono_r_iff 2); [lia|]. destruct (Nat.le_gt_cases (2 ^ q) (2 ^ k)); auto. exfalso. apply Nat.pow_lt_mono_r_iff in H0; [|lia].
    assert (2 ^ (k + 1) <= 2 ^ q) by (apply Nat.pow_le_mono_r; lia). rewrite Nat.add_1_r, Nat.pow_succ_r' in H1. lia. }
  rewrite (csub_some q 1 (q - 1)) by lia. cbn [obind]. rewrite (csub_some (r + 1) (2 ^ q) (r + 1 - 2 ^ q)) by lia. cbn [obind].
  assert (Q3 : q - 1 + 1 = q) by lia. rewrite !tget_f by (rewrite ?Q3; lia). cbn [obind].
  destruct (G (q - 1) l ltac:(lia) ltac:(rewrite Q3; lia)) as [A1 A2]. destruct (G (q - 1) (r + 1 - 2 ^ q) ltac:(lia) ltac:(rewrite Q3; lia)) as [B1 B2]. rewrite Q3 in *.
  rewrite (nth_error_v v (l + T (q - 1) l)) by lia. rewrite (nth_error_v v (r + 1 - 2 ^ q + T (q - 1) (r + 1 - 2 ^ q))) by lia. cbn [obind].
  eexists. split; [reflexivity|]. replace (r + 1 - 2 ^ q + 2 ^ q - 1) with r in B2 by lia. apply (combine_rmq t v _ _ _ _ _ _ A2 B2); lia.
Qed.
Lemma rmq_unique : forall t v l r m m', is_rmq t v l r m -> is_rmq t v l r m' -> m = m'.
Proof.
  intros t v l r m m' (A1 & A2 & A3) (B1 & B2 & B3). destruct (Nat.lt_trichotomy m m') as [X|[X|X]]; auto; exfalso.
  - apply (B3 m); [lia|]. apply A2. lia.
  - apply (A3 m'); [lia|]. apply B2. lia.
Qed.
Lemma st_full : forall t v l r, l <= r < length v -> length v <> 2 \/ better t (nth 0 v 0%N) (nth 1 v 0%N) -> exists tab m, st_make t v = Some tab /\ st_query t v tab l r = Some m /\ is_rmq t v l r m /\ forall m', is_rmq t v l r m' -> m' = m.
Proof.
  intros t v l r H D. destruct (st_make_ok t v D) as (tab & E & OK). destruct (st_query_ok t v tab l r OK H) as (m & Q & R). exists tab, m. repeat split; auto; try apply R. intros m' R'. apply (rmq_unique t v l r); auto.
Qed.
