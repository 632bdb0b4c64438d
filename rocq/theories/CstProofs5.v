(** * The intervals of an LCP array *)
From Coq Require Import NArith ZArith List Bool Arith Lia.
From Verif Require Import Base SpecCst CstProofs.
Import ListNotations.
Open Scope nat_scope.

Section I.
Variable v : list N.
Local Notation n := (length v).
Local Notation av := (av v).
Local Notation ns := (ns v).
Definition inner (i j : nat) (l : N) : Prop :=
  i < j < n /\ (forall k, i < k <= j -> (l <= av k)%N) /\ (exists k, i < k <= j /\ av k = l) /\ (i = 0 \/ (av i < l)%N) /\ (j + 1 = n \/ (av (j + 1) < l)%N).
Lemma inner_node : forall i j l, inner i j l -> lcp_interval v i j.
Proof. intros i j l (H1 & H2 & H3 & H4 & H5). split; [lia|]. right. exists l. auto. Qed.
Lemma node_inner : forall i j, lcp_interval v i j -> i < j -> exists l, inner i j l.
Proof. intros i j (H1 & [H|(l & H2 & H3 & H4 & H5)]) L; [lia|]. exists l. repeat split; auto; lia. Qed.
Lemma node_lt : forall i j, lcp_interval v i j -> i <= j < n.
Proof. intros i j (H & _). auto. Qed.
Lemma inner_uniq : forall i j l l', inner i j l -> inner i j l' -> l = l'.
Proof.
  intros i j l l' (_ & H2 & (k & K & E) & _) (_ & H2' & (k' & K' & E') & _). specialize (H2 k' K'). specialize (H2' k K). lia.
Qed.
(** the previous strictly smaller value *)
Definition is_ps (x k : nat) : Prop := x < k /\ (av x < av k)%N /\ forall y, x < y < k -> (av k <= av y)%N.
Definition psn (x k : nat) : Prop := av k = 0%N /\ x = 0 \/ is_ps x k.
Lemma psn_uniq : forall x y k, psn x k -> psn y k -> x = y.
Proof.
  intros x y k [(A & X)|(X1 & X2 & X3)] [(A' & Y)|(Y1 & Y2 & Y3)]; try lia.
  destruct (Nat.lt_trichotomy x y) as [L|[L|L]]; auto; [specialize (X3 y ltac:(lia))|specialize (Y3 x ltac:(lia))]; lia.
Qed.
(** every node with m inside contains the node of m *)
Lemma around : forall x y l m p, inner x y l -> x < m <= y -> psn p m -> inside p (ns m - 1) x y.
Proof.
  intros x y l m p (H1 & H2 & H3 & H4 & H5) M P. pose proof (H2 m M) as LM. assert (MN : m < n) by lia. destruct (ns_spec v m MN) as (S1 & S2 & S3). split.
  - destruct H4 as [->|H4]; [lia|]. destruct P as [(A & X)|(X1 & X2 & X3)]; [lia|]. destruct (Nat.le_gt_cases x p); auto. specialize (X3 x ltac:(lia)). lia.
  - destruct H5 as [H5|H5]; [lia|]. destruct (Nat.le_gt_cases (ns m) (y + 1)); [lia|]. specialize (S2 (y + 1) ltac:(lia)). lia.
Qed.
Lemma nodeof : forall m p, 0 < m < n -> psn p m -> inner p (ns m - 1) (av m) /\ p < m <= ns m - 1.
Proof.
  intros m p M P. destruct (ns_spec v m ltac:(lia)) as (S1 & S2 & S3). assert (PM : p < m) by (destruct P as [(A & X)|(X1 & _)]; lia).
  split; [|lia]. split; [lia|]. split; [|split; [|split]].
  - intros k K. destruct (Nat.lt_trichotomy k m) as [L|[->|L]]; [|lia|apply S2; lia]. destruct P as [(A & X)|(X1 & X2 & X3)]; [lia|]. apply X3. lia.
  - exists m. split; [lia|auto].
  - destruct P as [(A & X)|(X1 & X2 & X3)]; auto.
  - destruct (Nat.eq_dec (ns m) n) as [E|E]; [left; lia|right]. replace (ns m - 1 + 1) with (ns m) by lia. apply S3. lia.
Qed.
Lemma min_ex : forall m i, exists l, (forall k, i < k <= i + S m -> (l <= av k)%N) /\ exists k, i < k <= i + S m /\ av k = l.
Proof.
  induction m; intros i.
  - exists (av (i + 1)). split; [intros k K; replace k with (i + 1) by lia; lia|]. exists (i + 1). split; [lia|auto].
  - destruct (IHm i) as (l & L1 & k & K & E). destruct (N.le_gt_cases l (av (i + S (S m)))) as [L|L].
    + exists l. split; [|exists k; split; [lia|auto]]. intros k' K'. destruct (Nat.eq_dec k' (i + S (S m))) as [->|]; auto. apply L1. lia.
    + exists (av (i + S (S m))). split; [|exists (i + S (S m)); split; [lia|auto]]. intros k' K'. destruct (Nat.eq_dec k' (i + S (S m))) as [->|]; [lia|]. specialize (L1 k' ltac:(lia)). lia.
Qed.
Lemma root_node : 0 < n -> lcp_interval v 0 (n - 1).
Proof.
  intros N0. split; [lia|]. destruct (Nat.eq_dec n 1) as [E|E]; [left; lia|right]. destruct (min_ex (n - 2) 0) as (l & L1 & k & K & EK). exists l.
  split; [intros q Q; apply L1; lia|]. split; [exists k; split; [lia|auto]|]. split; auto. left. lia.
Qed.
(** two neighbouring borders *)
Definition bord (i j : nat) (l : N) (a b : nat) : Prop :=
  i <= a < b /\ b <= j + 1 /\ (a = i \/ av a = l) /\ (b = j + 1 \/ av b = l) /\ forall k, a < k < b -> (l < av k)%N.
Lemma bord_neq : forall i j l a b, inner i j l -> bord i j l a b -> i < a \/ b <= j.
Proof.
  intros i j l a b (H1 & H2 & (k & K & E) & _) (B1 & B2 & B3 & B4 & B5). destruct (Nat.lt_ge_cases i a); auto. destruct (Nat.le_gt_cases b j); auto. specialize (B5 k ltac:(lia)). lia.
Qed.
Lemma bord_node : forall i j l a b, inner i j l -> bord i j l a b -> lcp_interval v a (b - 1).
Proof.
  intros i j l a b H (B1 & B2 & B3 & B4 & B5). pose proof H as (H1 & H2 & H3 & H4 & H5). split; [lia|]. destruct (Nat.eq_dec a (b - 1)) as [E|E]; auto. right.
  destruct (min_ex (b - 2 - a) a) as (l2 & L1 & k & K & EK). exists l2. replace (a + S (b - 2 - a)) with (b - 1) in * by lia. pose proof (B5 k ltac:(lia)) as LL. rewrite EK in LL.
  split; [exact L1|]. split; [exists k; auto|]. split.
  - destruct B3 as [->|B3]; [|right; fold (av a); lia]. destruct H4 as [H4|H4]; auto. right. fold (av i). lia.
  - replace (b - 1 + 1) with b by lia. destruct B4 as [->|B4]; [|right; fold (av b); lia]. destruct H5 as [H5|H5]; [left; lia|right; fold (av (j + 1)); lia].
Qed.
Lemma bord_parent : forall i j l a b, inner i j l -> bord i j l a b -> parent_of v a (b - 1) i j.
Proof.
  intros i j l a b H Bd. pose proof (bord_neq _ _ _ _ _ H Bd) as NE. pose proof Bd as (B1 & B2 & B3 & B4 & B5). pose proof H as (H1 & H2 & H3 & H4 & H5).
  split; [eapply inner_node; eauto|]. split; [split; lia|]. split; [intros E; injection E; intros; lia|].
  intros x y XY (I1 & I2) NQ. assert (XB : x < a \/ b <= y). { destruct (Nat.lt_ge_cases x a); auto. destruct (Nat.le_gt_cases b y); auto. exfalso. apply NQ. f_equal; lia. }
  pose proof (node_lt _ _ XY) as YN. destruct (node_inner x y XY ltac:(lia)) as (l2 & X1 & X2 & X3 & X4 & X5).
  assert (LL : (l2 <= l)%N).
  { destruct XB as [XB|XB].
    - specialize (X2 a ltac:(lia)). destruct B3 as [->|B3]; [|lia]. destruct H4 as [->|H4]; lia.
    - specialize (X2 b ltac:(lia)). destruct B4 as [->|B4]; [|lia]. destruct H5 as [H5|H5]; lia. }
  split.
  - destruct X4 as [->|X4]; [lia|]. destruct (Nat.le_gt_cases x i); auto. specialize (H2 x ltac:(lia)). lia.
  - destruct X5 as [X5|X5]; [lia|]. destruct (Nat.le_gt_cases j y); auto. specialize (H2 (y + 1) ltac:(lia)). lia.
Qed.
(** the borders in order *)
Definition fl (l : N) (a b : nat) : list nat := min_positions v a b l.
Lemma fl_app : forall l a b e, a <= b <= e -> fl l a e = fl l a b ++ fl l b e.
Proof.
  intros l a b e L. unfold fl, min_positions. rewrite <- filter_app. f_equal. replace (e - a) with ((b - a) + (e - b)) by lia. rewrite seq_app. do 2 f_equal. lia.
Qed.
Lemma fl_nil : forall l a b, (forall k, a < k <= b -> av k <> l) -> fl l a b = [].
Proof.
  intros l a b H. unfold fl, min_positions. assert (X : forall m s, (forall k, s <= k < s + m -> av k <> l) -> filter (fun k => N.eqb (nth k v 0%N) l) (seq s m) = []).
  { induction m; intros s S; cbn [seq filter]; auto. fold (av s). rewrite (proj2 (N.eqb_neq _ _)) by (apply S; lia). apply IHm. intros; apply S; lia. }
  apply X. intros; apply H; lia.
Qed.
Lemma fl_one : forall l a b, a < b -> av b = l -> (forall k, a < k < b -> av k <> l) -> fl l a b = [b].
Proof.
  intros l a b L E H. rewrite (fl_app l a (b - 1) b) by lia. rewrite fl_nil by (intros; apply H; lia). unfold fl, min_positions. replace (b - (b - 1)) with 1 by lia. cbn [seq filter app].
  replace (b - 1 + 1) with b by lia. fold (av b). rewrite E, N.eqb_refl. auto.
Qed.
Lemma fl_In : forall l a b k, In k (fl l a b) <-> a < k <= b /\ av k = l.
Proof.
  intros. unfold fl, min_positions. rewrite filter_In, in_seq, N.eqb_eq. fold (av k). intuition lia.
Qed.
(** a child is between two neighbouring borders *)
Lemma next_border : forall l a j, a <= j -> exists b, a < b <= j + 1 /\ (b = j + 1 \/ av b = l) /\ forall k, a < k < b -> av k <> l.
Proof.
  intros l a j. remember (j - a) as m eqn:M. revert a M. induction m; intros a M L.
  - exists (j + 1). split; [lia|]. split; auto. intros; lia.
  - destruct (N.eq_dec (av (a + 1)) l) as [E|E].
    + exists (a + 1). split; [lia|]. split; auto. intros; lia.
    + destruct (IHm (a + 1) ltac:(lia) ltac:(lia)) as (b & B1 & B2 & B3). exists b. split; [lia|]. split; auto. intros k K. destruct (Nat.eq_dec k (a + 1)) as [->|]; auto. apply B3. lia.
Qed.
End I.
