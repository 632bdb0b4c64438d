(** * The super-Cartesian tree and the range minimum queries over it *)
From Coq Require Import NArith ZArith List Bool Arith Lia.
From Verif Require Import Base SpecBits SpecBp SpecRmq AbsVec RankSelect WtBase WtProofs Bp BpProofs BpProofs2 BpProofs3 BpProofs4 BpProofs5 BpRmq BpRmqProofs BpRmqProofs2 BpRmqProofs3 BpRmqProofs4 CsaProofs2.
Import ListNotations.
Open Scope nat_scope.

(** ** bit vectors with ones exactly at increasing positions *)
Section Pos.
Variable pos : nat -> nat.
Hypothesis POS : forall i, pos i < pos (S i).
Lemma pos_mono : forall i j, i < j -> pos i < pos j.
Proof. intros i j L. induction L; [apply POS|]. pose proof (POS m). lia. Qed.
Lemma pos_le : forall i j, pos i <= pos j -> i <= j.
Proof. intros i j L. destruct (Nat.le_gt_cases i j); auto. pose proof (pos_mono j i ltac:(lia)). lia. Qed.
Variable n : nat.
Variable bp : list bool.
Hypothesis PN : forall i, i < n -> pos i < length bp.
Hypothesis ONES : forall p, p < length bp -> (nth p bp false = true <-> exists j, j < n /\ p = pos j).
(** i positions are in front of p *)
Definition before (i p : nat) : Prop := i <= n /\ (i = 0 \/ pos (i - 1) < p) /\ (i = n \/ p <= pos i).
Lemma before_step : forall i p, p < length bp -> before i (S p) -> (exists j, i = S j /\ p = pos j /\ before j p /\ nth p bp false = true) \/ (before i p /\ nth p bp false = false).
Proof.
  intros i p L (H1 & H2 & H3). destruct (Nat.eq_dec i 0) as [->|NZ].
  - right. split; [split; [lia|split; [auto|]]; destruct H3; [auto|right; lia]|]. destruct (nth p bp false) eqn:E; auto. apply ONES in E; auto. destruct E as (j & J & ->).
    destruct H3 as [H3|H3]; [lia|]. pose proof (pos_le (S j) 0). pose proof (POS j). destruct j; [lia|]. pose proof (pos_mono 0 (S j) ltac:(lia)). lia.
  - destruct H2 as [H2|H2]; [lia|]. destruct (Nat.eq_dec p (pos (i - 1))) as [E|NE].
    + left. exists (i - 1). split; [lia|]. split; auto. split; [|apply ONES; auto; exists (i - 1); split; [lia|auto]]. split; [lia|]. split; [|right; lia].
      destruct (Nat.eq_dec (i - 1) 0); auto. right. rewrite E. apply pos_mono. lia.
    + right. split; [split; [auto|]; split; [right; lia|destruct H3; [auto|right; lia]]|]. destruct (nth p bp false) eqn:E; auto. apply ONES in E; auto. destruct E as (j & J & ->).
      assert (i - 1 < j). { destruct (Nat.lt_ge_cases (i - 1) j); auto. exfalso. destruct (Nat.eq_dec j (i - 1)); [congruence|]. pose proof (pos_mono j (i - 1) ltac:(lia)). lia. }
      destruct H3 as [H3|H3]; [lia|]. pose proof (pos_le i j). destruct (Nat.eq_dec i j); [subst; lia|]. pose proof (pos_mono i j ltac:(lia)). lia.
Qed.
Lemma before_ex : forall g p i, p <= length bp -> before i p -> ex (xb g bp) p = (2 * Z.of_nat i - Z.of_nat p)%Z.
Proof.
  intros g. induction p; intros i L H.
  - destruct H as (H1 & H2 & H3). change (ex (xb g bp) 0) with 0%Z. lia.
  - assert (FI : xb g bp p = nth p bp false) by (apply f_in; lia). rewrite ex_S, FI. destruct (before_step i p ltac:(lia) H) as [(j & -> & _ & Bj & ->)|[Bi ->]].
    + rewrite (IHp j) by (auto; lia). cbn [stp]. lia.
    + rewrite (IHp i) by (auto; lia). cbn [stp]. lia.
Qed.
Lemma before_rank : forall p i, p <= length bp -> before i p -> rank_of (t_bit bp) p = i.
Proof.
  induction p; intros i L H.
  - destruct H as (H1 & H2 & H3). rewrite rank_of_0. lia.
  - rewrite rank_of_S. unfold t_bit at 2. destruct (before_step i p ltac:(lia) H) as [(j & -> & _ & Bj & ->)|[Bi ->]].
    + rewrite (IHp j) by (auto; lia). cbn. lia.
    + rewrite (IHp i) by (auto; lia). cbn. lia.
Qed.
Lemma before_pos : forall i, i < n -> before i (pos i).
Proof. intros i L. split; [lia|]. split; [|auto]. destruct i; auto. right. apply pos_mono. lia. Qed.
Lemma before_S : forall i, i < n -> before (S i) (S (pos i)).
Proof. intros i L. split; [lia|]. split; [right; replace (S i - 1) with i by lia; lia|]. destruct (Nat.eq_dec (S i) n); auto. right. apply POS. Qed.
Lemma before_exists : forall p, p <= length bp -> exists i, before i p.
Proof.
  induction p; intros L. { exists 0. split; [lia|]. split; auto. right. lia. }
  destruct (IHp ltac:(lia)) as (i & H1 & H2 & H3). destruct (Nat.eq_dec i n) as [E|NE]. { exists i. split; auto. split; auto. destruct H2; auto. }
  destruct H3 as [|H3]; [lia|]. destruct (Nat.eq_dec p (pos i)) as [E|E].
  - exists (S i). rewrite E. apply before_S. lia.
  - exists i. split; auto. split; [destruct H2; auto|right; lia].
Qed.
End Pos.

(** ** the stack *)
Section St.
Variable lt : nat -> nat -> bool.
Fixpoint popw (i : nat) (st : list nat) : list nat :=
  match st with [] => [] | j :: st' => if lt i j then popw i st' else st end.
Fixpoint stk (i : nat) : list nat := match i with 0 => [] | S i => i :: popw i (stk i) end.
Definition depth (i : nat) : nat := length (popw i (stk i)).
Definition spos (i : nat) : nat := 2 * i - depth i.
Lemma popw_len : forall i st, length (popw i st) <= length st.
Proof. intros i. induction st as [|j st IH]; cbn [popw]; auto. destruct (lt i j); cbn [length]; lia. Qed.
Lemma popw_lt : forall i k st, Forall (fun j => j < k) st -> Forall (fun j => j < k) (popw i st).
Proof. intros i k. induction st as [|j st IH]; intros F; cbn [popw]; auto. inversion F; subst. destruct (lt i j); auto. Qed.
Lemma stk_lt : forall i, Forall (fun j => j < i) (stk i).
Proof.
  induction i; cbn [stk]; [constructor|]. constructor; [lia|]. apply (Forall_impl (P := fun j => j < i)); [lia|]. apply popw_lt. exact IHi.
Qed.
Lemma stk_len : forall i, length (stk i) <= i.
Proof. induction i; cbn [stk length]; auto. pose proof (popw_len i (stk i)). lia. Qed.
Lemma depth_le : forall i, depth i <= i.
Proof. intros. unfold depth. pose proof (popw_len i (stk i)). pose proof (stk_len i). lia. Qed.
Lemma depth_S : forall i, depth (S i) <= S (depth i).
Proof. intros. unfold depth. pose proof (popw_len (S i) (stk (S i))) as H. cbn [stk length] in *. exact H. Qed.
Lemma spos_S : forall i, spos i < spos (S i).
Proof. intros. unfold spos. pose proof (depth_le i). pose proof (depth_S i). lia. Qed.
Definition undercut (m q : nat) : Prop := lt q m = true.
Lemma stk_above : forall m q, (forall x, m < x < q -> lt x m = false) -> m < q -> exists pre, stk q = pre ++ m :: popw m (stk m) /\ Forall (fun j => lt j m = false \/ False) pre /\ Forall (fun j => m < j < q) pre.
Proof.
  intros m q. induction q; intros H L; [lia|]. destruct (Nat.eq_dec m q) as [->|NE].
  { exists []. split; [reflexivity|]. auto. }
  destruct IHq as (pre & E & F1 & F2); [intros; apply H; lia|lia|]. cbn [stk]. rewrite E.
  assert (X : forall p, Forall (fun j => lt j m = false \/ False) p -> Forall (fun j => m < j < q) p -> exists p', popw q (p ++ m :: popw m (stk m)) = p' ++ m :: popw m (stk m) /\ Forall (fun j => lt j m = false \/ False) p' /\ Forall (fun j => m < j < q) p').
  { induction p as [|j p IH]; intros G1 G2; cbn [app popw]. { rewrite (H q) by lia. exists []. auto. }
    destruct (lt q j). { inversion G1; inversion G2; subst. apply IH; auto. } exists (j :: p). auto. }
  destruct (X pre F1 F2) as (p' & E' & G1 & G2). exists (q :: p'). split; [rewrite E'; reflexivity|]. split.
  - constructor; auto. left. apply H. lia.
  - constructor; [lia|]. apply (Forall_impl (P := fun j => m < j < q)); [lia|exact G2].
Qed.
Hypothesis LT : forall x y z, lt x y = true -> lt z y = false -> lt x z = true.
Lemma depth_spec : forall m q, m < q -> ((forall i, m < i <= q -> depth m < depth i) <-> (forall i, m < i <= q -> lt i m = false)).
Proof.
  intros m q L. split.
  - intros H. assert (X : forall k i, i <= k -> m < i <= q -> lt i m = false); [|intros i I; apply (X i i); auto].
    induction k; intros i K I; [lia|]. destruct (lt i m) eqn:E; auto. exfalso. destruct (stk_above m i) as (pre & EQ & F1 & F2); [|lia|].
    { intros x X. apply IHk; lia. }
    pose proof (H i I) as D. unfold depth in D. rewrite EQ in D. assert (PP : popw i (pre ++ m :: popw m (stk m)) = popw i (popw m (stk m))).
    { clear - E F1 LT. induction pre as [|j p IH]; cbn [app popw]; [rewrite E; auto|]. inversion F1 as [|? ? HH ?]; subst. destruct HH as [HH|[]]. rewrite (LT i m j E HH). auto. }
    rewrite PP in D. pose proof (popw_len i (popw m (stk m))). lia.
  - intros H i I. destruct (stk_above m (S i)) as (pre & EQ & _ & F2); [intros; apply H; lia|lia|]. cbn [stk] in EQ. unfold depth.
    destruct pre as [|x pre]; cbn [app] in EQ; injection EQ as EQ1 EQ2; [lia|]. rewrite EQ2, app_length. cbn [length]. lia.
Qed.
End St.
