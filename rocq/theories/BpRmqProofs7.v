(** * rmq_succinct_sct: the query *)
From Coq Require Import NArith ZArith List Bool Arith Lia.
From Verif Require Import Base SpecBits SpecBp SpecBpRmq SpecRmq AbsVec RankSelect WtBase WtProofs Bp BpProofs BpProofs2 BpProofs3 BpProofs4 BpProofs5 BpRmq BpRmqProofs BpRmqProofs2 BpRmqProofs3 BpRmqProofs4 BpRmqProofs5 BpRmqProofs6 CsaProofs2.
Import ListNotations.
Open Scope nat_scope.

Section R.
Variable tm : bool.
Variable v : list N.
Variable bp : list bool.
Local Notation n := (length v).
Local Notation lt := (ilt tm v).
Local Notation pos := (spos lt).
Hypothesis BITS : bits tm v bp n.
Lemma r_len : length bp = 2 * n.
Proof. apply BITS. Qed.
Lemma r_pn : forall i, i < n -> pos i < length bp.
Proof. intros i I. rewrite r_len. unfold spos. lia. Qed.
Lemma r_ones : forall p, p < length bp -> (nth p bp false = true <-> exists j, j < n /\ p = pos j).
Proof. intros p P. apply BITS. rewrite <- r_len. exact P. Qed.
Lemma r_ex : forall g p i, p <= length bp -> before pos n i p -> ex (xb g bp) p = (2 * Z.of_nat i - Z.of_nat p)%Z.
Proof. intros. apply (before_ex pos (spos_S lt) n bp r_pn r_ones); auto. Qed.
Lemma r_depth : forall g i, i < n -> ex (xb g bp) (pos i) = Z.of_nat (depth lt i).
Proof.
  intros g i I. rewrite (r_ex g _ i). 2: { pose proof (r_pn i I). lia. } 2: { apply (before_pos pos (spos_S lt) n bp r_pn r_ones); exact I. } unfold spos. pose proof (depth_le lt i). lia.
Qed.
Lemma r_bal : balanced bp.
Proof.
  set (g := fun _ : nat => false). assert (X : forall k, k <= length bp -> ex (fun i => nth i bp false) k = ex (xb g bp) k). { intros k K. apply ex_ext. intros i I. symmetry. apply f_in. lia. }
  apply (ex_balanced (length bp)); auto.
  - rewrite X by lia. destruct (Nat.eq_dec n 0) as [Z|Z].
    + rewrite r_len, Z. reflexivity.
    + rewrite (r_ex g _ n); [rewrite r_len; lia|lia|]. split; [lia|]. split; [right; apply r_pn; lia|auto].
  - intros k K. rewrite X by lia. destruct (before_exists pos (spos_S lt) n bp r_pn r_ones k K) as (i & H). rewrite (r_ex g _ i) by (auto; lia). destruct H as (H1 & H2 & H3). rewrite r_len in K. unfold spos in H3. lia.
Qed.
Lemma r_span : forall g m r, m < r < n -> ((forall q, pos m < q <= pos r -> (ex (xb g bp) q > ex (xb g bp) (pos m))%Z) <-> (forall i, m < i <= r -> better tm (nth m v 0%N) (nth i v 0%N))).
Proof.
  intros g m r L. assert (X : (forall i, m < i <= r -> better tm (nth m v 0%N) (nth i v 0%N)) <-> (forall i, m < i <= r -> lt i m = false)).
  { split; intros H i I; specialize (H i I); apply vlt_better; exact H. }
  rewrite X, <- (depth_spec lt (ilt_trans tm v) m r ltac:(lia)). clear X. split.
  - intros H i I. pose proof (H (pos i)) as Y. rewrite !r_depth in Y by lia. assert (Z : pos m < pos i <= pos r).
    { split; [apply pos_mono; [apply spos_S|lia]|]. destruct (Nat.eq_dec i r) as [->|NX]; auto. apply Nat.lt_le_incl, pos_mono; [apply spos_S|lia]. }
    specialize (Y Z). lia.
  - intros H q Q. assert (QL : q <= length bp) by (pose proof (r_pn r ltac:(lia)); lia). destruct (before_exists pos (spos_S lt) n bp r_pn r_ones q QL) as (i & Bi).
    rewrite (r_ex g q i QL Bi), r_depth by lia. destruct Bi as (H1 & H2 & H3).
    assert (IN : i <> n). { intros ->. destruct H2 as [H2|H2]; [lia|]. pose proof (pos_le pos (spos_S lt) r (n - 1)) as Y. destruct (Nat.eq_dec r (n - 1)) as [->|NX]; [lia|]. pose proof (pos_mono pos (spos_S lt) r (n - 1) ltac:(lia)). lia. }
    destruct H3 as [H3|H3]; [lia|]. assert (MI : m < i). { destruct (Nat.lt_ge_cases m i); auto. destruct (Nat.eq_dec i m) as [->|NX]; [lia|]. pose proof (pos_mono pos (spos_S lt) i m ltac:(lia)). lia. }
    destruct H2 as [H2|H2]; [lia|]. assert (IR : i <= r). { destruct (Nat.le_gt_cases i r); auto. pose proof (pos_le pos (spos_S lt) (i - 1) r ltac:(lia)). assert (IE : i - 1 = r) by lia. rewrite IE in H2. lia. }
    pose proof (H i ltac:(lia)) as D. unfold spos in H3. pose proof (depth_le lt i). lia.
Qed.
Lemma r_sel : forall i, i < n -> bp_select bp (i + 1) = Some (pos i).
Proof.
  intros i I. unfold bp_select. apply t_sel1_some; [|apply r_pn; exact I]. split.
  - unfold t_bit. apply r_ones; [apply r_pn; exact I|]. exists i. auto.
  - rewrite (before_rank pos (spos_S lt) n bp r_pn r_ones (pos i) i); auto. { pose proof (r_pn i I). lia. } apply (before_pos pos (spos_S lt) n bp r_pn r_ones); exact I.
Qed.
Lemma r_rank : forall i, i < n -> bp_rank bp (pos i) = Some (i + 1).
Proof.
  intros i I. pose proof (r_pn i I). unfold bp_rank. rewrite t_rank_some by lia. f_equal. replace (pos i + 1) with (S (pos i)) by lia. rewrite (before_rank pos (spos_S lt) n bp r_pn r_ones _ (S i)); [lia|lia|]. apply (before_S pos (spos_S lt) n bp r_pn r_ones); exact I.
Qed.
(** the leftmost best element of a range *)
Lemma best_ex : forall l r, l <= r -> exists m, is_rmq tm v l r m.
Proof.
  intros l r L. induction L as [|r L IH].
  - exists l. split; [lia|]. split; [|intros; lia]. intros i I. replace i with l by lia. unfold better. destruct tm; lia.
  - destruct IH as (m & M1 & M2 & M3). destruct (vlt tm (nth (S r) v 0%N) (nth m v 0%N)) eqn:E.
    + exists (S r). split; [lia|]. split.
      * intros i I. destruct (Nat.eq_dec i (S r)) as [->|NX]; [unfold better; destruct tm; lia|]. specialize (M2 i ltac:(lia)). unfold vlt, better in *. destruct tm; apply N.ltb_lt in E; lia.
      * intros i I. specialize (M2 i ltac:(lia)). unfold vlt, better in *. destruct tm; apply N.ltb_lt in E; lia.
    + exists m. split; [lia|]. split; [|exact M3]. intros i I. destruct (Nat.eq_dec i (S r)) as [->|NX]; [apply vlt_better; exact E|]. apply M2. lia.
Qed.

Variable g : padding.
Variables B deg : nat.
Hypothesis HB : B mod 8 = 0.
Hypothesis HB0 : 0 < B.
Hypothesis Hd : 2 <= deg.
Variable t : bps.
Hypothesis T : bp_make B deg bp = Some t.
Local Notation f := (xb g bp).
Lemma r_open : forall i, i < n -> f (pos i) = true.
Proof. intros i I. rewrite f_in by (apply r_pn; exact I). apply r_ones; [apply r_pn; exact I|]. eauto. Qed.
Theorem sct_query_ok : forall l r, l <= r < n -> exists m, sct_query g B deg bp t l r = Some m /\ is_rmq tm v l r m.
Proof.
  intros l r LR. unfold sct_query. destruct (Nat.eqb_spec l r) as [->|NE].
  { exists r. split; auto. split; [lia|]. split; [|intros; lia]. intros i I. replace i with r by lia. unfold better. destruct tm; lia. }
  rewrite !r_sel by lia. cbn [obind]. pose proof (r_open l ltac:(lia)) as FL. pose proof (r_open r ltac:(lia)) as FR.
  pose proof (r_pn l ltac:(lia)) as PL. pose proof (r_pn r ltac:(lia)) as PR.
  destruct (bal_close g bp r_bal (pos l) PL FL) as (fc & FC). rewrite (t_close g B deg HB HB0 Hd bp t T (pos l) fc FC). cbn [obind].
  pose proof (match_ex g bp _ _ FC) as (C1 & C2 & C3 & C4 & C5).
  assert (COVER : forall m, l < m < n -> (pos m < fc <-> forall i, l < i <= m -> better tm (nth l v 0%N) (nth i v 0%N))).
  { intros m M. rewrite <- (r_span g l m) by lia. pose proof (pos_mono pos (spos_S lt) l m ltac:(lia)) as PM. split.
    - intros H q Q. apply C5. lia.
    - intros H. destruct (Nat.lt_trichotomy (pos m) fc) as [|[E|GT]]; auto; exfalso. { rewrite <- E in C3. rewrite r_open in C3 by lia. discriminate. } pose proof (H (S fc) ltac:(lia)). lia. }
  destruct (best_ex l r ltac:(lia)) as (m & M1 & M2 & M3).
  destruct (Nat.ltb_spec (pos r) fc) as [L|L].
  - exists l. split; auto. split; [lia|]. split; [|intros; lia]. intros i I. destruct (Nat.eq_dec i l) as [->|NX]; [unfold better; destruct tm; lia|]. apply (COVER r ltac:(lia)); auto. lia.
  - assert (FN : fc < pos r). { destruct (Nat.eq_dec fc (pos r)) as [E|NX]; [|lia]. rewrite E, FR in C3. discriminate. }
    assert (NB : ~ (forall i, l < i <= r -> better tm (nth l v 0%N) (nth i v 0%N))). { intros X. apply (COVER r ltac:(lia)) in X. lia. }
    assert (ML : l < m). { destruct (Nat.eq_dec m l) as [->|NX]; [|lia]. exfalso. apply NB. intros i I. apply M2. lia. }
    assert (FM : fc < pos m). { destruct (Nat.lt_trichotomy fc (pos m)) as [|[E|X]]; auto; exfalso. { rewrite E, r_open in C3 by lia. discriminate. } apply (COVER m ltac:(lia)) with (i := m) in X; [|lia]. apply (M3 l ltac:(lia)). exact X. }
    destruct (rr_enclose_ok g B deg HB HB0 Hd bp r_bal t T (pos l) fc (pos r) FC ltac:(lia) FR) as (k & -> & K). cbn [obind].
    assert (AR : forall x, x < r -> (around bp (pos x) (pos r) <-> forall i, x < i <= r -> better tm (nth x v 0%N) (nth i v 0%N))).
    { intros x X. rewrite <- (r_span g x r) by lia. rewrite (around_ex g bp r_bal (pos x) (pos r)) by (auto; lia). pose proof (r_open x ltac:(lia)). pose proof (pos_mono pos (spos_S lt) x r X). tauto. }
    assert (ISP : forall y, around bp y (pos r) -> exists x, x < r /\ y = pos x).
    { intros y A. apply (around_ex g bp r_bal y (pos r)) in A; auto. destruct A as (A1 & A2 & _). rewrite f_in in A2 by lia. apply r_ones in A2; [|lia]. destruct A2 as (x & X & ->). exists x. split; auto. destruct (Nat.lt_ge_cases x r); auto. destruct (Nat.eq_dec x r) as [->|NX]; [lia|]. pose proof (pos_mono pos (spos_S lt) r x ltac:(lia)). lia. }
    assert (LOW : forall x, rr_spec bp fc (pos r) (pos x) -> x < r -> m <= x).
    { intros x [X1 X2] XR. pose proof (proj1 (AR x XR) X2) as X3. destruct (Nat.le_gt_cases m x) as [|XM]; auto. exfalso. assert (l < x). { destruct (Nat.lt_ge_cases l x); auto. destruct (Nat.eq_dec x l) as [->|NX]; [lia|]. pose proof (pos_mono pos (spos_S lt) x l ltac:(lia)). lia. }
      apply (M3 x ltac:(lia)). apply X3. lia. }
    destruct (Nat.eq_dec m r) as [->|MR].
    + destruct K as [[K1 _]|[_ ->]].
      * exfalso. destruct (ISP k (proj2 K1)) as (x & X & ->). pose proof (LOW x K1 X). lia.
      * rewrite Nat.eqb_refl. exists r. split; auto. split; [lia|]. auto.
    + assert (RM : rr_spec bp fc (pos r) (pos m)). { split; [split; [auto|apply pos_mono; [apply spos_S|lia]]|]. apply (proj2 (AR m ltac:(lia))). intros i I. apply M2. lia. }
      destruct K as [[K1 K2]|[K1 _]]; [|exfalso; apply (K1 _ RM)]. destruct (ISP k (proj2 K1)) as (x & X & ->). pose proof (LOW x K1 X) as LX. pose proof (K2 _ RM) as KX. apply (pos_le pos (spos_S lt)) in KX. assert (x = m) by lia. subst x.
      pose proof (r_pn m ltac:(lia)). rewrite (proj2 (Nat.eqb_neq _ _)) by lia. rewrite r_rank by lia. cbn [obind]. rewrite csub_le by lia. exists m. split; [f_equal; lia|]. split; [lia|]. auto.
Qed.
End R.

Theorem sct_ok : forall tm v g B deg, B mod 8 = 0 -> 0 < B -> 2 <= deg -> v <> [] ->
  exists bp t, sct_bp tm v = Some bp /\ bp_make B deg bp = Some t /\ forall l r, l <= r < length v -> exists m, sct_query g B deg bp t l r = Some m /\ is_rmq tm v l r m.
Proof.
  intros tm v g B deg HB HB0 Hd NE. destruct (sct_bp_ok tm v) as (bp & E & H). assert (NB : bp <> []). { destruct H as [L _]. intros ->. destruct v; [congruence|discriminate]. }
  destruct (make_ok g B deg bp HB0 ltac:(lia) NB) as (t & h & T & _). exists bp, t. split; auto. split; auto. intros l r L. apply (sct_query_ok tm v bp H g B deg HB HB0 Hd t T). exact L.
Qed.
