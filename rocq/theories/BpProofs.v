(** * Proofs about the block scans of bp_support_algorithm.cpp *)
From Coq Require Import NArith ZArith List Bool Arith Lia.
From Verif Require Import Base SpecBits AbsVec WtBase WtProofs Bp.
Import ListNotations.
Open Scope Z_scope.

(** excess of the first p parentheses of an infinite sequence *)
Fixpoint ex (f : nat -> bool) (p : nat) : Z := match p with O => 0 | S p => ex f p + stp (f p) end.
Definition xb (g : padding) (bp : list bool) (j : nat) : bool := nth j bp (g j).
Definition cap (bp : list bool) : nat := (64 * ((length bp + 64) / 64))%nat.

Lemma stp_pm : forall b, stp b = 1 \/ stp b = -1.
Proof. destruct b; auto. Qed.
Lemma ex_S : forall f p, ex f (S p) = ex f p + stp (f p).
Proof. reflexivity. Qed.
Lemma ex_step : forall f p, ex f p - 1 <= ex f (S p) <= ex f p + 1.
Proof. intros. rewrite ex_S. destruct (stp_pm (f p)); lia. Qed.
Lemma ex_bound : forall f p, - Z.of_nat p <= ex f p <= Z.of_nat p.
Proof. induction p; [simpl; lia|]. pose proof (ex_step f p). lia. Qed.
Lemma ex_lip : forall f a k, ex f a - Z.of_nat k <= ex f (a + k) <= ex f a + Z.of_nat k.
Proof. induction k; [rewrite Nat.add_0_r; lia|]. replace (a + S k)%nat with (S (a + k)) by lia. pose proof (ex_step f (a + k)). lia. Qed.
Lemma cap_n : forall bp, (length bp < cap bp)%nat.
Proof. intros. unfold cap. pose proof (Nat.div_mod (length bp + 64) 64 ltac:(lia)). pose proof (Nat.mod_upper_bound (length bp + 64) 64 ltac:(lia)). lia. Qed.
Lemma cap_mod : forall bp, exists q, cap bp = (8 * q)%nat.
Proof. intros. exists (8 * ((length bp + 64) / 64))%nat. unfold cap. lia. Qed.
Lemma rd_some : forall g bp j, (j < cap bp)%nat -> rd g bp j = Some (xb g bp j).
Proof. intros. unfold rd. fold (cap bp). rewrite (proj2 (Nat.ltb_lt _ _) H). reflexivity. Qed.
Lemma rd8_some : forall g bp j, (j < cap bp)%nat -> rd8 g bp j = Some (map (xb g bp) (seq j 8)).
Proof. intros. unfold rd8. fold (cap bp). rewrite (proj2 (Nat.ltb_lt _ _) H). reflexivity. Qed.

(** intermediate values *)
Lemma ivt_dn : forall f T a k, ex f a >= T -> ex f (a + k) <= T -> exists j, (a <= j <= a + k)%nat /\ ex f j = T.
Proof.
  induction k; intros A B.
  - exists a. rewrite Nat.add_0_r in B. split; lia.
  - replace (a + S k)%nat with (S (a + k)) in * by lia. pose proof (ex_step f (a + k)).
    destruct (Z_le_gt_dec (ex f (a + k)) T). + destruct (IHk A l) as (j & J & E). exists j. split; [lia|exact E].
    + exists (S (a + k)). split; lia.
Qed.
Lemma ivt_up : forall f T a k, ex f a <= T -> ex f (a + k) >= T -> exists j, (a <= j <= a + k)%nat /\ ex f j = T.
Proof.
  induction k; intros A B.
  - exists a. rewrite Nat.add_0_r in B. split; lia.
  - replace (a + S k)%nat with (S (a + k)) in * by lia. pose proof (ex_step f (a + k)).
    destruct (Z_ge_lt_dec (ex f (a + k)) T) as [G|G]. + destruct (IHk A G) as (j & J & E). exists j. split; [lia|exact E].
    + exists (S (a + k)). split; lia.
Qed.

(** facts about the bounds of the loops *)
Lemma up8 : forall i, (i <= (i + 7) / 8 * 8 < i + 8)%nat.
Proof. intros. pose proof (Nat.div_mod (i + 7) 8 ltac:(lia)). pose proof (Nat.mod_upper_bound (i + 7) 8 ltac:(lia)). lia. Qed.
Lemma dn8 : forall i, (i / 8 * 8 <= i < i / 8 * 8 + 8)%nat.
Proof. intros. pose proof (Nat.div_mod i 8 ltac:(lia)). pose proof (Nat.mod_upper_bound i 8 ltac:(lia)). lia. Qed.
Lemma blk : forall i B, (0 < B)%nat -> (i / B * B <= i < (i / B + 1) * B)%nat.
Proof. intros. pose proof (Nat.div_mod i B ltac:(lia)). pose proof (Nat.mod_upper_bound i B ltac:(lia)). nia. Qed.

(** ** Forward *)
Definition hit (f : nat -> bool) (T : Z) (a j : nat) : Prop := (a <= j)%nat /\ ex f (S j) = T /\ forall k, (a <= k < j)%nat -> ex f (S k) > T.
Definition miss (f : nat -> bool) (T : Z) (a b : nat) : Prop := forall k, (a <= k < b)%nat -> ex f (S k) > T.

Section F.
Variable g : padding.
Variable bp : list bool.
Let f := xb g bp.
Lemma nf_hit : forall k T a j, hit f T a j -> (j < a + k)%nat -> (j < cap bp)%nat -> nf_scan g bp (seq a k) (T - ex f a) = Some (Fnd j).
Proof.
  induction k; intros T a j (A & E & M) L C; [lia|]. cbn [seq nf_scan].
  rewrite rd_some by lia. cbn [obind]. fold f. replace (T - ex f a - stp (f a)) with (T - ex f (S a)) by (rewrite ex_S; lia).
  destruct (Nat.eq_dec a j) as [->|N].
  - rewrite E. replace (T - T) with 0 by lia. reflexivity.
  - specialize (M a ltac:(lia)) as Ma. replace (T - ex f (S a) =? 0) with false by (symmetry; apply Z.eqb_neq; lia).
    apply IHk; [|lia|exact C]. split; [lia|]. split; [exact E|]. intros; apply M; lia.
Qed.
Lemma nf_miss : forall k T a, miss f T a (a + k) -> (a + k <= cap bp)%nat -> nf_scan g bp (seq a k) (T - ex f a) = Some (Go (T - ex f (a + k))).
Proof.
  induction k; intros T a M C. - rewrite Nat.add_0_r. reflexivity.
  - cbn [seq nf_scan]. rewrite rd_some by lia. cbn [obind]. fold f. replace (T - ex f a - stp (f a)) with (T - ex f (S a)) by (rewrite ex_S; lia).
    specialize (M a ltac:(lia)) as Ma. replace (T - ex f (S a) =? 0) with false by (symmetry; apply Z.eqb_neq; lia).
    rewrite IHk; [|intros q Q; apply M; lia|lia]. replace (S a + k)%nat with (a + S k)%nat by lia. reflexivity.
Qed.
Lemma fwd_pos_hit : forall k T a j p c, hit f T a j -> (j < a + k)%nat -> fwd_pos (map f (seq a k)) p (ex f a - c) (T - c) = (p + (j - a))%nat.
Proof.
  induction k; intros T a j p c (A & E & M) L; [lia|]. cbn [seq map fwd_pos].
  replace (ex f a - c + stp (f a)) with (ex f (S a) - c) by (rewrite ex_S; lia).
  destruct (Nat.eq_dec a j) as [->|N].
  - rewrite E, Z.eqb_refl. lia.
  - specialize (M a ltac:(lia)) as Ma. replace (ex f (S a) - c =? T - c) with false by (symmetry; apply Z.eqb_neq; lia).
    rewrite (IHk T (S a) j); [lia| |lia]. split; [lia|]. split; [exact E|]. intros; apply M; lia.
Qed.
Lemma fwd_pos_miss : forall k T a p c, miss f T a (a + k) -> fwd_pos (map f (seq a k)) p (ex f a - c) (T - c) = 8%nat.
Proof.
  induction k; intros T a p c M; [reflexivity|]. cbn [seq map fwd_pos].
  replace (ex f a - c + stp (f a)) with (ex f (S a) - c) by (rewrite ex_S; lia).
  specialize (M a ltac:(lia)) as Ma. replace (ex f (S a) - c =? T - c) with false by (symmetry; apply Z.eqb_neq; lia).
  apply IHk. intros q Q; apply M; lia.
Qed.
Lemma wsum_gen : forall k a c, fold_left (fun e b => e + stp b) (map f (seq a k)) (ex f a - c) = ex f (a + k) - c.
Proof.
  induction k; intros; cbn [seq map fold_left]. - rewrite Nat.add_0_r. reflexivity.
  - replace (ex f a - c + stp (f a)) with (ex f (S a) - c) by (rewrite ex_S; lia). rewrite IHk. replace (S a + k)%nat with (a + S k)%nat by lia. reflexivity.
Qed.
Lemma wsum : forall a, word_sum (map f (seq a 8)) = ex f (a + 8) - ex f a.
Proof. intros. unfold word_sum. replace 0 with (ex f a - ex f a) at 1 by lia. apply wsum_gen. Qed.

Lemma nfb_hit : forall k T a j, ex f a > T -> hit f T a j -> (j < a + 8 * k)%nat -> (j < cap bp)%nat -> nf_bytes g bp k a (T - ex f a + 8) = Some (Fnd j).
Proof.
  induction k; intros T a j P H L C; [destruct H; lia|]. cbn [nf_bytes]. pose proof H as (A & E & M).
  rewrite rd8_some by lia. cbn [obind]. fold f. unfold near_fwd_pos.
  destruct (Nat.lt_ge_cases j (a + 8)) as [Q|Q].
  - assert (R : 0 <= T - ex f a + 8). { replace (S j) with (a + (S j - a))%nat in E by lia. pose proof (ex_lip f a (S j - a)). lia. }
    rewrite (proj2 (Z.leb_le _ _) R). rewrite (proj2 (Z.leb_le _ 16)) by lia. rewrite (proj2 (Z.ltb_lt _ 16)) by lia. cbn [andb obind].
    replace (T - ex f a + 8 - 8) with (T - ex f a) by lia. replace 0 with (ex f a - ex f a) by lia.
    rewrite (fwd_pos_hit 8 T a j) by (exact H || lia). rewrite Nat.add_0_l. rewrite (proj2 (Nat.ltb_lt _ _)) by lia. do 2 f_equal. lia.
  - assert (X : (if (0 <=? T - ex f a + 8) && (T - ex f a + 8 <=? 16) then (if (0 <=? T - ex f a + 8) && (T - ex f a + 8 <? 16) then Some (fwd_pos (map f (seq a 8)) 0 0 (T - ex f a + 8 - 8)) else None) else Some 8%nat) = Some 8%nat).
    { destruct (0 <=? T - ex f a + 8); [|reflexivity]. cbn [andb]. rewrite (proj2 (Z.leb_le _ 16)) by lia. rewrite (proj2 (Z.ltb_lt _ 16)) by lia.
      replace (T - ex f a + 8 - 8) with (T - ex f a) by lia. replace 0 with (ex f a - ex f a) at 1 by lia. rewrite fwd_pos_miss; [reflexivity|]. intros q Y; apply M; lia. }
    rewrite X. cbn [obind]. change (8 <? 8)%nat with false. cbn [andb]. rewrite wsum. replace (T - ex f a + 8 - (ex f (a + 8) - ex f a)) with (T - ex f (a + 8) + 8) by lia.
    apply IHk; [|split; [lia|split; [exact E|intros; apply M; lia]]|lia|exact C].
    replace (a + 8)%nat with (S (a + 7)) by lia. apply M. lia.
Qed.
Lemma nfb_miss : forall k T a, ex f a > T -> miss f T a (a + 8 * k) -> (a + 8 * k <= cap bp)%nat -> nf_bytes g bp k a (T - ex f a + 8) = Some (Go (T - ex f (a + 8 * k) + 8)).
Proof.
  induction k; intros T a P M C. - rewrite Nat.mul_0_r, Nat.add_0_r. reflexivity.
  - cbn [nf_bytes]. rewrite rd8_some by lia. cbn [obind]. fold f. unfold near_fwd_pos.
    assert (X : (if (0 <=? T - ex f a + 8) && (T - ex f a + 8 <=? 16) then (if (0 <=? T - ex f a + 8) && (T - ex f a + 8 <? 16) then Some (fwd_pos (map f (seq a 8)) 0 0 (T - ex f a + 8 - 8)) else None) else Some 8%nat) = Some 8%nat).
    { destruct (0 <=? T - ex f a + 8); [|reflexivity]. cbn [andb]. rewrite (proj2 (Z.leb_le _ 16)) by lia. rewrite (proj2 (Z.ltb_lt _ 16)) by lia.
      replace (T - ex f a + 8 - 8) with (T - ex f a) by lia. replace 0 with (ex f a - ex f a) at 1 by lia. rewrite fwd_pos_miss; [reflexivity|]. intros q Y; apply M; lia. }
    rewrite X. cbn [obind]. change (8 <? 8)%nat with false. cbn [andb]. rewrite wsum. replace (T - ex f a + 8 - (ex f (a + 8) - ex f a)) with (T - ex f (a + 8) + 8) by lia.
    rewrite IHk; [replace (a + 8 + 8 * k)%nat with (a + 8 * S k)%nat by lia; reflexivity| |intros q Y; apply M; lia|lia].
    replace (a + 8)%nat with (S (a + 7)) by lia. apply M. lia.
Qed.

Variable B c : nat.
Hypothesis HB : B = (8 * c)%nat.
Hypothesis Hc : (0 < c)%nat.
Let en i := ((i / B + 1) * B)%nat.
Lemma en8 : forall i, (en i / 8 * 8)%nat = en i.
Proof. intros. unfold en. rewrite HB. replace ((i / (8 * c) + 1) * (8 * c))%nat with ((i / (8 * c) + 1) * c * 8)%nat by ring. rewrite Nat.div_mul; lia. Qed.
Lemma l_en : forall i, ((i + 7) / 8 * 8 <= en i)%nat.
Proof.
  intros. pose proof (blk i B ltac:(lia)) as H. fold (en i) in H. pose proof (up8 i). pose proof (en8 i) as E.
  assert (X : ((i + 7) / 8 <= en i / 8)%nat) by lia. nia.
Qed.

Theorem near_fwd_hit : forall T i j, ex f i > T -> hit f T i j -> (j < en i)%nat -> (j < cap bp)%nat -> near_fwd_excess g bp i (T - ex f i) B = Some j.
Proof.
  intros T i j P H L C. unfold near_fwd_excess. fold (en i). pose proof (l_en i) as L1. pose proof (up8 i) as U. pose proof (en8 i) as E8.
  set (l := ((i + 7) / 8 * 8)%nat) in *. rewrite E8. rewrite (Nat.min_r (en i) l) by lia. pose proof H as (A & E & M).
  destruct (Nat.lt_ge_cases j l) as [Q|Q].
  - rewrite (nf_hit _ _ _ j) by (exact H || lia). reflexivity.
  - destruct (cap_mod bp) as [cq CQ].
    rewrite nf_miss; [|intros q Y; apply M; lia|unfold l in *; lia]. cbn [obind]. replace (i + (l - i))%nat with l by lia.
    rewrite (nfb_hit _ _ _ j); [reflexivity| | | |exact C].
    + destruct (Nat.eq_dec l i) as [->|N]; [exact P|]. replace l with (S (l - 1)) by lia. apply M. lia.
    + split; [lia|]. split; [exact E|]. intros; apply M; lia.
    + assert (X : (8 * ((en i - l) / 8) = en i - l)%nat).
      { rewrite <- E8. unfold l. rewrite <- Nat.mul_sub_distr_r, Nat.div_mul by lia. lia. }
      lia.
Qed.
Theorem near_fwd_miss : forall T i, ex f i > T -> miss f T i (en i) -> (en i <= cap bp)%nat -> near_fwd_excess g bp i (T - ex f i) B = csub i 1.
Proof.
  intros T i P M C. unfold near_fwd_excess. fold (en i). pose proof (l_en i) as L1. pose proof (up8 i) as U. pose proof (en8 i) as E8.
  set (l := ((i + 7) / 8 * 8)%nat) in *. rewrite E8. rewrite (Nat.min_r (en i) l) by lia.
  rewrite nf_miss; [|intros q Y; apply M; lia|lia]. cbn [obind]. replace (i + (l - i))%nat with l by lia.
  assert (X : (8 * ((en i - l) / 8) = en i - l)%nat).
  { rewrite <- E8. unfold l. rewrite <- Nat.mul_sub_distr_r, Nat.div_mul by lia. lia. }
  rewrite nfb_miss; [|destruct (Nat.eq_dec l i) as [->|N]; [exact P|]; replace l with (S (l - 1)) by lia; apply M; lia|intros q Y; apply M; lia|lia].
  cbn [obind]. rewrite Nat.max_r by lia. rewrite Nat.sub_diag. reflexivity.
Qed.

(** ** Backward: the largest p <= b with excess T *)
Definition bhit (T : Z) (p b : nat) : Prop := (p <= b)%nat /\ ex f p = T /\ forall k, (p < k <= b)%nat -> ex f k > T.
Definition bmiss (T : Z) (a b : nat) : Prop := forall k, (a <= k <= b)%nat -> ex f k > T.

Lemma rev_seq_S : forall a k, rev (seq a (S k)) = (a + k)%nat :: rev (seq a k).
Proof. intros. rewrite seq_S, rev_app_distr. reflexivity. Qed.
Lemma nb_hit : forall k T a p, (p < a + k)%nat -> (a <= p)%nat -> ex f p = T -> (forall q, (p < q < a + k)%nat -> ex f q > T) -> (a + k <= cap bp)%nat ->
  nb_scan g bp (rev (seq a k)) (T - ex f (a + k)) = Some (Fnd p).
Proof.
  induction k; intros T a p L A E M C; [lia|]. rewrite rev_seq_S. cbn [nb_scan]. rewrite rd_some by lia. cbn [obind]. fold f.
  replace (T - ex f (a + S k) + stp (f (a + k)%nat)) with (T - ex f (a + k)) by (replace (a + S k)%nat with (S (a + k)) by lia; rewrite ex_S; lia).
  destruct (Nat.eq_dec p (a + k)) as [->|N].
  - rewrite E. replace (T - T) with 0 by lia. reflexivity.
  - pose proof (M (a + k)%nat ltac:(lia)). replace (T - ex f (a + k) =? 0) with false by (symmetry; apply Z.eqb_neq; lia).
    apply IHk; try lia. intros; apply M; lia.
Qed.
Lemma nb_miss : forall k T a, (forall q, (a <= q < a + k)%nat -> ex f q > T) -> (a + k <= cap bp)%nat ->
  nb_scan g bp (rev (seq a k)) (T - ex f (a + k)) = Some (Go (T - ex f a)).
Proof.
  induction k; intros T a M C. - rewrite Nat.add_0_r. reflexivity.
  - rewrite rev_seq_S. cbn [nb_scan]. rewrite rd_some by lia. cbn [obind]. fold f.
    replace (T - ex f (a + S k) + stp (f (a + k)%nat)) with (T - ex f (a + k)) by (replace (a + S k)%nat with (S (a + k)) by lia; rewrite ex_S; lia).
    pose proof (M (a + k)%nat ltac:(lia)). replace (T - ex f (a + k) =? 0) with false by (symmetry; apply Z.eqb_neq; lia).
    apply IHk; [intros; apply M; lia|lia].
Qed.
Lemma bwd_pos_hit : forall k T a p c m, (p < a + k)%nat -> (a <= p)%nat -> ex f p = T -> (forall q, (p < q < a + k)%nat -> ex f q > T) -> (k <= m + 1)%nat ->
  bwd_pos (rev (map f (seq a k))) m (ex f (a + k) - c) (T - c) = (m - (a + k - 1 - p))%nat.
Proof.
  induction k; intros T a p c0 m L A E M C; [lia|]. rewrite <- map_rev, rev_seq_S. cbn [map bwd_pos].
  replace (ex f (a + S k) - c0 - stp (f (a + k)%nat)) with (ex f (a + k) - c0) by (replace (a + S k)%nat with (S (a + k)) by lia; rewrite ex_S; lia).
  destruct (Nat.eq_dec p (a + k)) as [->|N].
  - rewrite E, Z.eqb_refl. lia.
  - pose proof (M (a + k)%nat ltac:(lia)). replace (ex f (a + k) - c0 =? T - c0) with false by (symmetry; apply Z.eqb_neq; lia).
    rewrite map_rev. rewrite (IHk T a p); try lia. intros; apply M; lia.
Qed.
Lemma bwd_pos_miss : forall k T a c m, (forall q, (a <= q < a + k)%nat -> ex f q > T) -> bwd_pos (rev (map f (seq a k))) m (ex f (a + k) - c) (T - c) = 8%nat.
Proof.
  induction k; intros T a c0 m M; [reflexivity|]. rewrite <- map_rev, rev_seq_S. cbn [map bwd_pos].
  replace (ex f (a + S k) - c0 - stp (f (a + k)%nat)) with (ex f (a + k) - c0) by (replace (a + S k)%nat with (S (a + k)) by lia; rewrite ex_S; lia).
  pose proof (M (a + k)%nat ltac:(lia)). replace (ex f (a + k) - c0 =? T - c0) with false by (symmetry; apply Z.eqb_neq; lia).
  rewrite map_rev. apply IHk. intros; apply M; lia.
Qed.
Lemma nbb_step : forall T a, ex f (a + 8) > T -> (forall q, (a <= q < a + 8)%nat -> ex f q > T) ->
  (if (0 <=? T - ex f (a + 8) + 8) && (T - ex f (a + 8) + 8 <=? 16) then near_bwd_pos (T - ex f (a + 8) + 8) (map f (seq a 8)) else Some 8%nat) = Some 8%nat.
Proof.
  intros T a P M. unfold near_bwd_pos. destruct (0 <=? T - ex f (a + 8) + 8); [|reflexivity]. cbn [andb]. rewrite (proj2 (Z.leb_le _ 16)) by lia. rewrite (proj2 (Z.ltb_lt _ 16)) by lia.
  replace (T - ex f (a + 8) + 8 - 8) with (T - ex f (a + 8)) by lia. replace 0 with (ex f (a + 8) - ex f (a + 8)) at 1 by lia. rewrite bwd_pos_miss; [reflexivity|exact M].
Qed.
(** the k bytes that end before position a + 8k *)
Lemma nbb_hit : forall k T a p, ex f (a + 8 * k) > T -> (a <= p < a + 8 * k)%nat -> ex f p = T -> (forall q, (p < q < a + 8 * k)%nat -> ex f q > T) -> (a + 8 * k <= cap bp)%nat ->
  nb_bytes g bp k (a + 8 * k - 8) (T - ex f (a + 8 * k) + 8) = Some (Fnd p).
Proof.
  induction k; intros T a p P L E M C; [lia|]. cbn [nb_bytes]. rewrite rd8_some by lia. cbn [obind]. fold f.
  replace (a + 8 * S k - 8)%nat with (a + 8 * k)%nat by lia. replace (a + 8 * S k)%nat with (a + 8 * k + 8)%nat in * by lia.
  destruct (Nat.lt_ge_cases p (a + 8 * k)) as [Q|Q].
  - rewrite nbb_step; [|exact P|intros; apply M; lia]. cbn [obind]. change (8 <? 8)%nat with false. cbv iota.
    rewrite wsum. replace (T - ex f (a + 8 * k + 8) + 8 + (ex f (a + 8 * k + 8) - ex f (a + 8 * k))) with (T - ex f (a + 8 * k) + 8) by lia.
    apply IHk; try lia. + apply M; lia. + intros; apply M; lia.
  - assert (R : 0 <= T - ex f (a + 8 * k + 8) + 8).
    { pose proof (ex_lip f p (a + 8 * k + 8 - p)) as X. replace (p + (a + 8 * k + 8 - p))%nat with (a + 8 * k + 8)%nat in X by lia. lia. }
    unfold near_bwd_pos. rewrite (proj2 (Z.leb_le _ _) R). rewrite (proj2 (Z.leb_le _ 16)) by lia. rewrite (proj2 (Z.ltb_lt _ 16)) by lia. cbn [andb obind].
    replace (T - ex f (a + 8 * k + 8) + 8 - 8) with (T - ex f (a + 8 * k + 8)) by lia. replace 0 with (ex f (a + 8 * k + 8) - ex f (a + 8 * k + 8)) by lia.
    rewrite (bwd_pos_hit 8 T (a + 8 * k) p); [|lia|lia|exact E|intros; apply M; lia|lia].
    rewrite (proj2 (Nat.ltb_lt _ _)) by lia. do 2 f_equal. lia.
Qed.
Lemma nbb_miss : forall k T a, (forall q, (a <= q <= a + 8 * k)%nat -> ex f q > T) -> (a + 8 * k <= cap bp)%nat ->
  nb_bytes g bp k (a + 8 * k - 8) (T - ex f (a + 8 * k) + 8) = Some (Go (T - ex f a + 8)).
Proof.
  induction k; intros T a M C. - rewrite Nat.mul_0_r, Nat.add_0_r. reflexivity.
  - cbn [nb_bytes]. rewrite rd8_some by lia. cbn [obind]. fold f.
    replace (a + 8 * S k - 8)%nat with (a + 8 * k)%nat by lia. replace (a + 8 * S k)%nat with (a + 8 * k + 8)%nat in * by lia.
    rewrite nbb_step; [|apply M; lia|intros; apply M; lia]. cbn [obind]. change (8 <? 8)%nat with false. cbv iota.
    rewrite wsum. replace (T - ex f (a + 8 * k + 8) + 8 + (ex f (a + 8 * k + 8) - ex f (a + 8 * k))) with (T - ex f (a + 8 * k) + 8) by lia.
    apply IHk; [|lia]. intros; apply M; lia.
Qed.

Let bg i := (i / B * B)%nat.
Lemma bg8 : forall i, ((bg i + 7) / 8 * 8)%nat = bg i.
Proof. intros. unfold bg. rewrite HB. replace (i / (8 * c) * (8 * c) + 7)%nat with (7 + i / (8 * c) * c * 8)%nat by ring. rewrite Nat.div_add by lia. change (7 / 8)%nat with 0%nat. lia. Qed.
Lemma bg_r : forall i, (bg i <= i / 8 * 8)%nat.
Proof.
  intros. pose proof (blk i B ltac:(lia)) as H. fold (bg i) in H. pose proof (bg8 i) as E. pose proof (dn8 i).
  assert (((bg i + 7) / 8 <= i / 8)%nat) by lia. nia.
Qed.
Lemma bg_len : forall i, (8 * ((i / 8 * 8 - bg i) / 8) = i / 8 * 8 - bg i)%nat.
Proof. intros. rewrite <- (bg8 i). rewrite <- Nat.mul_sub_distr_r, Nat.div_mul by lia. lia. Qed.

(** near_bwd_excess(i', rel) where i = i'+1 is the position at which the search starts *)
Theorem near_bwd_hit : forall T i p, bhit T p (S i) -> (bg i <= p)%nat -> (S i < length bp)%nat ->
  near_bwd_excess g bp i (T - ex f (S (S i))) B = Some (Z.of_nat p - 1).
Proof.
  intros T i p (A & E & M) L C. pose proof (cap_n bp) as CN. unfold near_bwd_excess. fold (bg i). rewrite bg8. pose proof (bg_r i) as R. pose proof (bg_len i) as BL. pose proof (dn8 i) as D8.
  set (r := (i / 8 * 8)%nat) in *. rewrite (Nat.max_l r (bg i)) by lia.
  replace (S (S i)) with (r + (i + 2 - r))%nat at 1 by lia.
  destruct (Nat.lt_ge_cases p r) as [Q|Q].
  - rewrite nb_miss; [|intros; apply M; lia|lia]. cbn [obind].
    replace r with (bg i + 8 * ((r - bg i) / 8))%nat at 2 3 by lia.
    rewrite (nbb_hit _ T (bg i) p); [reflexivity|apply M; lia|lia|exact E|intros; apply M; lia|lia].
  - rewrite (nb_hit _ T r p); [reflexivity|lia|lia|exact E|intros; apply M; lia|lia].
Qed.
Theorem near_bwd_miss : forall T i, bmiss T (bg i) (S i) -> (S i < length bp)%nat ->
  near_bwd_excess g bp i (T - ex f (S (S i))) B = Some (if (bg i =? 0)%nat && (T - ex f (S (S i)) =? -1) then -1 else Z.of_nat i + 1).
Proof.
  intros T i M C. pose proof (cap_n bp) as CN. unfold near_bwd_excess. fold (bg i). rewrite bg8. pose proof (bg_r i) as R. pose proof (bg_len i) as BL. pose proof (dn8 i) as D8.
  set (r := (i / 8 * 8)%nat) in *. rewrite (Nat.max_l r (bg i)) by lia.
  replace (S (S i)) with (r + (i + 2 - r))%nat at 1 by lia.
  rewrite nb_miss; [|intros; apply M; lia|lia]. cbn [obind].
  replace r with (bg i + 8 * ((r - bg i) / 8))%nat at 2 3 by lia.
  rewrite (nbb_miss _ T (bg i)); [|intros; apply M; lia|lia]. cbn [obind]. rewrite Nat.min_l by lia. rewrite Nat.sub_diag. cbn [seq rev nb_scan obind].
  destruct ((bg i =? 0)%nat && (T - ex f (S (S i)) =? -1)); reflexivity.
Qed.
End F.

(** the rank support gives the excess *)
Lemma exc_ok : forall g bp p, (p <= length bp)%nat -> exc bp p = Some (ex (xb g bp) p).
Proof.
  intros g bp p H. unfold exc. rewrite t_rank_some by exact H. cbn [obind]. f_equal.
  induction p; [reflexivity|]. specialize (IHp ltac:(lia)). rewrite ex_S, <- IHp. unfold stp, xb.
  rewrite RankSelect.rank_of_S. unfold t_bit.
  rewrite (nth_indep bp (g p) false) by lia. destruct (nth p bp false); cbn [b2nat]; lia.
Qed.
