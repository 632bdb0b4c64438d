(** * nn_dict_dynamic: the shape of the tree *)
From Coq Require Import NArith List Bool Arith Lia.
From Verif Require Import Base Bits SpecBits RankSelect BitsProofs BitsProofs2 AbsVec FnArr NnDict SpecNn.
Import ListNotations.

Section Shape.
Variable n : nat.
Hypothesis HN : 0 < n.
Hypothesis HW : (N.of_nat n < W64)%N.
Definition D : nat := N.to_nat (hi (N.of_nat n)) / 6.

(** [c j]: the number of nodes j levels above the leaves *)
Fixpoint c (j : nat) : nat := match j with 0 => (n + 63) / 64 | S j => (c j + 63) / 64 end.
Definition cnt (d : nat) : nat := c (D - d).
Fixpoint vb (d : nat) : nat := match d with 0 => 0 | S d => vb d * 64 + 1 end.
Definition base (d : nat) : nat := psum cnt d.

Lemma p64_pos : forall k, 0 < 64 ^ k.
Proof. intros. apply Nat.neq_0_lt_0. apply Nat.pow_nonzero. discriminate. Qed.
Lemma p64_S : forall k, 64 ^ S k = 64 * 64 ^ k.
Proof. reflexivity. Qed.
Lemma n_lt : n < 64 ^ (D + 1).
Proof.
  unfold D. rewrite hi_correct by (unfold is_word; auto).
  pose proof (N.log2_spec (N.of_nat n) ltac:(lia)) as [_ SP]. remember (N.to_nat (N.log2 (N.of_nat n))) as l eqn:El.
  assert (L : N.log2 (N.of_nat n) = N.of_nat l) by lia. rewrite L in SP.
  assert (n < 2 ^ S l).
  { assert (P : (N.of_nat n < N.of_nat (2 ^ S l))%N); [|lia]. rewrite Nat2N.inj_pow. change (N.of_nat 2) with 2%N. rewrite Nat2N.inj_succ. auto. }
  eapply Nat.lt_le_trans; [exact H|]. change 64 with (2 ^ 6). rewrite <- Nat.pow_mul_r. apply Nat.pow_le_mono_r; [lia|]. clear. lia.
Qed.
Lemma c_le : forall j, j <= D -> c j <= 64 ^ (D - j).
Proof.
  induction j as [|j IH]; intros J.
  - cbn [c]. rewrite Nat.sub_0_r. pose proof n_lt as L. rewrite Nat.add_1_r, p64_S in L. remember (64 ^ D) as q. clear - L. lia.
  - cbn [c]. specialize (IH ltac:(lia)). replace (D - j) with (S (D - S j)) in IH by lia. rewrite p64_S in IH. remember (64 ^ (D - S j)) as q. clear - IH. lia.
Qed.
Lemma c_pos : forall j, 1 <= c j.
Proof. induction j; cbn [c]; [|clear HN HW]; lia. Qed.
Lemma cnt_le : forall d, d <= D -> 1 <= cnt d <= 64 ^ d.
Proof. intros. unfold cnt. split; [apply c_pos|]. pose proof (c_le (D - d) ltac:(lia)). replace (D - (D - d)) with d in H0 by lia. auto. Qed.
Lemma cnt_0 : cnt 0 = 1.
Proof. pose proof (cnt_le 0 ltac:(lia)). cbn in H. lia. Qed.
Lemma c_bound : forall j x, x < n -> x / 64 ^ j / 64 < c j.
Proof.
  induction j as [|j IH]; intros x X.
  - cbn [c Nat.pow]. rewrite Nat.div_1_r. lia.
  - cbn [c]. specialize (IH x X). rewrite p64_S, (Nat.mul_comm 64), <- Nat.div_div by (try lia; pose proof (p64_pos j); lia).
    remember (x / 64 ^ j / 64) as q. clear - IH. lia.
Qed.
Lemma cnt_bound : forall d x, x < n -> x / 64 ^ (D - d) / 64 < cnt d.
Proof. intros. apply c_bound. auto. Qed.
Lemma vb_base : forall d, d <= D + 1 -> base d <= vb d /\ psum (fun e => 64 ^ e - cnt e) d = vb d - base d /\ vb d = psum (fun e => 64 ^ e) d /\ vb d * 63 + 1 = 64 ^ d.
Proof.
  induction d as [|d IH]; intros L; [repeat split; auto|]. destruct IH as (A & B & C & E); [lia|].
  pose proof (cnt_le d ltac:(lia)). assert (V : vb (S d) = vb d + 64 ^ d) by (cbn [vb]; lia).
  unfold base in *. cbn [psum]. rewrite B, V. rewrite p64_S. split; [lia|]. split; [lia|]. split; lia.
Qed.
Lemma vb_S : forall d, vb (S d) = vb d * 64 + 1. Proof. reflexivity. Qed.
Lemma base_S : forall d, base (S d) = base d + cnt d. Proof. reflexivity. Qed.
Lemma base_mono : forall a b, a <= b -> base a <= base b. Proof. intros. apply psum_mono. auto. Qed.
Lemma vb_mono : forall a b, a <= b -> vb a <= vb b.
Proof. induction 1; auto. rewrite vb_S. lia. Qed.
Lemma vbl_eq : 64 ^ D / 63 = vb D.
Proof. destruct (vb_base D ltac:(lia)) as (_ & _ & _ & E). rewrite <- E. rewrite Nat.div_add_l by lia. change (1 / 63) with 0. lia. Qed.

(** ** the constructor *)
Definition raw (level : nat) (j : nat) : nat := if (level + 1 <? j) && (j <=? D + 1) then 64 ^ (j - 1) - cnt (j - 1) else 0.
Lemma levels_ok : forall level nodes, level <= D ->
  nn_levels level (if level =? D then n else cnt (level + 1)) (farr (D + 2) (raw level)) nodes =
  Some (farr (D + 2) (raw 0), nodes + (base (level + 1) - 1)).
Proof.
  induction level as [|l IH]; intros nodes L.
  - cbn [nn_levels]. do 2 f_equal. change (0 + 1) with 1. unfold base. cbn [psum]. rewrite cnt_0. lia.
  - cbn [nn_levels].
    assert (T : ((if S l =? D then n else cnt (S l + 1)) + 63) / 64 = cnt (S l)).
    { unfold cnt. destruct (Nat.eqb_spec (S l) D) as [E|E].
      - rewrite E, Nat.sub_diag. reflexivity.
      - replace (D - S l) with (S (D - (S l + 1))) by lia. reflexivity. }
    rewrite T. unfold sub_c. pose proof (cnt_le (S l) L). replace (cnt (S l) <=? 64 ^ S l) with true by (symmetry; apply Nat.leb_le; lia).
    cbn [obind]. rewrite farr_aset by lia. cbn [obind].
    specialize (IH (nodes + cnt (S l)) ltac:(lia)). replace (l =? D) with false in IH by (symmetry; apply Nat.eqb_neq; lia).
    rewrite Nat.add_1_r in IH.
    assert (E : farr (D + 2) (fun j => if j =? S l + 1 then 64 ^ S l - cnt (S l) else raw (S l) j) = farr (D + 2) (raw l)).
    { apply farr_ext. intros j J. unfold raw. destruct (Nat.eqb_spec j (S l + 1)) as [->|NE].
      - replace (l + 1 <? S l + 1) with true by (symmetry; apply Nat.ltb_lt; lia). replace (S l + 1 <=? D + 1) with true by (symmetry; apply Nat.leb_le; lia).
        cbn [andb]. replace (S l + 1 - 1) with (S l) by lia. auto.
      - replace (S l + 1 <? j) with (l + 1 <? j); auto. destruct (Nat.ltb_spec (l + 1) j), (Nat.ltb_spec (S l + 1) j); auto; lia. }
    rewrite E, IH. do 2 f_equal. rewrite Nat.add_1_r, !base_S. pose proof (base_mono 1 (S l) ltac:(lia)). cbn [base psum] in H0.
    assert (1 <= base (S l)). { pose proof cnt_0. unfold base in *. cbn [psum] in *. lia. } rewrite base_S in H1. lia.
Qed.
Definition offs (d : nat) : nat := vb d - base d.
Lemma prefix_ok : forall k level, 1 <= level -> level + k = D + 1 ->
  nn_prefix k level (farr (D + 2) (fun j => if j <? level then offs j else raw 0 j)) = Some (farr (D + 2) (fun j => if j <? D + 1 then offs j else raw 0 j)).
Proof.
  induction k as [|k IH]; intros level L1 LK.
  - cbn [nn_prefix]. replace level with (D + 1) by lia. auto.
  - cbn [nn_prefix]. rewrite !farr_nth_error by lia. cbn [obind]. rewrite farr_aset by lia. cbn [obind].
    rewrite <- (IH (level + 1)) by lia. f_equal. apply farr_ext. intros j J.
    replace (level <? level) with false by (symmetry; apply Nat.ltb_ge; lia). replace (level - 1 <? level) with true by (symmetry; apply Nat.ltb_lt; lia).
    destruct (Nat.eqb_spec j level) as [->|NE].
    + replace (level <? level + 1) with true by (symmetry; apply Nat.ltb_lt; lia).
      destruct (vb_base level ltac:(lia)) as (_ & B1 & _). destruct (vb_base (level - 1) ltac:(lia)) as (_ & B2 & _).
      unfold offs. rewrite <- B1, <- B2. replace level with (S (level - 1)) at 3 by lia. cbn [psum]. unfold raw.
      destruct (Nat.eq_dec level 1) as [->|N1].
      { change (0 + 1 <? 1) with false. cbn [andb]. change (1 - 1) with 0. cbn [psum Nat.pow]. rewrite cnt_0. auto. }
      replace (0 + 1 <? level) with true by (symmetry; apply Nat.ltb_lt; lia). replace (level <=? D + 1) with true by (symmetry; apply Nat.leb_le; lia). cbn [andb]. lia.
    + destruct (Nat.ltb_spec j level), (Nat.ltb_spec j (level + 1)); auto; lia.
Qed.

(** the fields every state shares *)
Definition shape (t : nnd) : Prop :=
  nn_size t = n /\ nn_depth t = D /\ nn_vbl t = vb D /\ (forall d, d <= D -> nth_error (nn_off t) d = Some (offs d)) /\ length (nn_tree t) = base (D + 1).

Lemma new_ok : exists t, nn_new n = Some t /\ shape t /\ nn_tree t = repeat 0%N (base (D + 1)).
Proof.
  unfold nn_new. fold D. pose proof (levels_ok D 1 (Nat.le_refl _)) as L. rewrite Nat.eqb_refl in L.
  assert (E : repeat 0 (D + 2) = farr (D + 2) (raw D)).
  { rewrite farr_repeat. apply farr_ext. intros j J. unfold raw. destruct (Nat.ltb_spec (D + 1) j); cbn; auto. destruct (Nat.leb_spec j (D + 1)); auto; lia. }
  rewrite E, L. cbn [obind].
  assert (E2 : farr (D + 2) (raw 0) = farr (D + 2) (fun j => if j <? 1 then offs j else raw 0 j)).
  { apply farr_ext. intros j J. destruct (Nat.ltb_spec j 1); auto. replace j with 0 by lia. reflexivity. }
  rewrite E2, prefix_ok by lia. cbn [obind]. eexists. split; [reflexivity|].
  assert (B1 : 1 <= base (D + 1)). { pose proof (base_mono 1 (D + 1) ltac:(lia)). unfold base in *. cbn [psum] in H. rewrite cnt_0 in H. lia. }
  replace (1 + (base (D + 1) - 1)) with (base (D + 1)) by lia. split; [|reflexivity].
  split; [reflexivity|]. split; [reflexivity|]. split; [apply vbl_eq|]. cbn [nn_off nn_tree]. split.
  - intros d Hd. rewrite farr_nth_error by lia. replace (d <? D + 1) with true by (symmetry; apply Nat.ltb_lt; lia). auto.
  - apply repeat_length.
Qed.
Lemma pos_ok : forall t d k, shape t -> d <= D -> nn_pos t d (vb d + k) = Some (base d + k).
Proof.
  intros t d k (_ & _ & _ & O & _) Hd. unfold nn_pos. rewrite O by auto. cbn [obind]. unfold sub_c, offs. destruct (vb_base d ltac:(lia)) as (A & _).
  replace (vb d - base d <=? vb d + k) with true by (symmetry; apply Nat.leb_le; lia). f_equal. lia.
Qed.
Lemma base_inj : forall d k d' k', d <= D -> d' <= D -> k < cnt d -> k' < cnt d' -> base d + k = base d' + k' -> d = d' /\ k = k'.
Proof.
  assert (G : forall d k d' k', d < d' -> k < cnt d -> base d + k < base d' + k').
  { intros. pose proof (base_mono (S d) d' H). rewrite base_S in H1. lia. }
  intros d k d' k' A B K K' E. destruct (Nat.lt_trichotomy d d') as [L|[->|L]]; [pose proof (G d k d' k' L K); lia | split; auto; lia | pose proof (G d' k' d k L K'); lia].
Qed.
Lemma base_lt : forall d k, d <= D -> k < cnt d -> base d + k < base (D + 1).
Proof. intros. pose proof (base_mono (S d) (D + 1) ltac:(lia)). rewrite base_S in H1. lia. Qed.
Lemma shape_tree : forall t l, shape t -> length l = length (nn_tree t) -> shape (with_tree t l).
Proof. intros t l (A & B & C & E & F) L. repeat split; auto. cbn. rewrite L. auto. Qed.
End Shape.
