(** * Proofs about hi, lo, rev, sel (Bits.v). *)
From Coq Require Import NArith ZArith List Lia Bool Arith.
From Verif Require Import Base Tables Bits SpecBits BitsProofs.
Import ListNotations.
Local Open Scope N_scope.

(** ** hi *)
Lemma log2_shr : forall x k, shr x k <> 0 -> N.log2 x = N.of_nat k + N.log2 (shr x k).
Proof.
  intros. unfold shr in *. rewrite N.log2_shiftr.
  destruct (N.le_gt_cases (N.of_nat k) (N.log2 x)) as [L|L]; [lia|].
  exfalso. apply H. apply N.shiftr_eq_0. auto.
Qed.

Lemma lt_hi_ok : forall a, a < 256 -> tlook tbl_lt_hi a = N.log2 a.
Proof.
  intros. apply N.eqb_eq. apply (forall_byte (fun a => tlook tbl_lt_hi a =? N.log2 a)); auto.
Qed.

Lemma shr_shr : forall x j k, shr (shr x j) k = shr x (j + k).
Proof. intros. unfold shr. rewrite N.shiftr_shiftr. f_equal. lia. Qed.

Lemma shr_lt : forall x a b, x < 2 ^ N.of_nat (a + b) -> shr x a < 2 ^ N.of_nat b.
Proof.
  intros. rewrite shr_div. apply N.div_lt_upper_bound. { apply N.pow_nonzero. lia. }
  rewrite <- N.pow_add_r. replace (N.of_nat a + N.of_nat b) with (N.of_nat (a + b)) by lia. auto.
Qed.
Lemma shr_0_lt : forall x a, shr x a = 0 -> x < 2 ^ N.of_nat a.
Proof.
  intros. rewrite shr_div in H. apply N.div_small_iff in H; auto. apply N.pow_nonzero. lia.
Qed.

Lemma hi_correct : forall x, is_word x -> hi x = N.log2 x.
Proof.
  intros x Hx. unfold hi. rewrite !shr_shr. simpl (32 + _)%nat. simpl (16 + _)%nat.
  repeat match goal with
  | |- context [if negb (?e =? 0) then _ else _] =>
      let E := fresh "E" in destruct (N.eqb_spec e 0) as [E|E]; cbn [negb]; cbn iota
  end;
  match goal with
  | |- tlook _ x = _ => apply lt_hi_ok; change 256 with (2 ^ N.of_nat 8); apply shr_0_lt; auto
  | |- _ + tlook _ (shr x ?k) = _ =>
      rewrite lt_hi_ok;
      [ symmetry; apply (log2_shr x k); auto
      | change 256 with (2 ^ N.of_nat 8); apply shr_lt; first [exact Hx | apply shr_0_lt; assumption] ]
  end.
Qed.

Lemma log2_is_msb : forall x, x <> 0 -> is_msb x (N.to_nat (N.log2 x)).
Proof.
  intros. split.
  - unfold tb. rewrite N2Nat.id. apply N.bit_log2; auto.
  - intros. unfold tb. apply N.bits_above_log2. lia.
Qed.

Lemma hi_msb : forall x, is_word x -> x <> 0 -> is_msb x (N.to_nat (hi x)).
Proof. intros. rewrite hi_correct by auto. apply log2_is_msb; auto. Qed.
Lemma hi_0 : hi 0 = 0. Proof. reflexivity. Qed.
Lemma hi_lt64 : forall x, is_word x -> hi x < 64.
Proof.
  intros. rewrite hi_correct by auto. destruct (N.eq_dec x 0) as [->|]; [reflexivity|].
  apply N.log2_lt_pow2; [lia|]. exact H.
Qed.

(** ** lo *)
Fixpoint ctz (p : positive) : nat := match p with xO q => S (ctz q) | _ => 0%nat end.
Definition lsb (x : N) : nat := match x with N0 => 0%nat | Npos p => ctz p end.

Lemma lsb_decomp : forall x, x <> 0 -> exists q, x = 2 ^ N.of_nat (lsb x) * (2 * q + 1).
Proof.
  intros [|p] H; [congruence|]. simpl. clear H. induction p.
  - exists (N.pos p). simpl ctz. change (2 ^ N.of_nat 0) with 1. lia.
  - destruct IHp as [q E]. exists q. simpl ctz. rewrite Nat2N.inj_succ, N.pow_succ_r'. lia.
  - exists 0. reflexivity.
Qed.

Lemma lsb_is_lsb : forall x, x <> 0 -> is_lsb x (lsb x).
Proof.
  intros. destruct (lsb_decomp x H) as [q E]. set (p := lsb x) in *. clearbody p. subst.
  replace (2 ^ N.of_nat p * (2 * q + 1)) with (cat p 0 (cat 1 1 q)) by
    (unfold cat; change (2 ^ N.of_nat 1) with 2; lia).
  assert (0 < 2 ^ N.of_nat p) by (apply N.neq_0_lt_0, N.pow_nonzero; lia).
  split; intros; rewrite tb_cat by auto.
  - rewrite Nat.ltb_irrefl, tb_cat, Nat.sub_diag by reflexivity. reflexivity.
  - apply Nat.ltb_lt in H1. rewrite H1. apply tb_0.
Qed.

Lemma is_lsb_unique : forall x p q, is_lsb x p -> is_lsb x q -> p = q.
Proof.
  intros x p q [A1 A2] [B1 B2]. destruct (Nat.lt_trichotomy p q) as [L|[L|L]]; auto.
  - rewrite B2 in A1 by auto. discriminate.
  - rewrite A2 in B1 by auto. discriminate.
Qed.
Lemma is_lsb_lsb : forall x p, is_lsb x p -> lsb x = p.
Proof.
  intros. eapply is_lsb_unique; eauto. apply lsb_is_lsb. intros ->. destruct H. rewrite tb_0 in H. discriminate.
Qed.

Lemma wnot_sub : forall y, is_word y -> wnot y = W64 - 1 - y.
Proof.
  intros. unfold wnot. change (N.lxor y (N.ones 64)) with (N.lnot y 64).
  destruct (N.eq_dec y 0) as [->|E]; [reflexivity|].
  rewrite N.lnot_sub_low. { reflexivity. }
  apply N.log2_lt_pow2; [lia|]. exact H.
Qed.

Lemma isolate_lsb : forall x, is_word x -> x <> 0 -> N.land x (wsub 0 x) = 2 ^ N.of_nat (lsb x).
Proof.
  intros x Hx Nx. unfold is_word in Hx.
  replace (wsub 0 x) with (wnot (x - 1)).
  2:{ rewrite wnot_sub by (unfold is_word; lia). unfold wsub. rewrite N.add_0_l, N.mod_small by lia. lia. }
  destruct (lsb_decomp x Nx) as [q E]. set (p := lsb x) in *. clearbody p.
  assert (P : 0 < 2 ^ N.of_nat p) by (apply N.neq_0_lt_0, N.pow_nonzero; lia).
  assert (Ex : x = cat p 0 (cat 1 1 q)) by (unfold cat; change (2 ^ N.of_nat 1) with 2; lia).
  assert (Ey : x - 1 = cat p (lo_set p) (cat 1 0 q)).
  { unfold cat. rewrite lo_set_val. change (2 ^ N.of_nat 1) with 2. nia. }
  apply tb_ext. intros k.
  rewrite tb_land, tb_wnot, Ey. rewrite Ex at 1.
  rewrite !tb_cat; try reflexivity; auto.
  2:{ rewrite lo_set_val. lia. }
  replace (tb (2 ^ N.of_nat p) k) with (k =? p)%nat.
  2:{ unfold tb. rewrite N.pow2_bits_eqb. lia. }
  assert (p < 64)%nat.
  { apply Nat.nle_gt. intro. assert (2 ^ 64 <= 2 ^ N.of_nat p) by (apply N.pow_le_mono_r; lia).
    rewrite <- W64_pow in H0. nia. }
  destruct (Nat.ltb_spec k p).
  - rewrite tb_0. destruct (Nat.eqb_spec k p); auto; lia.
  - destruct (Nat.eqb_spec k p).
    + subst. rewrite Nat.sub_diag. simpl. destruct (Nat.ltb_spec p 64); auto; lia.
    + destruct (Nat.ltb_spec (k - p) 1); try lia.
      destruct (tb q (k - p - 1)) eqn:Q; auto. simpl.
      destruct (Nat.ltb_spec k 64); auto.
      assert (HX : tb x k = false) by (apply tb_word_high; auto).
      rewrite Ex, !tb_cat in HX by (auto; reflexivity).
      destruct (Nat.ltb_spec k p); try lia. destruct (Nat.ltb_spec (k - p) 1); try lia. congruence.
Qed.

Lemma lsb_lt64 : forall x, is_word x -> (lsb x < 64)%nat.
Proof.
  intros. destruct (N.eq_dec x 0) as [->|E]; [simpl; lia|].
  destruct (lsb_is_lsb x E) as [A _]. apply Nat.nle_gt. intro. rewrite tb_word_high in A by auto. discriminate.
Qed.

Lemma forall_lt64 : forall (P : nat -> bool), forallb P (seq 0 64) = true ->
  forall a, (a < 64)%nat -> P a = true.
Proof. intros. rewrite forallb_forall in H. apply H. apply in_seq. lia. Qed.

Lemma land_ones_0 : forall x k, N.land x (lo_set k) = 0 -> forall j, (j < k)%nat -> tb x j = false.
Proof.
  intros. assert (tb (N.land x (lo_set k)) j = false) by (rewrite H; apply tb_0).
  rewrite tb_land, tb_lo_set in H1. apply Nat.ltb_lt in H0. rewrite H0, andb_true_r in H1. auto.
Qed.

Lemma lo_correct : forall x, is_word x -> lo x = N.of_nat (lsb x).
Proof.
  intros x Hx. destruct (N.eq_dec x 0) as [->|Nx]; [reflexivity|].
  pose proof (lsb_is_lsb x Nx) as HL.
  assert (S : forall p k, N.land x (lo_set k) <> 0 -> (forall j, (j < p)%nat -> tb x j = false) ->
     (k = S p)%nat -> p = lsb x).
  { intros p k H1 H2 ->. apply is_lsb_unique with x; auto. split; auto.
    destruct (tb x p) eqn:T; auto. exfalso. apply H1. apply tb_ext. intro j.
    rewrite tb_land, tb_lo_set, tb_0. destruct (Nat.ltb_spec j (S p)); [|apply andb_false_r].
    destruct (Nat.eq_dec j p) as [->|]; [rewrite T; auto|rewrite H2 by lia; auto]. }
  unfold lo.
  change 1 with (lo_set 1) at 1. change 3 with (lo_set 2) at 1. change 7 with (lo_set 3) at 1.
  change 2047 with (lo_set 11).
  destruct (N.eqb_spec (N.land x (lo_set 1)) 0) as [E1|E1]; cbn [negb]; cbn iota.
  2:{ rewrite <- (S 0%nat _ E1); auto. intros; lia. }
  destruct (N.eqb_spec (N.land x (lo_set 2)) 0) as [E2|E2]; cbn [negb]; cbn iota.
  2:{ rewrite <- (S 1%nat _ E2); auto. apply land_ones_0; auto. }
  destruct (N.eqb_spec (N.land x (lo_set 3)) 0) as [E3|E3]; cbn [negb]; cbn iota.
  2:{ rewrite <- (S 2%nat _ E3); auto. apply land_ones_0; auto. }
  destruct (N.eqb_spec (N.land x (lo_set 11)) 0) as [E4|E4]; cbn [negb]; cbn iota.
  - rewrite isolate_lsb by auto.
    pose (P := fun p => tlook tbl_lt_deBruijn_to_idx (shr (wmul (2 ^ N.of_nat p) deBruijn64) 58) =? N.of_nat p).
    apply N.eqb_eq. apply (forall_lt64 P). { vm_compute. reflexivity. } apply lsb_lt64; auto.
  - set (v := shr (N.land x (lo_set 11)) 3).
    assert (V : forall k, tb v k = (k <? 8)%nat && tb x (k + 3)).
    { intros. unfold v. rewrite tb_shr, tb_land, tb_lo_set. rewrite andb_comm. f_equal. lia. }
    assert (Vlt : v < 256).
    { change 256 with (2 ^ N.of_nat 8). apply tb_lt_pow2. intros. rewrite V.
      destruct (Nat.ltb_spec k 8); auto; lia. }
    assert (Vn : v <> 0).
    { intro E. apply E4. apply tb_ext. intro j. rewrite tb_0, tb_land, tb_lo_set.
      destruct (Nat.ltb_spec j 11); [|apply andb_false_r].
      destruct (Nat.lt_ge_cases j 3). { rewrite (land_ones_0 _ _ E3) by auto. auto. }
      pose proof (V (j - 3)%nat). rewrite E, tb_0 in H1. destruct (Nat.ltb_spec (j - 3) 8); try lia.
      simpl in H1. replace (j - 3 + 3)%nat with j in H1 by lia. rewrite <- H1. auto. }
    assert (T : tlook tbl_lt_lo v = N.of_nat (lsb v)).
    { pose (P := fun v => (v =? 0) || (tlook tbl_lt_lo v =? N.of_nat (lsb v))).
      assert (HP : P v = true) by (apply forall_byte; auto; vm_compute; reflexivity).
      unfold P in HP. apply orb_true_iff in HP. rewrite !N.eqb_eq in HP. tauto. }
    rewrite T. enough (lsb x = lsb v + 3)%nat by lia.
    apply is_lsb_lsb. destruct (lsb_is_lsb v Vn) as [A B]. rewrite V in A. apply andb_true_iff in A.
    destruct A as [A1 A2]. split; auto.
    intros k Hk. destruct (Nat.lt_ge_cases k 3). { apply (land_ones_0 _ _ E3); auto. }
    assert (C := B (k - 3)%nat ltac:(lia)). rewrite V in C. destruct (Nat.ltb_spec (k - 3) 8); [|lia].
    simpl in C. rewrite <- C. f_equal. lia.
Qed.

Lemma lo_lsb : forall x, is_word x -> x <> 0 -> is_lsb x (N.to_nat (lo x)).
Proof. intros. rewrite lo_correct, Nat2N.id by auto. apply lsb_is_lsb; auto. Qed.
Lemma lo_0 : lo 0 = 0. Proof. reflexivity. Qed.

(** ** rev *)
Lemma is_word_rev_step : forall x a b s, is_word x -> is_word (rev_step x a b s).
Proof. intros. unfold rev_step. auto 10 with word. Qed.

Lemma rev_step_bits : forall x ml mh s (h : nat -> nat),
  forallb (fun k => let b := (s <=? k)%nat && tb ml (k - s) in
     eqb (tb mh (k + s)) (negb b) && ((if b then k - s else k + s) =? h k)%nat && (h k <? 64)%nat) (seq 0 64) = true ->
  forall k, (k < 64)%nat -> tb (rev_step x ml mh s) k = tb x (h k) /\ (h k < 64)%nat.
Proof.
  intros. assert (P := forall_lt64 _ H k H0). cbv beta zeta in P.
  rewrite !andb_true_iff in P. destruct P as [[P1 P2] P3]. apply Nat.ltb_lt in P3. split; auto.
  apply Nat.eqb_eq in P2. apply eqb_prop in P1. rewrite <- P2. unfold rev_step.
  rewrite tb_lor, tb_shl, tb_shr, !tb_land. rewrite P1. apply Nat.ltb_lt in H0. rewrite H0. simpl.
  destruct (Nat.leb_spec s k); simpl.
  - destruct (tb ml (k - s)); simpl; rewrite ?andb_true_r, ?andb_false_r, ?orb_false_r; auto.
  - rewrite andb_true_r. auto.
Qed.

Lemma rev_correct : forall x, is_word x -> is_word (rev64 x) /\
  forall k, (k < 64)%nat -> tb (rev64 x) k = tb x (63 - k).
Proof.
  intros x Hx. split. { unfold rev64. cbv zeta. repeat apply is_word_rev_step. auto. }
  intros k Hk. unfold rev64. cbv zeta.
  repeat match goal with
  | |- tb (rev_step ?y ?a ?b ?s) ?j = _ =>
      let R := fresh in let B := fresh in
      destruct (rev_step_bits y a b s (fun i => Nat.lxor i s) ltac:(vm_compute; reflexivity) j ltac:(assumption)) as [R B];
      rewrite R; cbv beta in *; clear R
  end.
  f_equal. apply Nat.eqb_eq.
  apply (forall_lt64 (fun k => Nat.lxor (Nat.lxor (Nat.lxor (Nat.lxor (Nat.lxor (Nat.lxor k 32) 16) 8) 4) 2) 1 =? 63 - k)%nat);
    auto.
Qed.
