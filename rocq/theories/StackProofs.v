(** * The 63-bit blocks of the sorted stacks represent a strictly decreasing list *)
From Coq Require Import NArith List Bool Arith Lia Sorting.Sorted.
From Verif Require Import Base Bits SpecBits RankSelect BitsProofs BitsProofs2 AbsVec FnArr Stacks.
Import ListNotations.

Definition dec (s : list nat) : Prop := StronglySorted gt s.
Definition has (s : list nat) (b : nat) : bool := existsb (fun x => x / 63 =? b) s.
Definition bbits (s : list nat) (b : nat) : N :=
  fold_right (fun x a => if x / 63 =? b then N.lor (2 ^ N.of_nat (x mod 63)) a else a) 0%N s.
Fixpoint below (s : list nat) (y : nat) : nat :=
  match s with [] => 0 | x :: r => if x <? y then x else below r y end.
Definition wordof (s : list nat) (b : nat) : N :=
  if has s b then bbits s b
  else if has s (b + 1) then N.lor top63 (N.of_nat (below s (b * 63))) else 0%N.

Lemma has_false : forall s b, (forall x, In x s -> x / 63 <> b) -> has s b = false.
Proof.
  intros s b H. unfold has. destruct (existsb _ s) eqn:E; auto. apply existsb_exists in E. destruct E as (x & I & E).
  apply Nat.eqb_eq in E. exfalso. apply (H x I E).
Qed.
Lemma has_inv : forall s b, has s b = true -> exists x, In x s /\ x / 63 = b.
Proof. intros s b E. apply existsb_exists in E. destruct E as (x & I & E). apply Nat.eqb_eq in E. eauto. Qed.
Lemma has_In : forall s x, In x s -> has s (x / 63) = true.
Proof. intros. apply existsb_exists. exists x. split; auto. apply Nat.eqb_refl. Qed.
Lemma has_cons : forall x s b, has (x :: s) b = (x / 63 =? b) || has s b.
Proof. reflexivity. Qed.
Lemma bbits_none : forall s b, has s b = false -> bbits s b = 0%N.
Proof.
  induction s as [|x s IH]; intros b H; [reflexivity|]. rewrite has_cons in H. apply orb_false_iff in H. destruct H as [H1 H2].
  cbn [bbits fold_right]. rewrite H1. apply IH. auto.
Qed.
Lemma bbits_cons : forall x s b, bbits (x :: s) b = if x / 63 =? b then N.lor (2 ^ N.of_nat (x mod 63)) (bbits s b) else bbits s b.
Proof. reflexivity. Qed.
Lemma lor_lt : forall a b k, (a < 2 ^ k)%N -> (b < 2 ^ k)%N -> (N.lor a b < 2 ^ k)%N.
Proof.
  intros a b k A B. destruct (N.eq_dec (N.lor a b) 0) as [->|Z]. { lia. }
  apply N.log2_lt_pow2; [lia|]. rewrite N.log2_lor.
  apply N.max_lub_lt.
  - destruct (N.eq_dec a 0) as [->|]; [|apply N.log2_lt_pow2; lia].
    destruct (N.eq_dec k 0) as [->|]; [|cbn; lia]. exfalso. cbn in A, B. assert (b = 0)%N by lia. subst b. apply Z. reflexivity.
  - destruct (N.eq_dec b 0) as [->|]; [|apply N.log2_lt_pow2; lia].
    destruct (N.eq_dec k 0) as [->|]; [|cbn; lia]. exfalso. cbn in A, B. assert (a = 0)%N by lia. subst a. apply Z. reflexivity.
Qed.
Lemma bbits_lt : forall s b k, (forall x, In x s -> x / 63 = b -> x mod 63 < k) -> (bbits s b < 2 ^ N.of_nat k)%N.
Proof.
  induction s as [|x s IH]; intros b k H.
  - cbn. apply N.neq_0_lt_0. apply N.pow_nonzero. discriminate.
  - rewrite bbits_cons. assert (B : (bbits s b < 2 ^ N.of_nat k)%N) by (apply IH; intros y Y; apply H; right; auto).
    destruct (x / 63 =? b) eqn:E; auto. apply Nat.eqb_eq in E. apply lor_lt; auto. apply N.pow_lt_mono_r; [lia|].
    specialize (H x (or_introl eq_refl) E). clear - H. lia.
Qed.
Lemma bbits_lt63 : forall s b, (bbits s b < 2 ^ 63)%N.
Proof. intros. apply (bbits_lt s b 63). intros. apply Nat.mod_upper_bound. discriminate. Qed.
Lemma dec_inv : forall x s, dec (x :: s) -> dec s /\ forall y, In y s -> y < x.
Proof. intros x s H. inversion H; subst. split; auto. intros y Y. rewrite Forall_forall in H3. apply H3. auto. Qed.
Lemma mod_lt_same : forall x y, y < x -> y / 63 = x / 63 -> y mod 63 < x mod 63.
Proof. intros. lia. Qed.
Lemma bbits_fresh : forall x s, (forall y, In y s -> y < x) -> (bbits s (x / 63) < 2 ^ N.of_nat (x mod 63))%N.
Proof. intros x s H. apply bbits_lt. intros y Y E. apply mod_lt_same; auto. Qed.
Lemma lor_lxor_fresh : forall k w, (w < 2 ^ k)%N -> N.lxor w (2 ^ k) = N.lor (2 ^ k) w /\ N.lxor (N.lor (2 ^ k) w) (2 ^ k) = w.
Proof.
  intros k w L.
  assert (T : N.testbit w k = false).
  { destruct (N.eq_dec w 0) as [->|]; [apply N.bits_0|]. apply N.bits_above_log2. apply N.log2_lt_pow2; lia. }
  split; apply N.bits_inj; intro j; rewrite ?N.lxor_spec, ?N.lor_spec, ?N.pow2_bits_eqb;
    (destruct (N.eqb_spec k j) as [EJ|]; [rewrite <- EJ, T; auto | destruct (N.testbit w j); auto]).
Qed.
Lemma bbits_log2 : forall x s, (forall y, In y s -> y < x) -> N.log2 (bbits (x :: s) (x / 63)) = N.of_nat (x mod 63).
Proof.
  intros x s H. rewrite bbits_cons, Nat.eqb_refl, N.log2_lor, N.log2_pow2 by lia.
  pose proof (bbits_fresh x s H). apply N.max_l. destruct (N.eq_dec (bbits s (x / 63)) 0) as [->|]; [cbn; lia|].
  apply N.lt_le_incl. apply N.log2_lt_pow2; [lia|auto].
Qed.
Lemma bbits_pos : forall s b, has s b = true -> (bbits s b <> 0)%N.
Proof.
  induction s as [|x s IH]; intros b H; [discriminate|]. rewrite has_cons in H. rewrite bbits_cons.
  destruct (x / 63 =? b) eqn:E.
  - intro Z. apply N.lor_eq_0_iff in Z. destruct Z as [Z _]. revert Z. apply N.pow_nonzero. discriminate.
  - apply IH. auto.
Qed.
Lemma wordof_pos : forall s b, has s b = true \/ has s (b + 1) = true -> wordof s b <> 0%N.
Proof.
  intros s b H. unfold wordof. destruct (has s b) eqn:E. { apply bbits_pos; auto. }
  destruct H as [H|H]; [discriminate|]. rewrite H. intro Z. apply N.lor_eq_0_iff in Z. destruct Z as [Z _]. discriminate Z.
Qed.
Lemma top_block : forall x s b, dec (x :: s) -> x / 63 < b -> has (x :: s) b = false.
Proof.
  intros x s b D L. apply has_false. intros y [<-|Y]; [lia|]. destruct (dec_inv _ _ D) as [_ H]. specialize (H y Y).
  pose proof (Nat.div_le_mono y x 63 ltac:(lia) ltac:(lia)). lia.
Qed.

Lemma below_all : forall t s y, t < y -> below (t :: s) y = t.
Proof. intros. cbn. replace (t <? y) with true by lia. auto. Qed.

(** push *)
Lemma blk_push_ok : forall n t s x, dec (t :: s) -> t < x -> x / 63 < n ->
  blk_push (farr n (wordof (t :: s))) t x = Some (farr n (wordof (x :: t :: s))).
Proof.
  intros n t s x D L B. assert (TB : t / 63 <= x / 63) by (apply Nat.div_le_mono; lia).
  assert (M : forall y, In y (t :: s) -> y < x).
  { intros y [<-|Y]; auto. destruct (dec_inv _ _ D) as [_ H]. specialize (H y Y). lia. }
  assert (HB1 : forall b, x / 63 < b -> has (t :: s) b = false) by (intros; apply top_block; auto; lia).
  assert (W0 : wordof (t :: s) (x / 63) = bbits (t :: s) (x / 63)).
  { unfold wordof. destruct (has (t :: s) (x / 63)) eqn:E; auto. rewrite HB1 by lia. rewrite bbits_none; auto. }
  destruct (lor_lxor_fresh (N.of_nat (x mod 63)) (bbits (t :: s) (x / 63)) (bbits_fresh _ _ M)) as [X1 _].
  unfold blk_push. rewrite farr_nth_error by auto. cbn [obind]. rewrite farr_aset by auto. cbn [obind]. rewrite W0, X1.
  assert (SAME : forall b, b <> x / 63 -> b + 1 <> x / 63 -> wordof (x :: t :: s) b = wordof (t :: s) b).
  { intros b N1 N2. unfold wordof. rewrite (has_cons x _ b), (has_cons x _ (b + 1)), (bbits_cons x).
    replace (x / 63 =? b) with false by (symmetry; apply Nat.eqb_neq; auto).
    replace (x / 63 =? b + 1) with false by (symmetry; apply Nat.eqb_neq; auto). cbn [orb].
    destruct (has (t :: s) b) eqn:E1; auto. destruct (has (t :: s) (b + 1)) eqn:E2; auto. do 2 f_equal.
    destruct (has_inv _ _ E2) as (y & Y & EY). specialize (M y Y). change (below (x :: t :: s) (b * 63)) with (if x <? b * 63 then x else below (t :: s) (b * 63)).
    replace (x <? b * 63) with false; auto. symmetry. apply Nat.ltb_ge. clear - M EY. lia. }
  assert (NEW : wordof (x :: t :: s) (x / 63) = N.lor (2 ^ N.of_nat (x mod 63)) (bbits (t :: s) (x / 63))).
  { unfold wordof. rewrite has_cons, bbits_cons, Nat.eqb_refl. auto. }
  destruct (x / 63 =? 0) eqn:E0.
  - apply Nat.eqb_eq in E0. f_equal. apply farr_ext. intros j J. destruct (Nat.eqb_spec j (x / 63)) as [->|NE]; auto.
    symmetry. apply SAME; auto. lia.
  - apply Nat.eqb_neq in E0. rewrite farr_nth_error by lia. cbn [obind].
    replace (x / 63 - 1 =? x / 63) with false by (symmetry; apply Nat.eqb_neq; lia).
    remember (x / 63 - 1) as p eqn:EP. assert (P1 : p + 1 = x / 63) by lia.
    assert (PW : wordof (x :: t :: s) p = if (wordof (t :: s) p =? 0)%N then N.lor top63 (N.of_nat t) else wordof (t :: s) p).
    { unfold wordof at 1. rewrite (has_cons x _ p), (has_cons x _ (p + 1)), (bbits_cons x).
      replace (x / 63 =? p) with false by (symmetry; apply Nat.eqb_neq; lia). rewrite P1, Nat.eqb_refl. cbn [orb].
      assert (XB : x <? p * 63 = false) by (apply Nat.ltb_ge; lia).
      change (below (x :: t :: s) (p * 63)) with (if x <? p * 63 then x else below (t :: s) (p * 63)). rewrite XB.
      destruct (has (t :: s) p) eqn:E1.
      - replace (wordof (t :: s) p =? 0)%N with false by (symmetry; apply N.eqb_neq; apply wordof_pos; auto).
        unfold wordof. rewrite E1. auto.
      - destruct (has (t :: s) (p + 1)) eqn:E2.
        + replace (wordof (t :: s) p =? 0)%N with false by (symmetry; apply N.eqb_neq; apply wordof_pos; auto).
          unfold wordof. rewrite E1, E2. auto.
        + unfold wordof. rewrite E1, E2. cbn [N.eqb]. rewrite below_all; auto.
          rewrite P1 in E2. clear - E1 E2 TB P1. rewrite has_cons in E1, E2. apply orb_false_iff in E1, E2. lia. }
    destruct (wordof (t :: s) p =? 0)%N eqn:EW.
    + rewrite farr_aset by lia. f_equal. apply farr_ext. intros j J.
      destruct (Nat.eqb_spec j p) as [->|NP]; [auto|]. destruct (Nat.eqb_spec j (x / 63)) as [->|NE]; auto. symmetry. apply SAME; lia.
    + f_equal. apply farr_ext. intros j J. destruct (Nat.eqb_spec j (x / 63)) as [->|NE]; auto.
      destruct (Nat.eq_dec j p) as [->|NP]; [auto|]. symmetry. apply SAME; lia.
Qed.

Lemma hi_bbits : forall t s, dec (t :: s) -> N.to_nat (hi (bbits (t :: s) (t / 63))) = t mod 63.
Proof.
  intros t s D. rewrite hi_correct.
  - rewrite bbits_log2 by (apply dec_inv; auto). rewrite Nat2N.id. auto.
  - unfold is_word. pose proof (bbits_lt63 (t :: s) (t / 63)). unfold W64. change (2 ^ 63)%N with 9223372036854775808%N in H. lia.
Qed.
Lemma ptr_land : forall t, (N.of_nat t < 2 ^ 63)%N ->
  N.to_nat (N.land (N.lor top63 (N.of_nat t)) 0x7FFFFFFFFFFFFFFF) = t /\ N.shiftr (N.lor top63 (N.of_nat t)) 63 = 1%N.
Proof.
  intros t L. split.
  - rewrite N.land_lor_distr_l. change (N.land top63 0x7FFFFFFFFFFFFFFF) with 0%N. rewrite N.lor_0_l.
    change 0x7FFFFFFFFFFFFFFF%N with (N.ones 63). rewrite N.land_ones, N.mod_small by auto. apply Nat2N.id.
  - rewrite N.shiftr_lor. change (N.shiftr top63 63) with 1%N. rewrite (N.shiftr_div_pow2 (N.of_nat t)), N.div_small by auto. reflexivity.
Qed.

(** pop *)
Lemma blk_pop_ok : forall n t s x, dec (x :: t :: s) -> x / 63 < n -> (N.of_nat t < 2 ^ 63)%N ->
  blk_pop (farr n (wordof (x :: t :: s))) x = Some (farr n (wordof (t :: s)), t).
Proof.
  intros n t s x D B T63. destruct (dec_inv _ _ D) as [D' M]. pose proof (M t (or_introl eq_refl)) as L.
  assert (TB : t / 63 <= x / 63) by (apply Nat.div_le_mono; lia).
  assert (HB1 : forall b, x / 63 < b -> has (t :: s) b = false) by (intros; apply top_block; auto; lia).
  destruct (lor_lxor_fresh (N.of_nat (x mod 63)) (bbits (t :: s) (x / 63)) (bbits_fresh _ _ M)) as [_ X1].
  assert (NEW : wordof (x :: t :: s) (x / 63) = N.lor (2 ^ N.of_nat (x mod 63)) (bbits (t :: s) (x / 63))).
  { unfold wordof. rewrite has_cons, bbits_cons, Nat.eqb_refl. auto. }
  assert (W0 : wordof (t :: s) (x / 63) = bbits (t :: s) (x / 63)).
  { unfold wordof. destruct (has (t :: s) (x / 63)) eqn:E; auto. rewrite HB1 by lia. rewrite bbits_none; auto. }
  assert (SAME : forall b, b <> x / 63 -> b + 1 <> x / 63 -> wordof (x :: t :: s) b = wordof (t :: s) b).
  { intros b N1 N2. unfold wordof. rewrite (has_cons x _ b), (has_cons x _ (b + 1)), (bbits_cons x).
    replace (x / 63 =? b) with false by (symmetry; apply Nat.eqb_neq; auto).
    replace (x / 63 =? b + 1) with false by (symmetry; apply Nat.eqb_neq; auto). cbn [orb].
    destruct (has (t :: s) b) eqn:E1; auto. destruct (has (t :: s) (b + 1)) eqn:E2; auto. do 2 f_equal.
    destruct (has_inv _ _ E2) as (y & Y & EY). specialize (M y Y). change (below (x :: t :: s) (b * 63)) with (if x <? b * 63 then x else below (t :: s) (b * 63)).
    replace (x <? b * 63) with false; auto. symmetry. apply Nat.ltb_ge. clear - M EY. lia. }
  unfold blk_pop. rewrite farr_nth_error by auto. cbn [obind]. rewrite NEW, X1. rewrite farr_aset by auto. cbn [obind].
  destruct (has (t :: s) (x / 63)) eqn:HX.
  - assert (TX : t / 63 = x / 63).
    { destruct (has_inv _ _ HX) as (y & Y & EY). destruct Y as [<-|Y]; auto. destruct (dec_inv _ _ D') as [_ H]. specialize (H y Y).
      pose proof (Nat.div_le_mono y t 63 ltac:(lia) ltac:(lia)). lia. }
    replace (0 <? bbits (t :: s) (x / 63))%N with true by (symmetry; apply N.ltb_lt; pose proof (bbits_pos _ _ HX); lia).
    f_equal. f_equal.
    + apply farr_ext. intros j J. destruct (Nat.eqb_spec j (x / 63)) as [->|NE]; auto.
      destruct (Nat.eq_dec (j + 1) (x / 63)) as [EJ|NJ]; [|apply SAME; auto].
      unfold wordof. rewrite (has_cons x _ j), (has_cons x _ (j + 1)), (bbits_cons x), EJ, HX, Nat.eqb_refl.
      replace (x / 63 =? j) with false by (symmetry; apply Nat.eqb_neq; auto). cbn [orb]. destruct (has (t :: s) j); auto.
      change (below (x :: t :: s) (j * 63)) with (if x <? j * 63 then x else below (t :: s) (j * 63)).
      replace (x <? j * 63) with false; auto. symmetry. apply Nat.ltb_ge. clear - EJ. lia.
    + rewrite <- TX, (hi_bbits t s D'). clear. lia.
  - rewrite bbits_none by auto. cbn [N.ltb N.compare].
    destruct (x / 63 =? 0) eqn:E0.
    { exfalso. apply Nat.eqb_eq in E0. rewrite E0 in *. rewrite has_cons in HX. apply orb_false_iff in HX. destruct HX as [HX _].
      apply Nat.eqb_neq in HX. lia. }
    apply Nat.eqb_neq in E0. rewrite farr_nth_error by lia. cbn [obind].
    replace (x / 63 - 1 =? x / 63) with false by (symmetry; apply Nat.eqb_neq; lia).
    remember (x / 63 - 1) as p eqn:EP. assert (P1 : p + 1 = x / 63) by lia.
    assert (TX : t / 63 <> x / 63). { intro E. rewrite has_cons in HX. rewrite E, Nat.eqb_refl in HX. discriminate. }
    destruct (has (t :: s) p) eqn:HP.
    + assert (PW : wordof (x :: t :: s) p = bbits (t :: s) p).
      { unfold wordof. rewrite (has_cons x), (bbits_cons x), HP. replace (x / 63 =? p) with false by (symmetry; apply Nat.eqb_neq; lia). auto. }
      assert (TP : t / 63 = p).
      { destruct (has_inv _ _ HP) as (y & Y & EY). assert (y <= t). { destruct Y as [<-|Y]; auto. destruct (dec_inv _ _ D') as [_ H]. specialize (H y Y). lia. }
        pose proof (Nat.div_le_mono y t 63 ltac:(lia) ltac:(lia)). lia. }
      rewrite PW. rewrite (N.shiftr_div_pow2 (bbits (t :: s) p) 63), N.div_small by apply bbits_lt63. cbn [N.eqb].
      f_equal. f_equal.
      * apply farr_ext. intros j J. destruct (Nat.eqb_spec j (x / 63)) as [->|NE].
        { rewrite W0. rewrite bbits_none; auto. }
        destruct (Nat.eq_dec j p) as [->|NJ]; [|apply SAME; lia]. rewrite PW. unfold wordof. rewrite HP. auto.
      * rewrite <- TP, (hi_bbits t s D'). clear. lia.
    + assert (TP : t < p * 63). { rewrite has_cons in HP. apply orb_false_iff in HP. destruct HP as [HP _]. apply Nat.eqb_neq in HP. clear - TB TX HP P1. lia. }
      assert (PW : wordof (x :: t :: s) p = N.lor top63 (N.of_nat t)).
      { unfold wordof. rewrite (has_cons x), (has_cons x), HP. replace (x / 63 =? p) with false by (symmetry; apply Nat.eqb_neq; lia).
        rewrite P1, Nat.eqb_refl. cbn [orb]. change (below (x :: t :: s) (p * 63)) with (if x <? p * 63 then x else below (t :: s) (p * 63)).
        replace (x <? p * 63) with false by (symmetry; apply Nat.ltb_ge; clear - P1; lia). rewrite below_all; auto. }
      rewrite PW. destruct (ptr_land t T63) as [PL PS]. rewrite PS. cbn [N.eqb]. change (1 =? 0)%N with false. cbn match.
      rewrite farr_aset by lia. cbn [obind]. rewrite PL. do 2 f_equal.
      apply farr_ext. intros j J. destruct (Nat.eqb_spec j p) as [->|NP].
      { unfold wordof. rewrite HP, P1, HX. auto. }
      destruct (Nat.eqb_spec j (x / 63)) as [->|NE]. { rewrite W0. rewrite bbits_none; auto. }
      apply SAME; lia.
Qed.

Lemma wordof_start : forall n, 0 < n -> aset (repeat 0%N n) 0 1%N = Some (farr n (wordof [0])).
Proof.
  intros. rewrite (farr_repeat N), farr_aset by auto. f_equal. apply farr_ext. intros j J.
  unfold wordof, has, bbits. cbn [existsb fold_right]. change (0 / 63) with 0. change (0 mod 63) with 0.
  destruct (Nat.eqb_spec j 0) as [->|NE]; [reflexivity|]. replace (0 =? j) with false by (symmetry; apply Nat.eqb_neq; lia).
  replace (0 =? j + 1) with false by (symmetry; apply Nat.eqb_neq; lia). reflexivity.
Qed.
