(** * Proofs about the word-level model (Bits.v). *)
From Coq Require Import NArith ZArith List Lia Bool Arith.
From Verif Require Import Base Tables Bits SpecBits.
Import ListNotations.
Local Open Scope N_scope.

(** ** Concatenation: x = a + 2^k * y *)
Definition cat (k : nat) (a y : N) : N := a + 2 ^ N.of_nat k * y.

Lemma tb_cat : forall k a y j, a < 2 ^ N.of_nat k ->
  tb (cat k a y) j = if (j <? k)%nat then tb a j else tb y (j - k)%nat.
Proof.
  intros. unfold cat. rewrite N.mul_comm.
  assert (N.lor a (N.shiftl y (N.of_nat k)) = a + y * 2 ^ N.of_nat k) as <-.
  { rewrite <- N.shiftl_mul_pow2. apply lor_disjoint_add.
    apply tb_ext. intros. rewrite tb_land, tb_shiftl, tb_0.
    destruct (Nat.leb_spec k k0); simpl; [|apply andb_false_r].
    rewrite (tb_high a k) by auto. reflexivity. }
  rewrite tb_lor, tb_shiftl.
  destruct (Nat.ltb_spec j k); destruct (Nat.leb_spec k j); try lia; simpl.
  - apply orb_false_r.
  - rewrite (tb_high a k) by auto. reflexivity.
Qed.

Lemma cat_land : forall k a x b y, a < 2 ^ N.of_nat k -> b < 2 ^ N.of_nat k ->
  N.land (cat k a x) (cat k b y) = cat k (N.land a b) (N.land x y).
Proof.
  intros. apply tb_ext. intros.
  assert (N.land a b < 2 ^ N.of_nat k).
  { apply tb_lt_pow2. intros. rewrite tb_land, (tb_high a k); auto. }
  rewrite tb_land, !tb_cat by auto. destruct (Nat.ltb_spec k0 k); rewrite tb_land; auto.
Qed.
Lemma cat_lor : forall k a x b y, a < 2 ^ N.of_nat k -> b < 2 ^ N.of_nat k ->
  N.lor (cat k a x) (cat k b y) = cat k (N.lor a b) (N.lor x y).
Proof.
  intros. apply tb_ext. intros.
  assert (N.lor a b < 2 ^ N.of_nat k).
  { apply tb_lt_pow2. intros. rewrite tb_lor, (tb_high a k), (tb_high b k); auto. }
  rewrite tb_lor, !tb_cat by auto. destruct (Nat.ltb_spec k0 k); rewrite tb_lor; auto.
Qed.
Lemma cat_lxor : forall k a x b y, a < 2 ^ N.of_nat k -> b < 2 ^ N.of_nat k ->
  N.lxor (cat k a x) (cat k b y) = cat k (N.lxor a b) (N.lxor x y).
Proof.
  intros. apply tb_ext. intros.
  assert (N.lxor a b < 2 ^ N.of_nat k).
  { apply tb_lt_pow2. intros. rewrite tb_lxor, (tb_high a k), (tb_high b k); auto. }
  rewrite tb_lxor, !tb_cat by auto. destruct (Nat.ltb_spec k0 k); rewrite tb_lxor; auto.
Qed.
(** shifting right by [s] under a mask that clears the [s] top bits of each group *)
Lemma cat_shr_land : forall k s a x b y, (s <= k)%nat -> a < 2 ^ N.of_nat k -> b < 2 ^ N.of_nat (k - s) ->
  N.land (shr (cat k a x) s) (cat k b y) = cat k (N.land (shr a s) b) (N.land (shr x s) y).
Proof.
  intros. apply tb_ext. intros j.
  assert (Hb : b < 2 ^ N.of_nat k).
  { eapply N.lt_le_trans; [eassumption|]. apply N.pow_le_mono_r; lia. }
  assert (N.land (shr a s) b < 2 ^ N.of_nat k).
  { apply tb_lt_pow2. intros. rewrite tb_land, (tb_high b k); auto. apply andb_false_r. }
  rewrite tb_land, tb_shr, !tb_cat by auto. destruct (Nat.ltb_spec j k).
  - rewrite tb_land, tb_shr. destruct (Nat.ltb_spec (j + s) k); auto.
    rewrite (tb_high b (k - s)) by (auto; lia). rewrite !andb_false_r. auto.
  - destruct (Nat.ltb_spec (j + s) k); try lia. rewrite tb_land, tb_shr. do 2 f_equal. lia.
Qed.

Global Arguments cat : simpl never.
Global Arguments N.land : simpl never.
Global Arguments N.lor : simpl never.
Global Arguments N.lxor : simpl never.

(** ** Base 2^k digits *)
Fixpoint undig (k : nat) (l : list N) : N :=
  match l with [] => 0 | a :: t => cat k a (undig k t) end.
Definition digs_ok (k : nat) (l : list N) : Prop := Forall (fun a => a < 2 ^ N.of_nat k) l.

Fixpoint dig (k n : nat) (x : N) : list N :=
  match n with
  | O => []
  | S n' => x mod 2 ^ N.of_nat k :: dig k n' (x / 2 ^ N.of_nat k)
  end.

Lemma dig_length : forall k n x, length (dig k n x) = n.
Proof. induction n; simpl; auto. Qed.
Lemma dig_ok : forall k n x, digs_ok k (dig k n x).
Proof.
  induction n; simpl; intros; constructor; [|apply IHn].
  apply N.mod_lt. apply N.pow_nonzero. lia.
Qed.
Lemma undig_dig : forall k n x, x < 2 ^ N.of_nat (k * n) -> undig k (dig k n x) = x.
Proof.
  induction n; intros.
  - replace (k * 0)%nat with 0%nat in H by lia. simpl in *. change (2 ^ 0) with 1 in H. lia.
  - simpl. rewrite IHn.
    + unfold cat. rewrite N.add_comm. symmetry. apply N.div_mod'.
    + apply N.div_lt_upper_bound. { apply N.pow_nonzero. lia. }
      rewrite <- N.pow_add_r. replace (N.of_nat k + N.of_nat (k * n)) with (N.of_nat (k * S n)) by lia. auto.
Qed.
Lemma undig_lt : forall k l, digs_ok k l -> undig k l < 2 ^ N.of_nat (k * length l).
Proof.
  induction 1; simpl.
  - replace (k * 0)%nat with 0%nat by lia. reflexivity.
  - unfold cat. replace (N.of_nat (k * S (length l))) with (N.of_nat k + N.of_nat (k * length l)) by lia.
    rewrite N.pow_add_r. nia.
Qed.
Lemma tb_undig_bits : forall k l, digs_ok k l ->
  bits_of_N (k * length l) (undig k l) = flat_map (bits_of_N k) l.
Proof.
  induction 1; simpl.
  - replace (k * 0)%nat with 0%nat by lia. reflexivity.
  - rewrite <- IHForall.
    replace (k * S (length l))%nat with (k + k * length l)%nat by lia.
    unfold bits_of_N. rewrite seq_app, map_app. f_equal.
    + apply map_ext_in. intros. apply in_seq in H1. rewrite tb_cat by auto.
      destruct (Nat.ltb_spec a k); auto; lia.
    + rewrite map_seq_shift. apply map_ext_in. intros j _.
      rewrite tb_cat by auto. destruct (Nat.ltb_spec (0 + k + j) k); try lia. f_equal. lia.
Qed.

(** ** Byte-parallel steps *)
Definition swar1b a := a - N.land (shr a 1) 0x55.
Definition swar2b a := N.land a 0x33 + N.land (shr a 2) 0x33.
Definition swar3b a := N.land (a + shr a 4) 0x0f.

Lemma forall_byte : forall (P : N -> bool), forallb P (map N.of_nat (seq 0 256)) = true ->
  forall a, a < 256 -> P a = true.
Proof.
  intros. rewrite forallb_forall in H. apply H. apply in_map_iff.
  exists (N.to_nat a). split; [lia|]. apply in_seq. lia.
Qed.

Lemma swar1_step : forall l, digs_ok 8 l ->
  undig 8 l - N.land (shr (undig 8 l) 1) (undig 8 (repeat 0x55 (length l))) = undig 8 (map swar1b l)
  /\ N.land (shr (undig 8 l) 1) (undig 8 (repeat 0x55 (length l))) <= undig 8 l.
Proof.
  induction 1; simpl.
  - split; auto. reflexivity.
  - rewrite cat_shr_land by (try lia; auto; reflexivity).
    assert (N.land (shr x 1) 0x55 <= x).
    { change (2 ^ N.of_nat 8) with 256 in H.
      apply N.leb_le. apply (forall_byte (fun x => N.land (shr x 1) 0x55 <=? x)); auto. }
    unfold cat, swar1b in *. destruct IHForall as [E L]. rewrite <- E.
    change (2 ^ N.of_nat 8) with 256 in *. split; lia.
Qed.

Lemma digs_map : forall k f l, digs_ok k l ->
  (forall a, a < 2 ^ N.of_nat k -> f a < 2 ^ N.of_nat k) -> digs_ok k (map f l).
Proof. induction 1; simpl; intros; constructor; auto. apply IHForall; auto. Qed.

Lemma swar2_step : forall l, digs_ok 8 l ->
  N.land (undig 8 l) (undig 8 (repeat 0x33 (length l))) +
  N.land (shr (undig 8 l) 2) (undig 8 (repeat 0x33 (length l))) = undig 8 (map swar2b l).
Proof.
  induction 1; simpl; auto.
  rewrite cat_shr_land, cat_land by (try lia; auto; reflexivity).
  rewrite <- IHForall. unfold cat, swar2b. lia.
Qed.

Definition nib4 (a : N) : Prop := a mod 16 <= 4 /\ a / 16 <= 4.

Lemma swar3_step : forall l, Forall nib4 l ->
  N.land (undig 8 l + shr (undig 8 l) 4) (undig 8 (repeat 0x0f (length l))) = undig 8 (map swar3b l)
  /\ undig 8 l mod 16 <= 4.
Proof.
  induction 1 as [|a l [A1 A2] HF [IH1 IH2]]; simpl.
  - split; [reflexivity|]. discriminate.
  - set (y := undig 8 l) in *.
    assert (E : cat 8 a y + shr (cat 8 a y) 4 = cat 8 (a + a / 16 + 16 * (y mod 16)) (y + shr y 4)).
    { rewrite !shr_div. unfold cat. change (2 ^ N.of_nat 8) with 256. change (2 ^ N.of_nat 4) with 16. lia. }
    rewrite E. rewrite cat_land.
    + rewrite IH1. split.
      * f_equal. unfold swar3b. change 15 with (lo_set 4). rewrite !land_lo_set, shr_div.
        change (2 ^ N.of_nat 4) with 16. lia.
      * unfold cat. change (2 ^ N.of_nat 8) with 256. lia.
    + change (2 ^ N.of_nat 8) with 256. lia.
    + reflexivity.
Qed.

(** ** Sideways addition on whole words *)
Definition is_bytes8 (l : list N) : Prop := length l = 8%nat /\ digs_ok 8 l.

Lemma word_bytes : forall x, is_word x -> exists l, is_bytes8 l /\ x = undig 8 l.
Proof.
  intros. exists (dig 8 8 x). split; [split|].
  - apply dig_length. - apply dig_ok.
  - symmetry. apply undig_dig. exact H.
Qed.

Lemma swar1_bytes : forall l, is_bytes8 l -> swar1 (undig 8 l) = undig 8 (map swar1b l).
Proof.
  intros l [L O]. unfold swar1. destruct (swar1_step l O) as [E Le]. rewrite L in *.
  change (undig 8 (repeat 85 8)) with m55 in *.
  rewrite wsub_small; auto. pose proof (undig_lt 8 l O). rewrite L in H. exact H.
Qed.

Lemma swar2_bytes : forall l, is_bytes8 l -> (forall a, In a l -> swar2b a < 256) ->
  swar2 (undig 8 l) = undig 8 (map swar2b l).
Proof.
  intros l [L O] S. unfold swar2. pose proof (swar2_step l O) as E. rewrite L in E.
  change (undig 8 (repeat 51 8)) with m33 in *.
  rewrite wadd_small; auto. rewrite E.
  assert (O' : digs_ok 8 (map swar2b l)).
  { apply Forall_forall. intros a Ha. apply in_map_iff in Ha. destruct Ha as [b [<- Hb]]. apply S; auto. }
  pose proof (undig_lt 8 _ O'). rewrite map_length, L in H. exact H.
Qed.

Lemma nib4_byte : forall a, nib4 a -> a < 256.
Proof. unfold nib4. intros. lia. Qed.

Lemma swar3_bytes : forall l, length l = 8%nat -> Forall nib4 l ->
  swar3 (undig 8 l) = undig 8 (map swar3b l).
Proof.
  intros l L F. unfold swar3. destruct (swar3_step l F) as [E M]. rewrite L in E.
  change (undig 8 (repeat 15 8)) with m0f in *. rewrite <- E.
  rewrite wadd_small; auto.
  destruct l as [|b0 [|b1 [|b2 [|b3 [|b4 [|b5 [|b6 [|b7 [|]]]]]]]]]; try discriminate.
  assert (Forall (fun a => a <= 68) [b0;b1;b2;b3;b4;b5;b6;b7]).
  { eapply Forall_impl; [|exact F]. unfold nib4. intros. lia. }
  repeat match goal with H : Forall _ (_ :: _) |- _ => inversion H; clear H; subst end.
  rewrite shr_div. unfold undig, cat. change (2 ^ N.of_nat 8) with 256. change (2 ^ N.of_nat 4) with 16.
  unfold W64. lia.
Qed.

(** prefix sums of a list *)
Fixpoint psums (acc : N) (l : list N) : list N :=
  match l with [] => [] | a :: t => (acc + a) :: psums (acc + a) t end.

Definition nsum (l : list N) : N := fold_right N.add 0 l.

Lemma swar4_bytes : forall l, length l = 8%nat -> Forall (fun a => a <= 8) l ->
  swar4 (undig 8 l) = undig 8 (psums 0 l).
Proof.
  intros l L F. unfold swar4, wmul.
  destruct l as [|b0 [|b1 [|b2 [|b3 [|b4 [|b5 [|b6 [|b7 [|]]]]]]]]]; try discriminate.
  repeat match goal with H : Forall _ (_ :: _) |- _ => inversion H; clear H; subst end.
  cbn [psums undig]. unfold cat. change (2 ^ N.of_nat 8) with 256. unfold W64, m01.
  symmetry.
  apply (N.mod_unique _ _ ((b1+b2+b3+b4+b5+b6+b7) + 256 * (b2+b3+b4+b5+b6+b7) + 65536 * (b3+b4+b5+b6+b7)
     + 16777216 * (b4+b5+b6+b7) + 4294967296 * (b5+b6+b7) + 1099511627776 * (b6+b7) + 281474976710656 * b7)); lia.
Qed.

Lemma swar4_total : forall l, length l = 8%nat -> Forall (fun a => a <= 8) l ->
  shr (swar4 (undig 8 l)) 56 = nsum l.
Proof.
  intros l L F. rewrite swar4_bytes by auto.
  destruct l as [|b0 [|b1 [|b2 [|b3 [|b4 [|b5 [|b6 [|b7 [|]]]]]]]]]; try discriminate.
  repeat match goal with H : Forall _ (_ :: _) |- _ => inversion H; clear H; subst end.
  cbn [psums undig nsum fold_right]. rewrite shr_div. unfold cat. change (2 ^ N.of_nat 8) with 256.
  change (2 ^ N.of_nat 56) with 72057594037927936.
  symmetry. eapply N.div_unique with
    (r := b0 + 256 * (b0+b1) + 65536 * (b0+b1+b2) + 16777216 * (b0+b1+b2+b3) + 4294967296 * (b0+b1+b2+b3+b4)
       + 1099511627776 * (b0+b1+b2+b3+b4+b5) + 281474976710656 * (b0+b1+b2+b3+b4+b5+b6)); lia.
Qed.

Definition pop8 (a : N) : N := N.of_nat (count_true (bits_of_N 8 a)).

Lemma byte_cnt : forall a, a < 256 ->
  swar1b a < 256 /\ nib4 (swar2b (swar1b a)) /\ swar3b (swar2b (swar1b a)) = pop8 a /\ pop8 a <= 8.
Proof.
  intros.
  pose (P := fun a => (swar1b a <? 256) && ((swar2b (swar1b a)) mod 16 <=? 4) && ((swar2b (swar1b a)) / 16 <=? 4)
     && (swar3b (swar2b (swar1b a)) =? pop8 a) && (pop8 a <=? 8)).
  assert (HP : P a = true) by (apply forall_byte; auto; vm_compute; reflexivity).
  unfold P in HP. rewrite !andb_true_iff, N.ltb_lt, !N.leb_le, N.eqb_eq in HP. unfold nib4. tauto.
Qed.

(** bytes with ones only at even positions *)
Lemma byte_cnt11 : forall a, a < 256 -> N.land a 0x55 = a ->
  nib4 (swar2b a) /\ swar3b (swar2b a) = pop8 a /\ pop8 a <= 8.
Proof.
  intros.
  pose (P := fun a => negb (N.land a 0x55 =? a) || (((swar2b a) mod 16 <=? 4) && ((swar2b a) / 16 <=? 4)
     && (swar3b (swar2b a) =? pop8 a) && (pop8 a <=? 8))).
  assert (HP : P a = true) by (apply forall_byte; auto; vm_compute; reflexivity).
  unfold P in HP. apply N.eqb_eq in H0. rewrite H0 in HP. simpl in HP.
  rewrite !andb_true_iff, !N.leb_le, N.eqb_eq in HP. unfold nib4. tauto.
Qed.

Lemma nsum_pop8 : forall l, nsum (map pop8 l) = N.of_nat (count_true (flat_map (bits_of_N 8) l)).
Proof.
  induction l; auto. cbn [map nsum fold_right flat_map]. fold (nsum (map pop8 l)).
  rewrite count_true_app, IHl. unfold pop8. lia.
Qed.

Lemma popcount_bytes : forall l, is_bytes8 l -> N.of_nat (popcount (undig 8 l)) = nsum (map pop8 l).
Proof.
  intros l [L O]. rewrite nsum_pop8. unfold popcount. rewrite <- (tb_undig_bits 8 l O), L. reflexivity.
Qed.

Lemma map_ext_forall : forall A B (P : A -> Prop) (f g : A -> B) l, Forall P l ->
  (forall a, P a -> f a = g a) -> map f l = map g l.
Proof. induction 1; simpl; intros; auto. f_equal; auto. Qed.

Lemma Forall_map_impl : forall A B (P : A -> Prop) (Q : B -> Prop) (f : A -> B) l, Forall P l ->
  (forall a, P a -> Q (f a)) -> Forall Q (map f l).
Proof. induction 1; simpl; intros; constructor; auto. Qed.

(** the bytes of the sideways sum before the multiplication *)
Lemma swar123_bytes : forall l, is_bytes8 l ->
  swar3 (swar2 (swar1 (undig 8 l))) = undig 8 (map pop8 l).
Proof.
  intros l [L O]. rewrite swar1_bytes by (split; auto).
  rewrite swar2_bytes.
  - rewrite map_map, swar3_bytes.
    + rewrite map_map. f_equal. eapply map_ext_forall; [exact O|]. simpl. intros. apply byte_cnt. exact H.
    + rewrite map_length; auto.
    + eapply Forall_map_impl; [exact O|]. intros. apply byte_cnt. exact H.
  - split. { rewrite map_length; auto. }
    eapply Forall_map_impl; [exact O|]. intros. apply byte_cnt. exact H.
  - intros a Ha. apply in_map_iff in Ha. destruct Ha as [b [<- Hb]]. apply nib4_byte.
    apply byte_cnt. apply (proj1 (Forall_forall _ _) O). auto.
Qed.

Lemma pop8_le : forall l, digs_ok 8 l -> Forall (fun a => a <= 8) (map pop8 l).
Proof. intros. eapply Forall_map_impl; [exact H|]. intros. apply byte_cnt. exact H0. Qed.

Lemma cnt_correct : forall x, is_word x -> cnt x = N.of_nat (popcount x).
Proof.
  intros x Hx. destruct (word_bytes x Hx) as [l [Hl ->]].
  unfold cnt. rewrite swar123_bytes by auto. destruct Hl as [L O].
  rewrite swar4_total, popcount_bytes; auto. { split; auto. } { rewrite map_length; auto. }
  apply pop8_le; auto.
Qed.

Lemma swar_cnt11_correct : forall y, is_word y -> N.land y m55 = y ->
  shr (swar4 (swar3 (swar2 y))) 56 = N.of_nat (popcount y).
Proof.
  intros y Hy E. destruct (word_bytes y Hy) as [l [[L O] ->]].
  assert (F : Forall (fun a => a < 256 /\ N.land a 0x55 = a) l).
  { assert (E' : N.land (undig 8 l) (undig 8 (repeat 0x55 (length l))) = undig 8 l) by (rewrite L; exact E).
    clear E. rename E' into E. clear L Hy.
    induction O; cbn [undig repeat length] in *; constructor.
    - split; auto. rewrite cat_land in E by (auto; reflexivity). unfold cat in E.
      assert (N.land x 85 < 256).
      { change 256 with (2 ^ N.of_nat 8). apply tb_lt_pow2. intros. rewrite tb_land, (tb_high x 8); auto. }
      change (2 ^ N.of_nat 8) with 256 in *. lia.
    - apply IHO. rewrite cat_land in E by (auto; reflexivity). unfold cat in E.
      assert (N.land x 85 < 256).
      { change 256 with (2 ^ N.of_nat 8). apply tb_lt_pow2. intros. rewrite tb_land, (tb_high x 8); auto. }
      change (2 ^ N.of_nat 8) with 256 in *. lia. }
  rewrite swar2_bytes; [|split; auto|].
  - rewrite swar3_bytes.
    + rewrite map_map. erewrite (map_ext_forall _ _ _ _ pop8 l F).
      * rewrite swar4_total, popcount_bytes; auto. { split; auto. } { rewrite map_length; auto. }
        apply pop8_le; auto.
      * simpl. intros a [A1 A2]. apply byte_cnt11; auto.
    + rewrite map_length; auto.
    + eapply Forall_map_impl; [exact F|]. intros a [A1 A2]. apply byte_cnt11; auto.
  - intros a Ha. apply nib4_byte. apply (proj1 (Forall_forall _ _) F) in Ha. apply byte_cnt11; tauto.
Qed.

(** digit extraction *)
Lemma undig_digit : forall k l i, digs_ok k l ->
  (undig k l / 2 ^ N.of_nat (k * i)) mod 2 ^ N.of_nat k = nth i l 0.
Proof.
  intros k l i O. revert i. induction O; intros; cbn [undig].
  - rewrite N.div_0_l by (apply N.pow_nonzero; lia). rewrite N.mod_0_l by (apply N.pow_nonzero; lia).
    destruct i; auto.
  - destruct i; cbn [nth].
    + rewrite Nat.mul_0_r. change (2 ^ N.of_nat 0) with 1. rewrite N.div_1_r. unfold cat.
      rewrite N.mul_comm, N.mod_add by (apply N.pow_nonzero; lia). apply N.mod_small; auto.
    + rewrite <- (IHO i). f_equal.
      replace (N.of_nat (k * S i)) with (N.of_nat k + N.of_nat (k * i)) by lia.
      rewrite N.pow_add_r, <- N.div_div by (apply N.pow_nonzero; lia).
      f_equal. unfold cat. rewrite N.mul_comm, N.div_add by (apply N.pow_nonzero; lia).
      rewrite N.div_small by auto. lia.
Qed.

Lemma undig_byte : forall l i s, s = (8 * i)%nat -> digs_ok 8 l ->
  N.land (shr (undig 8 l) s) 0xFF = nth i l 0.
Proof.
  intros. subst. change 0xFF with (lo_set 8). rewrite land_lo_set, shr_div. apply undig_digit; auto.
Qed.

(** lookup-table variant *)
Lemma cnt_tl_correct : forall x, is_word x -> cnt_tl x = N.of_nat (popcount x).
Proof.
  intros x Hx. destruct (word_bytes x Hx) as [l [[L O] ->]]. rewrite popcount_bytes by (split; auto).
  assert (T : forall a, a < 256 -> tlook tbl_lt_cnt a = pop8 a).
  { intros. apply N.eqb_eq. apply (forall_byte (fun a => tlook tbl_lt_cnt a =? pop8 a)); auto. }
  unfold cnt_tl.
  replace (N.land (undig 8 l) 255) with (nth 0 l 0)
    by (rewrite <- (undig_byte l 0 0 eq_refl O); unfold shr; change (N.of_nat 0) with 0; rewrite N.shiftr_0_r; auto).
  rewrite (undig_byte l 1 8 eq_refl), (undig_byte l 2 16 eq_refl), (undig_byte l 3 24 eq_refl),
    (undig_byte l 4 32 eq_refl), (undig_byte l 5 40 eq_refl), (undig_byte l 6 48 eq_refl),
    (undig_byte l 7 56 eq_refl) by auto.
  destruct l as [|b0 [|b1 [|b2 [|b3 [|b4 [|b5 [|b6 [|b7 [|]]]]]]]]]; try discriminate.
  unfold digs_ok in O.
  repeat match goal with H : Forall _ (_ :: _) |- _ => inversion H; clear H; subst end.
  change (2 ^ N.of_nat 8) with 256 in *.
  cbn [nth]. rewrite !T by auto. cbn [nsum map fold_right]. lia.
Qed.
