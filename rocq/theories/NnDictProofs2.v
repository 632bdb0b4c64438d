(** * nn_dict_dynamic: the words of the tree, assignment *)
From Coq Require Import NArith List Bool Arith Lia.
From Verif Require Import Base Bits SpecBits RankSelect BitsProofs BitsProofs2 AbsVec FnArr NnDict SpecNn NnDictProofs.
Import ListNotations.

Section Inv.
Variable n : nat.
Hypothesis HN : 0 < n.
Hypothesis HW : (N.of_nat n < W64)%N.
Notation D := (D n).
Notation cnt := (cnt n).
Notation base := (base n).
Notation shape := (shape n).

(** [anc d x]: the bit of level [d] above leaf bit [x] *)
Definition anc (d x : nat) : nat := x / 64 ^ (D - d).
Definition has (b : nat -> bool) (d i : nat) : Prop := exists x, b x = true /\ anc d x = i.
Definition wok (b : nat -> bool) (d k : nat) (w : N) : Prop := is_word w /\ forall cc, cc < 64 -> (tb w cc = true <-> has b d (64 * k + cc)).
(** the levels may represent different sets while an assignment is on its way up *)
Definition inv (b : nat -> nat -> bool) (t : nnd) : Prop :=
  shape t /\ forall d k, d <= D -> k < cnt d -> exists w, nth_error (nn_tree t) (base d + k) = Some w /\ wok (b d) d k w.
Definition dom (b : nat -> bool) : Prop := forall x, b x = true -> x < n.

Lemma anc_D : forall x, anc D x = x.
Proof. intros. unfold anc. rewrite Nat.sub_diag. cbn. apply Nat.div_1_r. Qed.
Lemma anc_up : forall d x, S d <= D -> anc d x = anc (S d) x / 64.
Proof.
  intros d x L. unfold anc. replace (D - d) with (S (D - S d)) by lia. rewrite p64_S, Nat.mul_comm, <- Nat.div_div; auto.
  pose proof (p64_pos (D - S d)). lia.
Qed.
Lemma anc_up_eq : forall d e x y, e <= d -> d <= D -> anc d x = anc d y -> anc e x = anc e y.
Proof.
  intros d e x y L. induction L as [|d L IH]; intros LD E; auto. apply IH; [lia|]. rewrite (anc_up d x), (anc_up d y), E by auto. auto.
Qed.
Lemma anc_cnt : forall d x, x < n -> anc d x / 64 < cnt d.
Proof. intros. apply cnt_bound; auto. Qed.
Lemma word_ok : forall b t d k, inv b t -> d <= D -> k < cnt d -> exists w, nn_word t d (vb d + k) = Some w /\ wok (b d) d k w.
Proof.
  intros b t d k [SH I] Hd K. destruct (I d k Hd K) as (w & E & W). exists w. split; auto. unfold nn_word. rewrite (pos_ok n HN HW t d k SH Hd). auto.
Qed.
Lemma inv_ext : forall b b' t, (forall d k cc, d <= D -> k < cnt d -> cc < 64 -> (has (b d) d (64 * k + cc) <-> has (b' d) d (64 * k + cc))) -> inv b t -> inv b' t.
Proof.
  intros b b' t E [SH I]. split; auto. intros d k Hd K. destruct (I d k Hd K) as (w & Q & [W1 W2]). exists w. split; auto. split; auto.
  intros cc C. rewrite W2 by auto. apply E; auto.
Qed.
(** replacing one word *)
Lemma inv_upd : forall b b' t d k w, inv b t -> d <= D -> k < cnt d ->
  (forall e j cc, e <= D -> j < cnt e -> cc < 64 -> (e <> d \/ j <> k) -> (has (b e) e (64 * j + cc) <-> has (b' e) e (64 * j + cc))) ->
  wok (b' d) d k w ->
  exists l, aset (nn_tree t) (base d + k) w = Some l /\ inv b' (with_tree t l).
Proof.
  intros b b' t d k w [SH I] Hd K E W. pose proof SH as (_ & _ & _ & _ & LT).
  pose proof (base_lt n HN HW d k Hd K) as BL. rewrite aset_some by (rewrite LT; auto). eexists. split; [reflexivity|]. split.
  { apply shape_tree; auto. apply upd_length. }
  intros e j He J. destruct (I e j He J) as (w0 & Q & [W1 W2]). cbn [nn_tree with_tree].
  rewrite (nth_error_nth' _ 0%N) by (rewrite upd_length, LT; apply base_lt; auto). rewrite nth_upd by (rewrite LT; auto).
  destruct (Nat.eqb_spec (base e + j) (base d + k)) as [EQ|NE].
  - destruct (base_inj n HN HW e j d k He Hd J K EQ) as [-> ->]. rewrite LT. replace (base d + k <? base (D + 1)) with true by (symmetry; apply Nat.ltb_lt; auto).
    cbn [andb]. eauto.
  - cbn [andb]. exists w0. rewrite (nth_error_nth _ _ 0%N Q). split; auto. split; auto. intros cc C. rewrite W2 by auto. apply E; auto.
    destruct (Nat.eq_dec e d) as [EE|]; [|left; assumption]. right. intro. subst. apply NE. reflexivity.
Qed.

Lemma has_range : forall b d i, dom b -> has b d i -> i / 64 < cnt d.
Proof. intros b d i DM (x & B & <-). apply anc_cnt. auto. Qed.
Lemma zero_wok : forall b d k w, wok b d k w -> ((w = 0)%N <-> forall cc, cc < 64 -> ~ has b d (64 * k + cc)).
Proof.
  intros b d k w [W1 W2]. split.
  - intros -> cc C H. apply W2 in H; auto. rewrite tb_0 in H. discriminate.
  - intros H. apply tb_ext. intro j. rewrite tb_0. destruct (le_lt_dec 64 j) as [L|L]; [apply tb_word_high; auto|].
    destruct (tb w j) eqn:T; auto. exfalso. apply W2 in T; auto. apply (H j L T).
Qed.
Lemma split64 : forall i, i = 64 * (i / 64) + i mod 64 /\ i mod 64 < 64.
Proof. intros. split; [apply Nat.div_mod; discriminate | apply Nat.mod_upper_bound; discriminate]. Qed.
Lemma tb_pow2 : forall k j, tb (2 ^ N.of_nat k) j = (k =? j).
Proof.
  intros. unfold tb. rewrite N.pow2_bits_eqb. destruct (Nat.eqb_spec k j) as [->|NE]; [apply N.eqb_refl|]. apply N.eqb_neq. lia.
Qed.

(** ** assignment of true *)
Definition add1 (b : nat -> bool) (x : nat) : nat -> bool := fun j => if j =? x then true else b j.
Lemma has_add1 : forall b x d i, has (add1 b x) d i <-> has b d i \/ i = anc d x.
Proof.
  intros. unfold add1. split.
  - intros (y & B & A). destruct (Nat.eqb_spec y x) as [EY|]; [right; rewrite <- EY; auto | left; exists y; auto].
  - intros [(y & B & A)| ->].
    + exists y. split; auto. destruct (y =? x); auto.
    + exists x. split; auto. rewrite Nat.eqb_refl. auto.
Qed.
Definition mixed (b b' : nat -> bool) (d : nat) : nat -> nat -> bool := fun e => if e <? d then b else b'.

(** the word at the position an assignment looks at *)
Lemma at_pos : forall b b' x d t, x < n -> d <= D -> inv (mixed b b' (d + 1)) t ->
  nn_pos t d (vb d + anc d x / 64) = Some (base d + anc d x / 64) /\
  exists w, nth_error (nn_tree t) (base d + anc d x / 64) = Some w /\ wok b d (anc d x / 64) w.
Proof.
  intros b b' x d t X Hd I. pose proof I as [SH I2]. split; [apply pos_ok; auto|]. destruct (I2 d _ Hd (anc_cnt d x X)) as (w & Q & W).
  exists w. split; auto. unfold mixed in W. replace (d <? d + 1) with true in W by (symmetry; apply Nat.ltb_lt; lia). auto.
Qed.
(** writing the word of level [d]; the other words of that level agree on both sets *)
Lemma put_pos : forall b b' x d t w, x < n -> d <= D -> inv (mixed b b' (d + 1)) t -> wok b' d (anc d x / 64) w ->
  (forall i, i / 64 <> anc d x / 64 -> (has b d i <-> has b' d i)) ->
  exists l, aset (nn_tree t) (base d + anc d x / 64) w = Some l /\ inv (mixed b b' d) (with_tree t l).
Proof.
  intros b b' x d t w X Hd I W E. apply (inv_upd (mixed b b' (d + 1))); auto. { apply anc_cnt. auto. }
  - intros e j c2 He J C2 NE. unfold mixed. destruct (Nat.ltb_spec e (d + 1)), (Nat.ltb_spec e d); try reflexivity; [|lia].
    replace e with d in * by lia. apply E. destruct NE as [NE|NE]; [lia|]. intro Z. apply NE. rewrite <- Z. clear - C2. lia.
  - unfold mixed. replace (d <? d) with false by (symmetry; apply Nat.ltb_ge; lia). auto.
Qed.
(** stopping early: above level [d] the two sets have the same ancestors *)
Lemma stop_ok : forall b b' d t, inv (mixed b b' d) t -> (forall e i, e < d -> e <= D -> (has b e i <-> has b' e i)) -> inv (fun _ => b') t.
Proof.
  intros b b' d t I E. apply (inv_ext (mixed b b' d)); auto. intros e k cc He K C. unfold mixed. destruct (Nat.ltb_spec e d); [apply E; auto | reflexivity].
Qed.
Lemma up_pos : forall d x, S d <= D -> (vb (S d) + anc (S d) x / 64 - 1) / 64 = vb d + anc d x / 64 /\ (vb (S d) + anc (S d) x / 64 - 1) mod 64 = anc d x mod 64.
Proof.
  intros d x L. rewrite (anc_up d x L), vb_S. remember (anc (S d) x / 64) as k. remember (vb d) as v. clear.
  replace (v * 64 + 1 + k - 1) with (k + v * 64) by lia. rewrite Nat.div_add, Nat.mod_add by discriminate. split; auto. lia.
Qed.

Lemma set1_ok : forall b x, dom b -> x < n -> forall fuel d t, d <= D -> d + 1 <= fuel ->
  inv (mixed b (add1 b x) (d + 1)) t ->
  exists t', nn_set1 t fuel (vb d + anc d x / 64) d (anc d x mod 64) = Some t' /\ inv (fun _ => add1 b x) t'.
Proof.
  intros b x DM X. induction fuel as [|fuel IH]; intros d t Hd FU I; [lia|]. cbn [nn_set1].
  destruct (at_pos _ _ x d t X Hd I) as (EP & w & Q & W). rewrite EP. cbn [obind]. rewrite Q. cbn [obind].
  destruct (split64 (anc d x)) as [SP CL]. pose proof W as [W1 W2].
  destruct (tb w (anc d x mod 64)) eqn:T.
  - exists t. split; auto. apply (stop_ok b _ (d + 1)); auto. intros e i ED He. rewrite has_add1. split; auto. intros [Hh|EE]; auto.
    apply W2 in T; auto. rewrite <- SP in T. destruct T as (y & BY & AY). exists y. split; auto. rewrite EE. apply (anc_up_eq d e); auto. lia.
  - assert (WN : wok (add1 b x) d (anc d x / 64) (N.lor w (2 ^ N.of_nat (anc d x mod 64)))).
    { split.
      - unfold is_word. rewrite W64_pow. apply (tb_lt_pow2 _ 64). intros j J. rewrite tb_lor, tb_pow2, (tb_word_high w j) by auto. cbn. apply Nat.eqb_neq. lia.
      - intros c2 C2. rewrite tb_lor, tb_pow2, orb_true_iff, W2, has_add1, Nat.eqb_eq by auto. remember (anc d x) as a. clear - SP C2 CL. split; intros [H|H]; auto; right; lia. }
    destruct (put_pos _ _ x d t _ X Hd I WN) as (l & EL & IL).
    { intros i NE. rewrite has_add1. split; auto. intros [|EE]; auto. exfalso. apply NE. rewrite EE. auto. }
    rewrite EL. cbn [obind]. destruct ((w =? 0)%N && negb (d =? 0)) eqn:GO.
    + apply andb_true_iff in GO. destruct GO as [GZ GD]. apply negb_true_iff, Nat.eqb_neq in GD. destruct d as [|d]; [lia|].
      replace (S d - 1) with d by lia. destruct (up_pos d x Hd) as [U1 U2]. rewrite U1, U2. apply IH; try lia. rewrite Nat.add_1_r. auto.
    + eexists. split; [reflexivity|]. apply (stop_ok b _ d); auto. intros e i ED He. rewrite has_add1. split; auto. intros [|EE]; auto.
      apply andb_false_iff in GO. destruct GO as [GO|GO].
      * apply N.eqb_neq in GO. assert (NZ : ~ forall cc, cc < 64 -> ~ has b d (64 * (anc d x / 64) + cc)) by (intro Z; apply GO; apply (zero_wok b d _ w W); auto).
        assert (EX : exists cc, cc < 64 /\ tb w cc = true).
        { destruct (N.eq_dec w 0) as [|NZ0]; [contradiction|]. pose proof (hi_msb w W1 NZ0) as [T1 _]. exists (N.to_nat (hi w)). split; auto.
          pose proof (hi_lt64 w W1). lia. }
        destruct EX as (cc & C & TC). apply W2 in TC; auto. destruct TC as (y & BY & AY). exists y. split; auto. rewrite EE.
        apply (anc_up_eq (d - 1) e); [lia|lia|]. destruct d as [|d]; [lia|]. replace (S d - 1) with d by lia. rewrite !(anc_up d) by auto. rewrite AY.
        remember (anc (S d) x / 64) as q. clear - C. lia.
      * apply negb_false_iff, Nat.eqb_eq in GO. lia.
Qed.

(** ** assignment of false *)
Definition del1 (b : nat -> bool) (x : nat) : nat -> bool := fun j => if j =? x then false else b j.
Lemma has_del1 : forall b x d i, i <> anc d x -> (has (del1 b x) d i <-> has b d i).
Proof.
  intros b x d i NE. unfold del1. split.
  - intros (y & B & A). destruct (Nat.eqb_spec y x) as [EY|]; [discriminate | exists y; auto].
  - intros (y & B & A). exists y. split; auto. destruct (Nat.eqb_spec y x) as [EY|]; auto. subst y. congruence.
Qed.
Lemma has_del1_w : forall b x d i, has (del1 b x) d i -> has b d i.
Proof. intros b x d i (y & B & A). unfold del1 in B. destruct (y =? x); [discriminate|]. exists y. auto. Qed.

Lemma set0_ok : forall b x, dom b -> x < n -> forall fuel d t, d <= D -> d + 1 <= fuel ->
  inv (mixed b (del1 b x) (d + 1)) t -> ~ has (del1 b x) d (anc d x) ->
  (b x = false -> d = D) ->
  exists t', nn_set0 t fuel (vb d + anc d x / 64) d (anc d x mod 64) = Some t' /\ inv (fun _ => del1 b x) t'.
Proof.
  intros b x DM X. induction fuel as [|fuel IH]; intros d t Hd FU I NH BX; [lia|]. cbn [nn_set0].
  destruct (at_pos _ _ x d t X Hd I) as (EP & w & Q & W). rewrite EP. cbn [obind]. rewrite Q. cbn [obind].
  destruct (split64 (anc d x)) as [SP CL]. pose proof W as [W1 W2].
  destruct (tb w (anc d x mod 64)) eqn:T; cbn [negb].
  - assert (WN : wok (del1 b x) d (anc d x / 64) (N.ldiff w (2 ^ N.of_nat (anc d x mod 64)))).
    { split.
      - unfold is_word. rewrite W64_pow. apply (tb_lt_pow2 _ 64). intros j J. rewrite tb_ldiff, (tb_word_high w j) by auto. auto.
      - intros c2 C2. rewrite tb_ldiff, tb_pow2, andb_true_iff, negb_true_iff, W2, Nat.eqb_neq by auto. split.
        + intros [H1 H2]. apply has_del1; auto. intro Z. apply H2. remember (anc d x) as a. clear - SP C2 CL Z. lia.
        + intros H. split; [eapply has_del1_w; eauto|]. intro Z. apply NH. rewrite <- Z in H. rewrite <- SP in H. auto. }
    destruct (put_pos _ _ x d t _ X Hd I WN) as (l & EL & IL).
    { intros i NE. symmetry. apply has_del1. intro Z. apply NE. rewrite Z. auto. }
    rewrite EL. cbn [obind].
    assert (BT : b x = true).
    { destruct (b x) eqn:BX'; auto. exfalso. rewrite (BX eq_refl) in *. apply W2 in T; auto. rewrite <- SP in T. destruct T as (y & BY & AY). rewrite !anc_D in AY. congruence. }
    remember (N.ldiff w (2 ^ N.of_nat (anc d x mod 64))) as w' eqn:EW. destruct ((w' =? 0)%N && negb (d =? 0)) eqn:GO.
    + apply andb_true_iff in GO. destruct GO as [GZ GD]. apply negb_true_iff, Nat.eqb_neq in GD. destruct d as [|d]; [lia|].
      replace (S d - 1) with d by lia. destruct (up_pos d x Hd) as [U1 U2]. rewrite U1, U2. apply IH; try lia.
      * rewrite Nat.add_1_r. auto.
      * intros (y & BY & AY). apply N.eqb_eq in GZ. pose proof (proj1 (zero_wok _ _ _ _ WN) GZ) as NO.
        rewrite !(anc_up d) in AY by auto. apply (NO (anc (S d) y mod 64)). { apply Nat.mod_upper_bound. discriminate. }
        exists y. split; auto. rewrite <- AY. apply Nat.div_mod. discriminate.
      * congruence.
    + eexists. split; [reflexivity|]. apply (stop_ok b _ d); auto. intros e i ED He. split; [|apply has_del1_w].
      intros Hh. destruct (Nat.eq_dec i (anc e x)) as [->|NE]; [|apply has_del1; auto].
      apply andb_false_iff in GO. destruct GO as [GO|GO].
      * apply N.eqb_neq in GO. destruct WN as [WN1 WN2].
        assert (EX : exists cc, cc < 64 /\ tb w' cc = true).
        { pose proof (hi_msb w' WN1 GO) as [T1 _]. exists (N.to_nat (hi w')). split; auto. pose proof (hi_lt64 w' WN1). lia. }
        destruct EX as (cc & C & TC). apply WN2 in TC; auto. destruct TC as (y & BY & AY). exists y. split; auto.
        apply (anc_up_eq (d - 1) e); [lia|lia|]. destruct d as [|d]; [lia|]. replace (S d - 1) with d by lia. rewrite !(anc_up d) by auto. rewrite AY.
        remember (anc (S d) x / 64) as q. clear - C. lia.
      * apply negb_false_iff, Nat.eqb_eq in GO. lia.
  - exists t. split; auto. apply (stop_ok b _ (d + 1)); auto. intros e i ED He. split; [|apply has_del1_w].
    intros Hh. destruct (b x) eqn:BX'.
    + exfalso. assert (T' : tb w (anc d x mod 64) = true) by (apply W2; auto; rewrite <- SP; exists x; auto). congruence.
    + destruct Hh as (y & BY & AY). exists y. split; auto. unfold del1. destruct (Nat.eqb_spec y x) as [EY|]; auto. subst y. congruence.
Qed.

Lemma assign_ok : forall b t i x, dom b -> i < n -> inv (fun _ => b) t ->
  exists t', nn_assign t i x = Some t' /\ inv (fun _ => nd_step b (Assign i x)) t'.
Proof.
  intros b t i x DM X I. pose proof I as [(_ & DT & VT & _) _]. unfold nn_assign. rewrite DT, VT.
  assert (MI : forall b', inv (mixed b b' (D + 1)) t).
  { intro b'. apply (inv_ext (fun _ => b)); auto. intros d k cc Hd _ _. unfold mixed. replace (d <? D + 1) with true by (symmetry; apply Nat.ltb_lt; lia). reflexivity. }
  destruct x.
  - destruct (set1_ok b i DM X (D + 1) D t) as (t' & E & I'); auto. rewrite anc_D in E. exists t'. split; auto.
  - destruct (set0_ok b i DM X (D + 1) D t) as (t' & E & I'); auto.
    { rewrite anc_D. intros (y & BY & AY). rewrite anc_D in AY. subst y. unfold del1 in BY. rewrite Nat.eqb_refl in BY. discriminate. }
    rewrite anc_D in E. exists t'. split; auto.
Qed.
Lemma zero_inv : forall t, shape t -> nn_tree t = repeat 0%N (base (D + 1)) -> inv (fun _ _ => false) t.
Proof.
  intros t SH E. split; auto. intros d k Hd K. exists 0%N. rewrite E. split.
  - rewrite (nth_error_nth' _ 0%N) by (rewrite repeat_length; apply base_lt; auto). rewrite nth_repeat. auto.
  - split; [reflexivity|]. intros cc C. rewrite tb_0. split; [discriminate | intros (y & BY & _); discriminate].
Qed.
Lemma step_ok : forall b t o, dom b -> inv (fun _ => b) t -> (forall i x, o = Assign i x -> i < n) ->
  exists t', nn_step t o = Some t' /\ inv (fun _ => nd_step b o) t' /\ dom (nd_step b o).
Proof.
  intros b t [i x|] DM I OK.
  - destruct (assign_ok b t i x DM (OK i x eq_refl) I) as (t' & E & I'). exists t'. split; auto. split; auto.
    intros j B. cbn in B. destruct (Nat.eqb_spec j i) as [EJ|]; [rewrite EJ; apply (OK i x eq_refl) | apply DM; auto].
  - exists (nn_zero t). split; auto. split; [|intros j B; discriminate]. pose proof I as [SH _]. cbn [nd_step]. apply zero_inv.
    + apply shape_tree; auto. apply repeat_length.
    + cbn. destruct SH as (_ & _ & _ & _ & ->). auto.
Qed.
Lemma run_ok : forall ops b t, dom b -> inv (fun _ => b) t -> nd_ok n ops ->
  exists t', nn_run t ops = Some t' /\ inv (fun _ => fold_left nd_step ops b) t' /\ dom (fold_left nd_step ops b).
Proof.
  induction ops as [|o ops IH]; intros b t DM I OK. { exists t. auto. }
  destruct (step_ok b t o DM I) as (t1 & E & I1 & D1). { intros i x ->. apply (OK i x). left. auto. }
  destruct (IH _ t1 D1 I1) as (t2 & E2 & Q). { intros i x Hi. apply (OK i x). right. auto. }
  exists t2. cbn [nn_run fold_left]. rewrite E. cbn [obind]. auto.
Qed.
Lemma get_ok : forall b t i, dom b -> i < n -> inv (fun _ => b) t -> nn_get t i = Some (b i).
Proof.
  intros b t i DM X I. pose proof I as [(_ & DT & VT & _) _]. unfold nn_get. rewrite DT, VT.
  pose proof (anc_cnt D i X) as K. rewrite anc_D in K. destruct (word_ok _ t D (i / 64) I (Nat.le_refl _) K) as (w & E & [W1 W2]). rewrite E. cbn [obind]. f_equal.
  destruct (split64 i) as [SP CL]. specialize (W2 _ CL). rewrite <- SP in W2. unfold has in W2.
  destruct (tb w (i mod 64)), (b i) eqn:B; auto.
  - destruct (proj1 W2 eq_refl) as (y & BY & AY). rewrite anc_D in AY. congruence.
  - apply W2. exists i. split; auto. apply anc_D.
Qed.
End Inv.
