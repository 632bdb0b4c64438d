(** * Proofs about the memory-level functions of bits.hpp: read_int, write_int,
    read_unary, move_left/right, next, prev; and cnt32. *)
From Coq Require Import NArith ZArith List Lia Bool Arith.
From Verif Require Import Base Tables Bits SpecBits BitsProofs BitsProofs2 RankSelect.
Import ListNotations.

Lemma shl_c_some : forall x k, k < 64 -> shl_c x k = Some (shl x k).
Proof. intros. unfold shl_c. apply Nat.ltb_lt in H. rewrite H. auto. Qed.
Lemma shr_c_some : forall x k, k < 64 -> shr_c x k = Some (shr x k).
Proof. intros. unfold shr_c. apply Nat.ltb_lt in H. rewrite H. auto. Qed.

Lemma tbl_lo_set_ok : tbl_lo_set = map lo_set (seq 0 65).
Proof. vm_compute. reflexivity. Qed.
Lemma tbl_lo_unset_ok : tbl_lo_unset = map (fun k => wnot (lo_set k)) (seq 0 65).
Proof. vm_compute. reflexivity. Qed.

Lemma read_int_correct : forall m w off len, words_ok m -> fits m w off len ->
  read_int m w off len = Some (field m (64 * w + off) len).
Proof.
  intros m w off len Hm [H1 [H2 [H3 H4]]]. unfold read_int.
  rewrite ld_some by auto. cbn [obind]. rewrite shr_c_some by auto. cbn [obind].
  destruct (Nat.ltb_spec 64 (off + len)).
  - rewrite ld_some by lia. cbn [obind]. rewrite shl_c_some by lia. cbn [obind]. f_equal.
    apply tb_ext. intro k. rewrite tb_field, tb_lor, tb_shr, tb_shl, tb_land, tb_lo_set.
    unfold mbit.
    destruct (Nat.lt_ge_cases (k + off) 64).
    + replace ((64 * w + off + k) / 64) with w by lia. replace ((64 * w + off + k) mod 64) with (k + off) by lia.
      replace (64 - off <=? k) with false by lia. replace (k <? len) with true by lia.
      rewrite andb_false_l, andb_false_r, orb_false_r. auto.
    + rewrite (tb_word_high (nth w m 0%N)) by auto with word.
      replace (64 - off <=? k) with true by lia. cbn [orb andb].
      destruct (Nat.ltb_spec k len); cbn [andb].
      * replace ((64 * w + off + k) / 64) with (w + 1) by lia.
        replace ((64 * w + off + k) mod 64) with (k - (64 - off)) by lia.
        replace (k <? 64) with true by lia. replace (k - (64 - off) <? (off + len) mod 64) with true by lia.
        rewrite andb_true_r. auto.
      * replace (k - (64 - off) <? (off + len) mod 64) with false by lia. rewrite !andb_false_r. auto.
  - f_equal. apply tb_ext. intro k. rewrite tb_field, tb_land, tb_lo_set, tb_shr. unfold mbit.
    destruct (Nat.ltb_spec k len); [|apply andb_false_r]. cbn [andb]. rewrite andb_true_r.
    replace ((64 * w + off + k) / 64) with w by lia. replace ((64 * w + off + k) mod 64) with (k + off) by lia. auto.
Qed.

Lemma div64_cases : forall q, exists a b, q = 64 * a + b /\ b < 64.
Proof. intros. exists (q / 64), (q mod 64). lia. Qed.

Lemma write_int_correct : forall m w x off len, words_ok m -> fits m w off len ->
  exists m', write_int m w x off len = Some m' /\ mem_set m (64 * w + off) len x m'.
Proof.
  intros m w x off len Hm [H1 [H2 [H3 H4]]]. unfold write_int.
  rewrite ld_some by auto. cbn [obind]. rewrite (shl_c_some _ off) by auto.
  destruct (Nat.ltb_spec (off + len) 64) as [L|L].
  - rewrite shl_c_some by auto. cbn [obind]. rewrite st_some by auto. eexists. split; [reflexivity|].
    split; [apply upd_length|]. split.
    { apply words_ok_upd; auto. apply is_word_lor; auto with word. }
    intro q. rewrite mbit_upd by auto. destruct (div64_cases q) as [a [b [-> Hb]]].
    rewrite mbit_wo by auto.
    replace ((64 * a + b) / 64) with a by lia. replace ((64 * a + b) mod 64) with b by lia.
    destruct (Nat.eqb_spec a w).
    + subst a. tbs.
      replace (b <? 64) with true by lia. cbn [andb].
      destruct (Nat.leb_spec (64 * w + off) (64 * w + b)); destruct (Nat.ltb_spec (64 * w + b) (64 * w + off + len)); cbn [andb].
      * replace (off + len <=? b) with false by lia. replace (b <? off) with false by lia.
        cbn [andb orb]. rewrite andb_false_r. replace (off <=? b) with true by lia. cbn [orb andb].
        replace (b - off <? len) with true by lia. rewrite andb_true_r. f_equal. lia.
      * replace (off + len <=? b) with true by lia. replace (b - (off + len) <? 64) with true by lia.
        cbn [andb orb]. rewrite andb_true_r. replace (b - off <? len) with false by lia.
        rewrite !andb_false_r, orb_false_r. auto.
      * replace (b <? off) with true by lia. replace (off <=? b) with false by lia.
        rewrite orb_true_r, andb_true_r, orb_false_r. auto.
      * lia.
    + destruct (Nat.leb_spec (64 * w + off) (64 * a + b)); destruct (Nat.ltb_spec (64 * a + b) (64 * w + off + len)); cbn [andb]; auto; lia.
  - cbn [obind]. rewrite st_some by auto. cbn [obind].
    set (m1 := upd m w _).
    assert (Hm1 : words_ok m1).
    { unfold m1. apply words_ok_upd; auto. apply is_word_lor; auto with word. }
    assert (B1 : forall a b, b < 64 -> mbit m1 (64 * a + b) =
       if (a =? w) && (off <=? b) then tb x (b - off) else mbit m (64 * a + b)).
    { intros. unfold m1. rewrite mbit_upd by auto.
      replace ((64 * a + b) / 64) with a by lia. replace ((64 * a + b) mod 64) with b by lia.
      destruct (Nat.eqb_spec a w); auto. subst a. rewrite mbit_wo by auto. tbs.
      replace (b <? 64) with true by lia. cbn [andb].
      destruct (Nat.leb_spec off b); cbn [andb].
      - replace (b <? off) with false by lia. replace (b - off <? len) with true by lia.
        rewrite andb_false_r, andb_true_r. auto.
      - replace (b <? off) with true by lia. rewrite andb_true_r, orb_false_r. auto. }
    destruct (Nat.eqb_spec ((off + len) mod 64) 0) as [E|E]; cbn [negb].
    + exists m1. split; auto. split; [apply upd_length|]. split; auto.
      intro q. destruct (div64_cases q) as [a [b [-> Hb]]]. rewrite B1 by auto.
      assert (off + len = 64) by lia.
      destruct (Nat.eqb_spec a w); cbn [andb].
      * subst a. destruct (Nat.leb_spec off b).
        { replace (64 * w + off <=? 64 * w + b) with true by lia.
          replace (64 * w + b <? 64 * w + off + len) with true by lia. cbn [andb]. f_equal. lia. }
        { replace (64 * w + off <=? 64 * w + b) with false by lia. auto. }
      * destruct (Nat.leb_spec (64 * w + off) (64 * a + b)); destruct (Nat.ltb_spec (64 * a + b) (64 * w + off + len)); cbn [andb]; auto; lia.
    + assert (Hw : w + 1 < length m) by lia.
      assert (Hw1 : w + 1 < length m1) by (unfold m1; rewrite upd_length; auto).
      rewrite ld_some by auto. cbn [obind]. rewrite shr_c_some by lia. cbn [obind].
      rewrite st_some by auto. eexists. split; [reflexivity|].
      split; [unfold m1; rewrite !upd_length; auto|]. split.
      { apply words_ok_upd; auto. apply is_word_lor; [apply is_word_land_l; auto with word|].
        apply is_word_shr. apply is_word_land_r. auto with word. }
      intro q. rewrite mbit_upd by auto. destruct (div64_cases q) as [a [b [-> Hb]]].
      replace ((64 * a + b) / 64) with a by lia. replace ((64 * a + b) mod 64) with b by lia.
      destruct (Nat.eqb_spec a (w + 1)).
      * subst a. rewrite tb_lor, tb_land, tb_wnot, tb_lo_set, tb_shr, tb_land, tb_lo_set.
        rewrite <- mbit_wo by auto. rewrite B1 by auto.
        replace (w + 1 =? w) with false by lia. cbn [andb].
        replace (b <? 64) with true by lia. rewrite xorb_true_r.
        replace (64 * w + off <=? 64 * (w + 1) + b) with true by lia. cbn [andb].
        destruct (Nat.ltb_spec (64 * (w + 1) + b) (64 * w + off + len)).
        { replace (b <? (off + len) mod 64) with true by lia. cbn [negb]. rewrite andb_false_r. cbn [orb].
          replace (b + (len - (off + len) mod 64) <? len) with true by lia. rewrite andb_true_r. f_equal. lia. }
        { replace (b <? (off + len) mod 64) with false by lia. cbn [negb]. rewrite andb_true_r.
          replace (b + (len - (off + len) mod 64) <? len) with false by lia. rewrite andb_false_r, orb_false_r. auto. }
      * rewrite B1 by auto. destruct (Nat.eqb_spec a w); cbn [andb].
        { subst a. destruct (Nat.leb_spec off b).
          - replace (64 * w + off <=? 64 * w + b) with true by lia.
            replace (64 * w + b <? 64 * w + off + len) with true by lia. cbn [andb]. f_equal. lia.
          - replace (64 * w + off <=? 64 * w + b) with false by lia. auto. }
        { destruct (Nat.leb_spec (64 * w + off) (64 * a + b)); destruct (Nat.ltb_spec (64 * a + b) (64 * w + off + len)); cbn [andb]; auto; lia. }
Qed.

(** the _and_move variants: same effect, and the pointer advances by [len] bits *)
Lemma read_int_and_move_correct : forall m w off len, words_ok m -> fits m w off len ->
  exists w' off', read_int_and_move m w off len = Some (field m (64 * w + off) len, w', off') /\
    64 * w' + off' = 64 * w + off + len /\ off' < 64.
Proof.
  intros m w off len Hm F. pose proof (read_int_correct m w off len Hm F) as R.
  destruct F as [H1 [H2 [H3 H4]]]. unfold read_int, read_int_and_move in *.
  rewrite ld_some in * by auto. cbn [obind] in *. rewrite shr_c_some in * by auto. cbn [obind] in *.
  destruct (Nat.leb_spec 64 (off + len)).
  - destruct (Nat.eqb_spec (off + len) 64) as [E|E].
    + replace (64 <? off + len) with false in R by lia. apply some_inj in R; rename R into R'.
      exists (w + 1), 0. split; [|lia]. rewrite <- R'. do 3 f_equal.
      apply tb_ext. intro k. tbs. destruct (Nat.ltb_spec k len); [rewrite andb_true_r; auto|].
      rewrite andb_false_r. apply tb_word_high; auto with word. lia.
    + replace (64 <? off + len) with true in R by lia. rewrite ld_some in * by lia. cbn [obind] in *.
      rewrite shl_c_some in * by lia. cbn [obind] in *. apply some_inj in R; rename R into R'.
      exists (w + 1), ((off + len) mod 64). split; [|lia]. rewrite <- R'.
      replace (len - (off + len) mod 64) with (64 - off) by lia. auto.
  - replace (64 <? off + len) with false in R by lia. apply some_inj in R; rename R into R'.
    exists w, (off + len). rewrite R'. split; [auto|lia].
Qed.

Lemma write_int_and_move_correct : forall m w x off len, words_ok m -> fits m w off len ->
  exists m' w' off', write_int_and_move m w x off len = Some (m', w', off') /\
    mem_set m (64 * w + off) len x m' /\ 64 * w' + off' = 64 * w + off + len /\ off' < 64.
Proof.
  intros m w x off len Hm F. destruct (write_int_correct m w x off len Hm F) as [m' [R S]].
  exists m'. destruct F as [H1 [H2 [H3 H4]]]. unfold write_int, write_int_and_move in *.
  rewrite ld_some in * by auto. cbn [obind] in *. rewrite (shl_c_some _ off) in * by auto.
  destruct (Nat.ltb_spec (off + len) 64) as [L|L].
  - rewrite shl_c_some in * by auto. cbn [obind] in *. rewrite R. cbn [obind]. exists w, (off + len).
    split; auto. split; auto. lia.
  - cbn [obind] in *. rewrite st_some in * by auto. cbn [obind] in *.
    destruct (Nat.ltb_spec 64 (off + len)) as [L2|L2].
    + replace ((off + len) mod 64 =? 0) with false in R by lia. cbn [negb] in R.
      set (m1 := upd m w _) in *. rewrite ld_some in * by (unfold m1; rewrite upd_length; lia). cbn [obind] in *.
      rewrite shr_c_some in * by lia. cbn [obind] in *. rewrite R. cbn [obind].
      exists (w + 1), ((off + len) mod 64). split; auto. split; auto. lia.
    + replace ((off + len) mod 64 =? 0) with true in R by lia. cbn [negb] in R. inversion R. subst m'.
      exists (w + 1), 0. split; auto. split; auto. lia.
Qed.

(** write then read *)
Lemma mem_set_read_same : forall m p len x m', mem_set m p len x m' ->
  field m' p len = (x mod 2 ^ N.of_nat len)%N.
Proof.
  intros m p len x m' [L [W B]]. apply tb_ext. intro k. rewrite tb_field, tb_mod_pow2, B.
  destruct (Nat.ltb_spec k len); auto. replace (p <=? p + k) with true by lia.
  replace (p + k <? p + len) with true by lia. cbn [andb]. f_equal. lia.
Qed.
Lemma mem_set_read_other : forall m p len x m' q l, mem_set m p len x m' ->
  q + l <= p \/ p + len <= q -> field m' q l = field m q l.
Proof.
  intros m p len x m' q l [L [W B]] H. apply field_ext. intros. rewrite B.
  destruct (Nat.leb_spec p (q + k)); destruct (Nat.ltb_spec (q + k) (p + len)); cbn [andb]; auto; lia.
Qed.

(** ** move_left / move_right *)
Lemma move_right_correct : forall w off len, off < 64 -> len <= 64 ->
  let '(w', off') := move_right w off len in 64 * w' + off' = 64 * w + off + len /\ off' < 64.
Proof.
  intros. unfold move_right. destruct (Nat.leb_spec 64 ((off + len) mod 256)); lia.
Qed.
Lemma move_left_correct : forall w off len, off < 64 -> len <= 64 -> len <= 64 * w + off ->
  exists w' off', move_left w off len = Some (w', off') /\ 64 * w' + off' = 64 * w + off - len /\ off' < 64.
Proof.
  intros. unfold move_left. destruct (Nat.leb_spec 64 ((off + 256 - len) mod 256)).
  - destruct w as [|w]; [lia|]. eexists. eexists. split; [reflexivity|]. lia.
  - eexists. eexists. split; [reflexivity|]. lia.
Qed.

(** ** searching for one bits *)
Lemma first_one_unique : forall f a p q, first_one_from f a p -> first_one_from f a q -> p = q.
Proof.
  intros f a p q [A1 [A2 A3]] [B1 [B2 B3]]. destruct (Nat.lt_trichotomy p q) as [L|[L|L]]; auto.
  - rewrite B3 in A2 by lia. discriminate. - rewrite A3 in B2 by lia. discriminate.
Qed.
Lemma last_one_unique : forall f a p q, last_one_upto f a p -> last_one_upto f a q -> p = q.
Proof.
  intros f a p q [A1 [A2 A3]] [B1 [B2 B3]]. destruct (Nat.lt_trichotomy p q) as [L|[L|L]]; auto.
  - rewrite A3 in B2 by lia. discriminate. - rewrite B3 in A2 by lia. discriminate.
Qed.

Lemma word0_bits : forall m w b, nth w m 0%N = 0%N -> b < 64 -> mbit m (64 * w + b) = false.
Proof. intros. rewrite mbit_wo, H by auto. apply tb_0. Qed.

Lemma skip_zero_correct : forall fuel m w p, words_ok m -> length m <= w + fuel ->
  first_one_from (mbit m) (64 * w) p ->
  exists w' v, skip_zero fuel m w = Some (w', v) /\ w <= w' < length m /\ v = nth w' m 0%N /\ v <> 0%N /\
    p = 64 * w' + lsb v.
Proof.
  induction fuel; intros m w p Hm L F.
  - destruct F as [F1 [F2 _]]. rewrite mbit_out in F2 by lia. discriminate.
  - cbn [skip_zero]. assert (Lw : w < length m).
    { apply Nat.nle_gt. intro. destruct F as [F1 [F2 _]]. rewrite mbit_out in F2 by lia. discriminate. }
    rewrite ld_some by auto. cbn [obind]. destruct (N.eqb_spec (nth w m 0%N) 0) as [E|E].
    + destruct (IHfuel m (S w) p Hm ltac:(lia)) as [w' [v [A B]]].
      * destruct F as [F1 [F2 F3]]. split; [|split; auto].
        -- apply Nat.nlt_ge. intro. replace p with (64 * w + (p - 64 * w)) in F2 by lia.
           rewrite word0_bits in F2 by (auto; lia). discriminate.
        -- intros. apply F3. lia.
      * exists w', v. intuition lia.
    + exists w, (nth w m 0%N). repeat split; auto.
      eapply first_one_unique; eauto. destruct (lsb_is_lsb _ E) as [A B].
      assert (lsb (nth w m 0%N) < 64) by (apply lsb_lt64; auto with word).
      split; [lia|]. split. { rewrite mbit_wo by auto. auto. }
      intros. replace k with (64 * w + (k - 64 * w)) by lia. rewrite mbit_wo by lia. apply B. lia.
Qed.

(** read_unary: number of zeros before the next one *)
Lemma shr_nonzero_first : forall m w off, words_ok m -> off < 64 -> shr (nth w m 0%N) off <> 0%N ->
  first_one_from (mbit m) (64 * w + off) (64 * w + off + lsb (shr (nth w m 0%N) off)) /\
  off + lsb (shr (nth w m 0%N) off) < 64.
Proof.
  intros m w off Hm Ho E. destruct (lsb_is_lsb _ E) as [A B].
  rewrite tb_shr in A.
  assert (L : lsb (shr (nth w m 0%N) off) + off < 64).
  { apply Nat.nle_gt. intro. rewrite tb_word_high in A by auto with word. discriminate. }
  split; [|lia]. split; [lia|]. split.
  - replace (64 * w + off + lsb _) with (64 * w + (lsb (shr (nth w m 0%N) off) + off)) by lia.
    rewrite mbit_wo by lia. auto.
  - intros. replace k with (64 * w + (k - 64 * w)) by lia. rewrite mbit_wo by lia.
    specialize (B (k - 64 * w - off) ltac:(lia)). rewrite tb_shr in B. rewrite <- B. f_equal. lia.
Qed.
Lemma shr_zero_first : forall m w off p, words_ok m -> off < 64 -> shr (nth w m 0%N) off = 0%N ->
  first_one_from (mbit m) (64 * w + off) p -> first_one_from (mbit m) (64 * (w + 1)) p.
Proof.
  intros m w off p Hm Ho E [F1 [F2 F3]]. split; [|split; auto; intros; apply F3; lia].
  apply Nat.nlt_ge. intro. replace p with (64 * w + (p - 64 * w)) in F2 by lia.
  rewrite mbit_wo in F2 by lia.
  assert (T : tb (shr (nth w m 0%N) off) (p - 64 * w - off) = false) by (rewrite E; apply tb_0).
  rewrite tb_shr in T. replace (p - 64 * w - off + off) with (p - 64 * w) in T by lia. congruence.
Qed.

Lemma first_one_in : forall m a p, first_one_from (mbit m) a p -> p < 64 * length m.
Proof. intros m a p [_ [H _]]. apply Nat.nle_gt. intro. rewrite mbit_out in H by auto. discriminate. Qed.

Lemma read_unary_and_move_correct : forall m w off p, words_ok m -> off < 64 ->
  first_one_from (mbit m) (64 * w + off) p ->
  exists w' off', read_unary_and_move m w off = Some (p - (64 * w + off), w', off') /\
     64 * w' + off' = p + 1 /\ off' < 64.
Proof.
  intros m w off p Hm Ho F. pose proof (first_one_in _ _ _ F) as Lp.
  assert (Lw : w < length m) by (destruct F; lia).
  unfold read_unary_and_move. rewrite ld_some by auto. cbn [obind]. rewrite shr_c_some by auto. cbn [obind].
  destruct (N.eqb_spec (shr (nth w m 0%N) off) 0) as [E|E]; cbn [negb].
  - pose proof (shr_zero_first m w off p Hm Ho E F) as F1.
    assert (Lw1 : w + 1 < length m) by (destruct F1; lia).
    rewrite ld_some by auto. cbn [obind].
    destruct (N.eqb_spec (nth (w + 1) m 0%N) 0) as [E1|E1]; cbn [negb].
    + assert (F2 : first_one_from (mbit m) (64 * (w + 2)) p).
      { destruct F1 as [G1 [G2 G3]]. split; [|split; auto; intros; apply G3; lia].
        apply Nat.nlt_ge. intro. replace p with (64 * (w + 1) + (p - 64 * (w + 1))) in G2 by lia.
        rewrite word0_bits in G2 by (auto; lia). discriminate. }
      destruct (skip_zero_correct (length m) m (w + 2) p Hm ltac:(lia) F2) as [w' [v [A [B [C [D P]]]]]].
      rewrite A. cbn [obind]. assert (Wv : is_word v) by (subst v; auto with word).
      rewrite lo_correct, Nat2N.id by auto. pose proof (lsb_lt64 v Wv).
      eexists. eexists. split; [do 2 f_equal; f_equal; lia|].
      match goal with |- context [if ?c =? 0 then _ else _] => destruct (Nat.eqb_spec c 0) end; lia.
    + assert (W1 : is_word (nth (w + 1) m 0%N)) by auto with word.
      rewrite lo_correct, Nat2N.id by auto. pose proof (lsb_lt64 _ W1).
      assert (P : p = 64 * (w + 1) + lsb (nth (w + 1) m 0%N)).
      { assert (Z : shr (nth (w + 1) m 0%N) 0 = nth (w + 1) m 0%N) by (unfold shr; apply N.shiftr_0_r).
        destruct (shr_nonzero_first m (w + 1) 0 Hm ltac:(lia)) as [G _]. { rewrite Z; auto. }
        rewrite Z in G. rewrite !Nat.add_0_r in G. eapply first_one_unique; eauto. }
      eexists. eexists. split; [do 2 f_equal; f_equal; lia|].
      match goal with |- context [if ?c =? 0 then _ else _] => destruct (Nat.eqb_spec c 0) end; lia.
  - destruct (shr_nonzero_first m w off Hm Ho E) as [G L].
    rewrite (first_one_unique _ _ _ _ F G).
    rewrite lo_correct, Nat2N.id by (apply is_word_shr; auto with word).
    eexists. eexists. split; [do 2 f_equal; f_equal; lia|].
    match goal with |- context [if ?c =? 0 then _ else _] => destruct (Nat.eqb_spec c 0) end; lia.
Qed.

Lemma read_unary_correct : forall m w off p, words_ok m -> off < 64 ->
  first_one_from (mbit m) (64 * w + off) p ->
  read_unary m w off = Some (p - (64 * w + off)).
Proof.
  intros m w off p Hm Ho F. pose proof (first_one_in _ _ _ F) as Lp.
  assert (Lw : w < length m) by (destruct F; lia).
  unfold read_unary. rewrite ld_some by auto. cbn [obind]. rewrite shr_c_some by auto. cbn [obind].
  destruct (N.eqb_spec (shr (nth w m 0%N) off) 0) as [E|E]; cbn [negb].
  - pose proof (shr_zero_first m w off p Hm Ho E F) as F1.
    assert (Lw1 : w + 1 < length m) by (destruct F1; lia).
    rewrite ld_some by auto. cbn [obind].
    destruct (N.eqb_spec (nth (w + 1) m 0%N) 0) as [E1|E1]; cbn [negb].
    + assert (F2 : first_one_from (mbit m) (64 * (w + 2)) p).
      { destruct F1 as [G1 [G2 G3]]. split; [|split; auto; intros; apply G3; lia].
        apply Nat.nlt_ge. intro. replace p with (64 * (w + 1) + (p - 64 * (w + 1))) in G2 by lia.
        rewrite word0_bits in G2 by (auto; lia). discriminate. }
      destruct (skip_zero_correct (length m) m (w + 2) p Hm ltac:(lia) F2) as [w' [v [A [B [C [D P]]]]]].
      rewrite A. cbn [obind]. assert (Wv : is_word v) by (subst v; auto with word).
      rewrite lo_correct, Nat2N.id by auto. f_equal. lia.
    + assert (W1 : is_word (nth (w + 1) m 0%N)) by auto with word.
      rewrite lo_correct, Nat2N.id by auto.
      assert (P : p = 64 * (w + 1) + lsb (nth (w + 1) m 0%N)).
      { assert (Z : shr (nth (w + 1) m 0%N) 0 = nth (w + 1) m 0%N) by (unfold shr; apply N.shiftr_0_r).
        destruct (shr_nonzero_first m (w + 1) 0 Hm ltac:(lia)) as [G _]. { rewrite Z; auto. }
        rewrite Z in G. rewrite !Nat.add_0_r in G. eapply first_one_unique; eauto. }
      f_equal. lia.
  - destruct (shr_nonzero_first m w off Hm Ho E) as [G L].
    rewrite (first_one_unique _ _ _ _ F G).
    rewrite lo_correct, Nat2N.id by (apply is_word_shr; auto with word). f_equal. lia.
Qed.

Lemma next_correct : forall m w idx p, words_ok m ->
  first_one_from (fun k => mbit m (64 * w + k)) idx p -> next m w idx = Some p.
Proof.
  intros m w idx p Hm F. unfold next.
  assert (Lp : 64 * w + p < 64 * length m).
  { destruct F as [_ [F _]]. apply Nat.nle_gt. intro. rewrite mbit_out in F by auto. discriminate. }
  assert (Lw : w + idx / 64 < length m) by (destruct F; lia).
  rewrite ld_some by auto. cbn [obind].
  set (W := w + idx / 64) in *. set (v := N.land (nth W m 0%N) (wnot (lo_set (idx mod 64)))).
  assert (V : forall k, k < 64 -> tb v k = (idx mod 64 <=? k) && mbit m (64 * W + k)).
  { intros. unfold v. rewrite tb_land, tb_wnot, tb_lo_set, mbit_wo by auto.
    replace (k <? 64) with true by lia. rewrite xorb_true_r, andb_comm. f_equal. lia. }
  assert (Wv : is_word v) by (unfold v; apply is_word_land_l; auto with word).
  destruct (N.eqb_spec v 0) as [E|E]; cbn [negb].
  - destruct (skip_zero_correct (length m) m (W + 1) (64 * w + p) Hm ltac:(lia)) as [w' [u [A [B [C [D P]]]]]].
    + destruct F as [F1 [F2 F3]]. split; [|split; auto].
      * apply Nat.nlt_ge. intro.
        assert (T : tb v (64 * w + p - 64 * W) = false) by (rewrite E; apply tb_0).
        rewrite V in T by lia. replace (idx mod 64 <=? 64 * w + p - 64 * W) with true in T by lia.
        cbn [andb] in T. replace (64 * W + (64 * w + p - 64 * W)) with (64 * w + p) in T by lia. congruence.
      * intros. replace k with (64 * w + (k - 64 * w)) by lia. apply F3. lia.
    + rewrite A. cbn [obind]. rewrite lo_correct, Nat2N.id by (subst u; auto with word). f_equal. lia.
  - rewrite lo_correct, Nat2N.id by auto. f_equal.
    destruct (lsb_is_lsb v E) as [A B]. pose proof (lsb_lt64 v Wv) as L.
    rewrite V in A by auto. apply andb_true_iff in A. destruct A as [A1 A2]. apply Nat.leb_le in A1.
    eapply first_one_unique; [|exact F]. split; [lia|]. split.
    + rewrite <- A2. f_equal. lia.
    + intros. specialize (B (64 * w + k - 64 * W) ltac:(lia)). rewrite V in B by lia.
      replace (idx mod 64 <=? 64 * w + k - 64 * W) with true in B by lia. cbn [andb] in B. rewrite <- B. f_equal. lia.
Qed.

Lemma skip_zero_down_correct : forall m w p, words_ok m -> w < length m ->
  last_one_upto (mbit m) (64 * w + 63) p ->
  exists w' v, skip_zero_down m w = Some (w', v) /\ w' <= w /\ v = nth w' m 0%N /\ v <> 0%N /\
    p = 64 * w' + N.to_nat (N.log2 v).
Proof.
  induction w; intros p Hm L F.
  - cbn [skip_zero_down]. rewrite ld_some by auto. cbn [obind].
    destruct F as [F1 [F2 F3]].
    destruct (N.eqb_spec (nth 0 m 0%N) 0) as [E|E].
    + replace p with (64 * 0 + p) in F2 by lia. rewrite word0_bits in F2 by (auto; lia). discriminate.
    + exists 0, (nth 0 m 0%N). repeat split; auto. destruct (log2_is_msb _ E) as [A B].
      eapply last_one_unique with (f := mbit m) (a := 64 * 0 + 63).
      { split; [exact F1|]. split; auto. }
      assert (N.to_nat (N.log2 (nth 0 m 0%N)) < 64).
      { apply Nat.nle_gt. intro. rewrite tb_word_high in A by auto with word. discriminate. }
      split; [lia|]. split; [rewrite mbit_wo by auto; auto|].
      intros. replace k with (64 * 0 + k) by lia. rewrite mbit_wo by lia. apply B. lia.
  - cbn [skip_zero_down]. rewrite ld_some by auto. cbn [obind].
    destruct F as [F1 [F2 F3]].
    destruct (N.eqb_spec (nth (S w) m 0%N) 0) as [E|E].
    + destruct (IHw p Hm ltac:(lia)) as [w' [v [A B]]].
      * split; [|split; auto; intros; apply F3; lia].
        apply Nat.nlt_ge. intro. replace p with (64 * S w + (p - 64 * S w)) in F2 by lia.
        rewrite word0_bits in F2 by (auto; lia). discriminate.
      * exists w', v. intuition lia.
    + exists (S w), (nth (S w) m 0%N). repeat split; auto. destruct (log2_is_msb _ E) as [A B].
      eapply last_one_unique with (f := mbit m) (a := 64 * S w + 63).
      { split; [exact F1|]. split; auto. }
      assert (N.to_nat (N.log2 (nth (S w) m 0%N)) < 64).
      { apply Nat.nle_gt. intro. rewrite tb_word_high in A by auto with word. discriminate. }
      split; [lia|]. split; [rewrite mbit_wo by auto; auto|].
      intros. replace k with (64 * S w + (k - 64 * S w)) by lia. rewrite mbit_wo by lia. apply B. lia.
Qed.

Lemma prev_correct : forall m idx p, words_ok m -> idx < 64 * length m ->
  last_one_upto (mbit m) idx p -> prev m idx = Some p.
Proof.
  intros m idx p Hm Li F. unfold prev. assert (Lw : idx / 64 < length m) by lia.
  rewrite ld_some by auto. cbn [obind].
  remember (idx / 64) as W eqn:EW. set (v := N.land (nth W m 0%N) (lo_set (idx mod 64 + 1))).
  assert (V : forall k, k < 64 -> tb v k = (k <=? idx mod 64) && mbit m (64 * W + k)).
  { intros. unfold v. rewrite tb_land, tb_lo_set, mbit_wo by auto. rewrite andb_comm. f_equal. lia. }
  assert (Wv : is_word v) by (unfold v; apply is_word_land_l; auto with word).
  destruct (N.eqb_spec v 0) as [E|E]; cbn [negb].
  - assert (Hp : p < 64 * W).
    { destruct F as [F1 [F2 F3]]. apply Nat.nle_gt. intro.
      assert (T : tb v (p - 64 * W) = false) by (rewrite E; apply tb_0).
      rewrite V in T by lia. replace (p - 64 * W <=? idx mod 64) with true in T by lia. cbn [andb] in T.
      replace (64 * W + (p - 64 * W)) with p in T by lia. congruence. }
    destruct W as [|w0]; [lia|].
    destruct (skip_zero_down_correct m w0 p Hm ltac:(lia)) as [w' [u [A [B [C [D P]]]]]].
    + destruct F as [F1 [F2 F3]]. split; [lia|]. split; auto. intros. apply F3. lia.
    + rewrite A. cbn [obind]. rewrite hi_correct by (subst u; auto with word). f_equal. lia.
  - rewrite hi_correct by auto. f_equal. destruct (log2_is_msb v E) as [A B].
    set (b := N.to_nat (N.log2 v)) in *. clearbody b.
    assert (b < 64). { apply Nat.nle_gt. intro. rewrite tb_word_high in A by auto. discriminate. }
    rewrite V in A by auto. apply andb_true_iff in A. destruct A as [A1 A2]. apply Nat.leb_le in A1.
    eapply last_one_unique; [|exact F]. split; [lia|]. split.
    + rewrite <- A2. f_equal. lia.
    + intros. specialize (B (k - 64 * W) ltac:(lia)). rewrite V in B by lia.
      replace (k - 64 * W <=? idx mod 64) with true in B by lia. cbn [andb] in B. rewrite <- B. f_equal. lia.
Qed.
