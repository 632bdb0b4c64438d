(** * Proofs about uint128_t and uint256_t *)
From Coq Require Import NArith List Bool Arith Lia.
From Verif Require Import Base Bits SpecBits RankSelect BitsProofs BitsProofs2 BitsProofs3 Wide SpecWide.
Import ListNotations.
Local Open Scope N_scope.

Definition ok128 (a : u128) : Prop := is_word (lo128 a) /\ is_word (hi128 a).
Definition val128 (a : u128) : N := words_val [lo128 a; hi128 a].
Definition ok256 (a : u256) : Prop := is_word (lo256 a) /\ is_word (mid256 a) /\ hi256 a < 2 ^ 128.
(** the high half holds the two upper words *)
Definition val256 (a : u256) : N := words_val [lo256 a; mid256 a; hi256 a mod 2 ^ 64; hi256 a / 2 ^ 64].

Lemma val128_eq : forall a, val128 a = lo128 a + W64 * hi128 a.
Proof. intros. unfold val128. cbn [words_val]. change (2 ^ 64) with W64. lia. Qed.
Lemma val256_eq : forall a, val256 a = lo256 a + W64 * mid256 a + M128 * hi256 a.
Proof.
  intros. unfold val256. cbn [words_val]. change (2 ^ 64) with W64. change M128 with (W64 * W64).
  pose proof (N.div_mod' (hi256 a) W64). nia.
Qed.

Lemma tb_cat : forall n lo hi j, lo < 2 ^ N.of_nat n -> tb (lo + 2 ^ N.of_nat n * hi) j = if (j <? n)%nat then tb lo j else tb hi (j - n).
Proof.
  intros. assert (E : lo + 2 ^ N.of_nat n * hi = N.lor lo (N.shiftl hi (N.of_nat n))).
  { rewrite N.shiftl_mul_pow2, N.mul_comm. rewrite lor_disjoint_add; [lia|].
    rewrite <- N.shiftl_mul_pow2. apply tb_ext. intros k. rewrite tb_land, tb_shiftl, tb_0.
    destruct (Nat.leb_spec n k); [rewrite (tb_high lo n k); auto|apply andb_false_r]. }
  rewrite E, tb_lor, tb_shiftl. destruct (Nat.ltb_spec j n).
  - replace (n <=? j)%nat with false by (symmetry; apply Nat.leb_gt; auto). cbn [andb]. apply orb_false_r.
  - replace (n <=? j)%nat with true by (symmetry; apply Nat.leb_le; auto). rewrite (tb_high lo n j); auto.
Qed.
Lemma tb128 : forall a j, ok128 a -> tb (val128 a) j = if (j <? 64)%nat then tb (lo128 a) j else tb (hi128 a) (j - 64).
Proof. intros a j [H1 H2]. rewrite val128_eq. apply (tb_cat 64). exact H1. Qed.
Lemma tb256 : forall a j, ok256 a -> tb (val256 a) j =
  if (j <? 64)%nat then tb (lo256 a) j else if (j <? 128)%nat then tb (mid256 a) (j - 64) else tb (hi256 a) (j - 128).
Proof.
  intros a j (H1 & H2 & H3). rewrite val256_eq. change M128 with (2 ^ N.of_nat 128). rewrite tb_cat.
  2:{ unfold is_word, W64 in *. change (2 ^ N.of_nat 128) with (2^64 * 2^64). lia. }
  change W64 with (2 ^ N.of_nat 64). destruct (Nat.ltb_spec j 128).
  - rewrite tb_cat by exact H1. destruct (Nat.ltb_spec j 64); auto.
  - destruct (Nat.ltb_spec j 64); [lia|auto].
Qed.
Lemma val128_lt : forall a, ok128 a -> val128 a < 2 ^ 128.
Proof. intros a [H1 H2]. rewrite val128_eq. unfold is_word, W64 in *. lia. Qed.
Lemma val256_lt : forall a, ok256 a -> val256 a < 2 ^ 256.
Proof. intros a (H1 & H2 & H3). rewrite val256_eq. change M128 with (2 ^ 128). unfold is_word, W64 in *. lia. Qed.

Lemma carry_add : forall x y, is_word x -> is_word y -> wadd x y + W64 * b2n (wadd x y <? x) = x + y.
Proof.
  intros x y Hx Hy. unfold is_word, wadd in *. destruct (N.lt_ge_cases (x + y) W64).
  - rewrite N.mod_small by auto. destruct (N.ltb_spec (x + y) x); cbn [b2n]; lia.
  - replace ((x + y) mod W64) with (x + y - W64).
    2:{ apply N.mod_unique with 1; lia. }
    destruct (N.ltb_spec (x + y - W64) x); cbn [b2n]; lia.
Qed.
Lemma borrow_sub : forall x y, is_word x -> is_word y -> wsub x y + y = x + W64 * b2n (x <? wsub x y).
Proof.
  intros x y Hx Hy. unfold is_word, wsub in *. destruct (N.lt_ge_cases x y).
  - rewrite N.mod_small by lia. destruct (N.ltb_spec x (x + (W64 - y))); cbn [b2n]; lia.
  - replace ((x + (W64 - y)) mod W64) with (x - y) by (apply N.mod_unique with 1; lia).
    destruct (N.ltb_spec x (x - y)); cbn [b2n]; lia.
Qed.
Lemma cat_mod : forall r b, is_word r -> r + W64 * (b mod W64) = (r + W64 * b) mod 2 ^ 128.
Proof.
  intros r b H. change (2 ^ 128) with (W64 * W64). apply N.mod_unique with (b / W64).
  - unfold is_word in H. pose proof (N.mod_lt b W64). nia.
  - pose proof (N.div_mod' b W64). nia.
Qed.

Lemma u_add_m : forall a b, ok128 a -> ok128 b -> ok128 (u_add a b) /\ val128 (u_add a b) = (val128 a + val128 b) mod 2 ^ 128.
Proof.
  intros a b [A1 A2] [B1 B2]. split; [split; cbn; auto with word|].
  rewrite !val128_eq. unfold u_add. cbn [lo128 hi128]. unfold wadd at 2 3.
  rewrite N.add_mod_idemp_l by discriminate. rewrite cat_mod by auto with word.
  f_equal. pose proof (carry_add (lo128 a) (lo128 b) A1 B1). lia.
Qed.
Lemma u_add64_m : forall a x, ok128 a -> is_word x -> ok128 (u_add64 a x) /\ val128 (u_add64 a x) = (val128 a + x) mod 2 ^ 128.
Proof.
  intros a b [A1 A2] B1. split; [split; cbn; auto with word|].
  rewrite !val128_eq. unfold u_add64. cbn [lo128 hi128]. unfold wadd at 2.
  rewrite cat_mod by auto with word.
  f_equal. pose proof (carry_add (lo128 a) b A1 B1). lia.
Qed.
Lemma u_sub_m : forall a b, ok128 a -> ok128 b -> ok128 (u_sub a b) /\ val128 (u_sub a b) = (val128 a + (2 ^ 128 - val128 b)) mod 2 ^ 128.
Proof.
  intros a b [A1 A2] [B1 B2]. split; [split; cbn; auto with word|].
  rewrite !val128_eq. unfold u_sub. cbn [lo128 hi128]. unfold wsub at 2 3.
  rewrite N.add_mod_idemp_l by discriminate. rewrite cat_mod by auto with word.
  pose proof (borrow_sub (lo128 a) (lo128 b) A1 B1) as E. unfold is_word in *.
  change (2 ^ 128) with (W64 * W64).
  set (c := b2n (lo128 a <? wsub (lo128 a) (lo128 b))) in *.
  assert (c <= 1) by (unfold c; destruct (_ <? _); cbn; lia).
  replace (wsub (lo128 a) (lo128 b) + W64 * (hi128 a + (W64 - hi128 b) + (W64 - c)))
    with (lo128 a + W64 * hi128 a + (W64 * W64 - (lo128 b + W64 * hi128 b)) + 1 * (W64 * W64)).
  - apply N.mod_add. discriminate.
  - revert E. generalize (wsub (lo128 a) (lo128 b)). intros w E. unfold W64 in *. lia.
Qed.
Lemma wnot_val : forall x, is_word x -> wnot x = W64 - 1 - x.
Proof.
  intros. unfold wnot. change (N.lxor x (N.ones 64)) with (N.lnot x 64). change (W64 - 1) with (N.ones 64). apply N.lnot_sub_low.
  unfold is_word in H. destruct (N.eq_dec x 0); [subst; reflexivity|apply N.log2_lt_pow2; [lia|exact H]].
Qed.
Lemma u_not_m : forall a, ok128 a -> ok128 (u_not a) /\ val128 (u_not a) = 2 ^ 128 - 1 - val128 a.
Proof.
  intros a [A1 A2]. split; [split; cbn; auto with word|].
  rewrite !val128_eq. unfold u_not. cbn [lo128 hi128]. rewrite !wnot_val by auto. unfold is_word, W64 in *. lia.
Qed.
Lemma u_or_m : forall a b, ok128 a -> ok128 b -> ok128 (u_or a b) /\ val128 (u_or a b) = N.lor (val128 a) (val128 b).
Proof.
  intros a b A B. assert (O : ok128 (u_or a b)) by (destruct A, B; split; cbn; auto with word).
  split; auto. apply tb_ext. intros k. rewrite tb_lor, !tb128 by auto. cbn. destruct (_ <? _)%nat; apply tb_lor.
Qed.
Lemma u_or64_m : forall a x, ok128 a -> is_word x -> ok128 (u_or64 a x) /\ val128 (u_or64 a x) = N.lor (val128 a) x.
Proof.
  intros a b A B. assert (O : ok128 (u_or64 a b)) by (destruct A; split; cbn; auto with word).
  split; auto. apply tb_ext. intros k. rewrite tb_lor, !tb128 by auto. cbn [u_or64 lo128 hi128].
  destruct (Nat.ltb_spec k 64); [apply tb_lor|rewrite (tb_word_high b k) by auto; symmetry; apply orb_false_r].
Qed.
Lemma u_and_m : forall a b, ok128 a -> ok128 b -> ok128 (u_and a b) /\ val128 (u_and a b) = N.land (val128 a) (val128 b).
Proof.
  intros a b A B. assert (O : ok128 (u_and a b)) by (destruct A, B; split; cbn; auto with word).
  split; auto. apply tb_ext. intros k. rewrite tb_land, !tb128 by auto. cbn. destruct (_ <? _)%nat; apply tb_land.
Qed.

Lemma tb_mulmod : forall v x n j, tb ((v * 2 ^ N.of_nat x) mod 2 ^ N.of_nat n) j = ((j <? n) && ((x <=? j) && tb v (j - x)))%nat.
Proof. intros. rewrite tb_mod_pow2, <- N.shiftl_mul_pow2, tb_shiftl. reflexivity. Qed.
Lemma tb_divp : forall v x j, tb (v / 2 ^ N.of_nat x) j = tb v (j + x)%nat.
Proof. intros. rewrite <- shr_div. apply tb_shr. Qed.

Ltac highs := repeat match goal with
  | H : is_word ?x |- context [tb ?x ?k] => rewrite (tb_word_high x k H) by lia
  end.

Lemma u_shl_m : forall a x, ok128 a -> (x <= 128)%nat ->
  exists r, u_shl a x = Some r /\ ok128 r /\ val128 r = (val128 a * 2 ^ N.of_nat x) mod 2 ^ 128.
Proof.
  intros a x A Hx. unfold u_shl. change (2 ^ 128) with (2 ^ N.of_nat 128). destruct (Nat.ltb_spec x 64).
  - unfold shl_c, shr_c. replace (x <? 64)%nat with true by (symmetry; apply Nat.ltb_lt; auto).
    replace (63 - x <? 64)%nat with true by (symmetry; apply Nat.ltb_lt; lia). change (1 <? 64)%nat with true. cbn [obind].
    eexists. split; [reflexivity|]. match goal with |- ok128 ?r /\ _ => assert (O : ok128 r) end.
    { destruct A; split; cbn; auto with word. }
    split; auto. apply tb_ext. intros k. rewrite tb_mulmod, !tb128 by auto. cbn [lo128 hi128]. destruct A. tbs.
    repeat (cmp_case; cbn [andb orb]); highs; rewrite ?orb_false_r, ?andb_false_r; cbn [orb]; auto; apply f_equal; lia.
  - destruct (Nat.eqb_spec x 128).
    + subst x. eexists. split; [reflexivity|]. split; [split; reflexivity|].
      symmetry. apply N.mod_mul. discriminate.
    + unfold shl_c. replace (x - 64 <? 64)%nat with true by (symmetry; apply Nat.ltb_lt; lia). cbn [obind].
      eexists. split; [reflexivity|]. match goal with |- ok128 ?r /\ _ => assert (O : ok128 r) end.
      { destruct A; split; cbn; auto with word. }
      split; auto. apply tb_ext. intros k. rewrite tb_mulmod, !tb128 by auto. cbn [lo128 hi128]. destruct A. tbs.
      repeat (cmp_case; cbn [andb orb]); highs; auto; apply f_equal; lia.
Qed.
Lemma u_shr_m : forall a x, ok128 a -> (x <= 128)%nat ->
  exists r, u_shr a x = Some r /\ ok128 r /\ val128 r = val128 a / 2 ^ N.of_nat x.
Proof.
  intros a x A Hx. unfold u_shr. destruct (Nat.ltb_spec x 64).
  - unfold shl_c, shr_c. replace (x <? 64)%nat with true by (symmetry; apply Nat.ltb_lt; auto).
    replace (63 - x <? 64)%nat with true by (symmetry; apply Nat.ltb_lt; lia). change (1 <? 64)%nat with true. cbn [obind].
    eexists. split; [reflexivity|]. match goal with |- ok128 ?r /\ _ => assert (O : ok128 r) end.
    { destruct A; split; cbn; auto with word. }
    split; auto. apply tb_ext. intros k. rewrite tb_divp, !tb128 by auto. cbn [lo128 hi128]. destruct A. tbs.
    repeat (cmp_case; cbn [andb orb]); highs; rewrite ?orb_false_r, ?andb_false_r; cbn [orb]; auto; apply f_equal; lia.
  - destruct (Nat.eqb_spec x 128).
    + subst x. eexists. split; [reflexivity|]. split; [split; reflexivity|].
      symmetry. apply N.div_small. apply val128_lt; auto.
    + unfold shr_c. replace (x - 64 <? 64)%nat with true by (symmetry; apply Nat.ltb_lt; lia). cbn [obind].
      eexists. split; [reflexivity|]. match goal with |- ok128 ?r /\ _ => assert (O : ok128 r) end.
      { destruct A; split; cbn; auto with word. }
      split; auto. apply tb_ext. intros k. rewrite tb_divp, !tb128 by auto. cbn [lo128 hi128]. destruct A. tbs.
      repeat (cmp_case; cbn [andb orb]); highs; auto; apply f_equal; lia.
Qed.

(** comparisons *)
Lemma val_inj : forall l h l' h' : N, is_word l -> is_word l' -> l + W64 * h = l' + W64 * h' -> l = l' /\ h = h'.
Proof. unfold is_word. intros. assert (h = h') by (unfold W64 in *; lia). subst. unfold W64 in *. lia. Qed.
Ltac cmps := repeat match goal with
  | |- context [N.eqb ?a ?b] => destruct (N.eqb_spec a b)
  | |- context [N.ltb ?a ?b] => destruct (N.ltb_spec a b)
  | |- context [N.leb ?a ?b] => destruct (N.leb_spec a b)
  end; cbn [negb andb orb]; auto; exfalso.
Lemma u_cmp_m : forall a b, ok128 a -> ok128 b ->
  u_eqb a b = (val128 a =? val128 b) /\ u_geb a b = (val128 b <=? val128 a) /\ u_leb a b = (val128 a <=? val128 b) /\
  u_gtb a b = (val128 b <? val128 a) /\ u_ltb a b = (val128 a <? val128 b).
Proof.
  intros [l h] [l' h'] [A1 A2] [B1 B2]. rewrite !val128_eq. unfold u_eqb, u_geb, u_leb, u_gtb, u_ltb. cbn [lo128 hi128] in *.
  unfold is_word, W64 in *. repeat split; cmps; lia.
Qed.
Lemma u_cmp64_m : forall a x, ok128 a -> is_word x -> u_eqb64 a x = (val128 a =? x) /\ u_gtb64 a x = (x <? val128 a).
Proof.
  intros [l h] x [A1 A2] B. rewrite !val128_eq. unfold u_eqb64, u_gtb64. cbn [lo128 hi128] in *.
  unfold is_word, W64 in *. repeat split; cmps; lia.
Qed.

(** popcount *)
Lemma cnt_le : forall x, is_word x -> cnt x <= 64.
Proof. intros. rewrite cnt_correct by auto. rewrite popcount_rank. pose proof (rank_of_le (tb x) 64). lia. Qed.
Lemma rank_split64 : forall f x i, (forall j, (j < 64)%nat -> f (i + j)%nat = tb x j) -> rank_of f (i + 64) = (rank_of f i + popcount x)%nat.
Proof. intros. rewrite rank_of_add, popcount_rank. f_equal. apply rank_of_ext. auto. Qed.
Lemma rank128 : forall a, ok128 a -> rank_of (tb (val128 a)) 64 = popcount (lo128 a) /\ rank_of (tb (val128 a)) 128 = (popcount (lo128 a) + popcount (hi128 a))%nat.
Proof.
  intros a A.
  assert (E : rank_of (tb (val128 a)) 64 = popcount (lo128 a)).
  { rewrite (rank_split64 _ (lo128 a) 0). { rewrite rank_of_0. reflexivity. }
    intros j Hj. rewrite tb128 by auto. cbn [Nat.add]. destruct (Nat.ltb_spec j 64); auto; lia. }
  split; auto. change 128%nat with (64 + 64)%nat. rewrite (rank_split64 _ (hi128 a) 64), E; auto.
  intros j Hj. rewrite tb128 by auto. destruct (Nat.ltb_spec (64 + j) 64); [lia|]. apply f_equal. lia.
Qed.
Lemma u_popcount_m : forall a, ok128 a -> u_popcount a = N.of_nat (rank_of (tb (val128 a)) 128).
Proof.
  intros a A. destruct (rank128 a A) as [_ ->]. destruct A as [A B]. unfold u_popcount.
  pose proof (cnt_le _ A). pose proof (cnt_le _ B). change (2 ^ 8) with 256.
  rewrite !N.mod_small by (rewrite ?N.mod_small; lia). rewrite !cnt_correct by auto. lia.
Qed.
Lemma sel_part : forall f x i off, is_word x -> (forall j, (j < 64)%nat -> f (off + j)%nat = tb x j) -> (1 <= i <= popcount x)%nat ->
  exists p, sel x (N.of_nat i) = Some (N.of_nat p) /\ is_select f (rank_of f off + i) (off + p).
Proof.
  intros f x i off Hx Hf Hi. destruct (sel_correct x i Hx Hi) as (p & E & S). exists p. split; auto.
  apply is_select_shift. assert (p < 64)%nat. { eapply is_select_lt. exact S. rewrite <- popcount_rank. lia. }
  eapply is_select_ext; [|exact S]. intros. symmetry. apply Hf. lia.
Qed.
Lemma u_select_m : forall a i, ok128 a -> (1 <= i <= rank_of (tb (val128 a)) 128)%nat ->
  exists p, u_select a (N.of_nat i) = Some (N.of_nat p) /\ is_select (tb (val128 a)) i p.
Proof.
  intros a i A Hi. destruct (rank128 a A) as [E1 E2]. unfold u_select. rewrite E2 in Hi. destruct A as [A B].
  rewrite cnt_correct by auto. destruct (N.leb_spec (N.of_nat i) (N.of_nat (popcount (lo128 a)))).
  - destruct (sel_part (tb (val128 a)) (lo128 a) i 0) as (p & P & S); auto; try lia.
    { intros j Hj. rewrite tb128 by (split; auto). cbn [Nat.add]. destruct (Nat.ltb_spec j 64); auto; lia. }
    exists p. split; auto.
  - replace (N.of_nat i - N.of_nat (popcount (lo128 a))) with (N.of_nat (i - popcount (lo128 a))) by lia.
    destruct (sel_part (tb (val128 a)) (hi128 a) (i - popcount (lo128 a)) 64) as (p & P & S); auto; try lia.
    { intros j Hj. rewrite tb128 by (split; auto). destruct (Nat.ltb_spec (64 + j) 64); [lia|]. apply f_equal. lia. }
    rewrite P. exists (64 + p)%nat. split; [cbn [obind]; apply f_equal; lia|]. rewrite E1 in S.
    replace (popcount (lo128 a) + (i - popcount (lo128 a)))%nat with i in S by lia. auto.
Qed.
(** hi *)
Lemma msb_log2 : forall x p, is_msb x p -> N.log2 x = N.of_nat p.
Proof.
  intros x p [A B]. assert (x <> 0). { intros ->. rewrite tb_0 in A. discriminate. }
  apply N.log2_unique; [lia|]. split.
  - destruct (N.lt_ge_cases x (2 ^ N.of_nat p)); auto. rewrite (tb_high x p p) in A by auto. discriminate.
  - replace (N.succ (N.of_nat p)) with (N.of_nat (S p)) by lia. apply tb_lt_pow2. intros. apply B. lia.
Qed.
Lemma hi_part : forall x v off, is_word x -> x <> 0 -> (forall j, (j < 64)%nat -> tb v (off + j) = tb x j) ->
  (forall j, (off + 64 <= j)%nat -> tb v j = false) -> N.log2 v = hi x + N.of_nat off.
Proof.
  intros x v off Hx H0 H1 H2. pose proof (hi_msb x Hx H0) as [A B]. pose proof (hi_lt64 x Hx).
  replace (hi x + N.of_nat off) with (N.of_nat (off + N.to_nat (hi x))) by lia. apply msb_log2. split.
  - rewrite H1 by lia. auto.
  - intros k Hk. destruct (Nat.lt_ge_cases k (off + 64)); [|auto]. replace k with (off + (k - off))%nat by lia.
    rewrite H1 by lia. apply B. lia.
Qed.
Lemma u_hi_m : forall a, ok128 a -> u_hi a = N.log2 (val128 a).
Proof.
  intros a A. unfold u_hi. destruct (N.eqb_spec (hi128 a) 0).
  - rewrite hi_correct by apply A. f_equal. rewrite val128_eq. lia.
  - symmetry. apply (hi_part (hi128 a) _ 64); auto. { apply A. }
    + intros. rewrite tb128 by auto. destruct (Nat.ltb_spec (64 + j) 64); [lia|]. apply f_equal. lia.
    + intros. rewrite tb128 by auto. destruct (Nat.ltb_spec j 64); [lia|]. apply tb_word_high; [apply A|lia].
Qed.
(** printing *)
Lemma hexdigits_nth : forall n w j, is_word w -> (j < n)%nat -> (n <= 16)%nat -> nth j (hexdigits n w) 0 = (w / 2 ^ N.of_nat (60 - 4 * j)) mod 16.
Proof.
  assert (D : forall w k, (k <= 60)%nat -> is_word w -> forall b, tb ((w / 2 ^ N.of_nat k) mod 16) b = ((b <? 4)%nat && tb w (b + k))).
  { intros w k Hk Hw b. change 16 with (2 ^ N.of_nat 4). rewrite tb_mod_pow2, tb_divp. reflexivity. }
  induction n; intros w j Hw Hj Hn; [lia|]. destruct j; cbn [hexdigits nth].
  - apply tb_ext. intros b. rewrite D by (auto; lia). change 0xF with (lo_set 4). tbs. rewrite andb_comm. reflexivity.
  - rewrite IHn by (auto with word; lia). apply tb_ext. intros b. rewrite !D by (auto with word; lia). tbs.
    destruct (Nat.ltb_spec b 4); auto. cbn [andb]. rewrite (proj2 (Nat.ltb_lt _ _)) by lia. rewrite (proj2 (Nat.leb_le _ _)) by lia.
    cbn [andb]. apply f_equal. lia.
Qed.
Lemma hexdigits_length : forall n w, length (hexdigits n w) = n.
Proof. induction n; intros; cbn; auto. Qed.
Lemma hex_nth : forall n v j, (j < n)%nat -> nth j (hex n v) 0 = (v / 16 ^ N.of_nat (n - 1 - j)) mod 16.
Proof.
  intros. unfold hex. rewrite nth_indep with (d' := (v / 16 ^ N.of_nat (n - 1 - 0)) mod 16) by (rewrite map_length, seq_length; auto).
  rewrite (map_nth (fun j => (v / 16 ^ N.of_nat (n - 1 - j)) mod 16)), seq_nth by auto. reflexivity.
Qed.
Lemma tb_hex : forall v k b, tb ((v / 16 ^ N.of_nat k) mod 16) b = ((b <? 4)%nat && tb v (b + 4 * k)).
Proof.
  intros. change 16 with (2 ^ N.of_nat 4). rewrite <- N.pow_mul_r, tb_mod_pow2. f_equal.
  replace (N.of_nat 4 * N.of_nat k) with (N.of_nat (4 * k)) by lia. apply tb_divp.
Qed.
Lemma hex_words : forall n l v, length l = n -> (forall w, In w l -> is_word w) -> (forall i j, (i < n)%nat -> (j < 64)%nat -> tb v (64 * i + j) = tb (nth (n - 1 - i) l 0) j) ->
  concat (map (hexdigits 16) l) = hex (16 * n) v.
Proof.
  induction n; intros l v Hl Hw Hv.
  - destruct l; [reflexivity|discriminate].
  - destruct l as [|w l]; [discriminate|]. cbn [map concat].
    rewrite (IHn l v); [| cbn in Hl; lia | intros; apply Hw; right; auto |].
    2:{ intros i j Hi Hj. rewrite Hv by lia. replace (S n - 1 - i)%nat with (S (n - 1 - i)) by lia. reflexivity. }
    apply (nth_ext _ _ 0 0).
    { rewrite app_length, hexdigits_length. unfold hex. rewrite !map_length, !seq_length. lia. }
    rewrite app_length, hexdigits_length. unfold hex at 1. rewrite map_length, seq_length. intros j Hj.
    destruct (Nat.lt_ge_cases j 16).
    + rewrite app_nth1 by (rewrite hexdigits_length; auto). rewrite hexdigits_nth by (auto; try lia; apply Hw; left; auto).
      rewrite hex_nth by lia. apply tb_ext. intros b. rewrite tb_hex. change 16 with (2 ^ N.of_nat 4). rewrite tb_mod_pow2, tb_divp.
      destruct (Nat.ltb_spec b 4); auto. cbn [andb].
      specialize (Hv n (b + (60 - 4 * j))%nat). rewrite <- (Hv ltac:(lia) ltac:(lia)) || idtac.
      replace (b + 4 * (16 * S n - 1 - j))%nat with (64 * n + (b + (60 - 4 * j)))%nat by lia. rewrite Hv by lia.
      replace (S n - 1 - n)%nat with 0%nat by lia. reflexivity.
    + rewrite app_nth2 by (rewrite hexdigits_length; auto). rewrite hexdigits_length, !hex_nth by lia. do 4 f_equal. lia.
Qed.
Lemma u_print_m : forall a, ok128 a -> u_print a = Some (hex 32 (val128 a)).
Proof.
  intros a A. unfold u_print. destruct (u_shr_m a 64 A) as (r & -> & R & V); [lia|]. cbn [obind]. f_equal.
  assert (E : lo128 r = hi128 a).
  { apply tb_ext. intros k. destruct (Nat.lt_ge_cases k 64).
    - assert (T : tb (val128 r) k = tb (val128 a) (k + 64)) by (rewrite V; apply tb_divp). rewrite !tb128 in T by auto.
      rewrite (proj2 (Nat.ltb_lt _ _)) in T by lia. rewrite (proj2 (Nat.ltb_ge _ _)) in T by lia. rewrite T. apply f_equal. lia.
    - rewrite !tb_word_high; auto; [apply A|apply R]. }
  rewrite E. change 32%nat with (16 * 2)%nat. rewrite <- (hex_words 2 [hi128 a; lo128 a]).
  - cbn [map concat]. rewrite app_nil_r. reflexivity.
  - reflexivity.
  - intros w [<-|[<-|[]]]; apply A.
  - intros i j Hi Hj. rewrite tb128 by auto. destruct i as [|[|]]; [| |lia]; cbn [Nat.sub nth].
    + rewrite Nat.mul_0_r. cbn [Nat.add]. rewrite (proj2 (Nat.ltb_lt _ _)) by lia. auto.
    + rewrite (proj2 (Nat.ltb_ge _ _)) by lia. apply f_equal. lia.
Qed.
