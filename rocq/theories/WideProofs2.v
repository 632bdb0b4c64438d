(** * Proofs about uint256_t *)
From Coq Require Import NArith List Bool Arith Lia.
From Verif Require Import Base Bits SpecBits RankSelect BitsProofs BitsProofs2 BitsProofs3 Wide SpecWide WideProofs.
Import ListNotations.
Local Open Scope N_scope.

Lemma to64_word : forall x, is_word (to64 x). Proof. intros. apply is_word_mod. Qed.
Lemma shr64_some : forall ti v, shr128 ti v 64 = Some (v / W64).
Proof. intros [] v; reflexivity. Qed.
Lemma shl64_some : forall ti v, v < W64 -> shl128 ti v 64 = Some (v * W64).
Proof. intros ti v H. unfold shl128. replace (sh_ok ti 64) with true by (destruct ti; reflexivity). f_equal. apply N.mod_small. unfold W64, M128 in *. simpl. lia. Qed.
Lemma add128_small : forall a b, a + b < M128 -> add128 a b = a + b.
Proof. intros. apply N.mod_small. auto. Qed.

Lemma x_add_m : forall ti a b, ok256 a -> ok256 b ->
  exists r, x_add ti a b = Some r /\ ok256 r /\ val256 r = (val256 a + val256 b) mod 2 ^ 256.
Proof.
  intros ti [l m h] [l' m' h'] (A1 & A2 & A3) (B1 & B2 & B3). unfold x_add, ok256 in *. cbn [lo256 mid256 hi256] in *.
  rewrite shr64_some. cbn [obind]. rewrite shr64_some. cbn [obind]. eexists. split; [reflexivity|]. cbn [lo256 mid256 hi256].
  split. { repeat split; try apply to64_word. apply N.mod_lt. discriminate. }
  rewrite !val256_eq. cbn [lo256 mid256 hi256]. unfold is_word, to64 in *.
  assert (E1 : add128 l l' = l + l') by (apply add128_small; unfold W64, M128 in *; simpl; lia). rewrite E1.
  pose proof (N.div_mod' (l + l') W64) as D1. pose proof (N.mod_lt (l + l') W64) as R1.
  assert (C : (l + l') / W64 <= 1). { assert ((l + l') / W64 < 2); [apply N.div_lt_upper_bound; [discriminate|lia]|lia]. }
  revert D1 R1 C. generalize ((l + l') mod W64) ((l + l') / W64). intros r q D1 R1 C. specialize (R1 ltac:(discriminate)).
  assert (E2 : add128 m m' = m + m') by (apply add128_small; unfold W64, M128 in *; simpl; lia). rewrite E2.
  assert (E3 : add128 (m + m') q = m + m' + q) by (apply add128_small; unfold W64, M128 in *; simpl; lia). rewrite E3.
  pose proof (N.div_mod' (m + m' + q) W64) as D2. pose proof (N.mod_lt (m + m' + q) W64) as R2.
  revert D2 R2. generalize ((m + m' + q) mod W64) ((m + m' + q) / W64). intros t s D2 R2. specialize (R2 ltac:(discriminate)).
  unfold add128. rewrite N.add_mod_idemp_l by discriminate.
  change (2 ^ 256) with (M128 * M128). apply N.mod_unique with ((h + h' + s) / M128).
  - pose proof (N.mod_lt (h + h' + s) M128 ltac:(discriminate)). revert H. generalize ((h + h' + s) mod M128). clear - R1 R2.
    intros x H. unfold M128, W64 in *. simpl in *. lia.
  - pose proof (N.div_mod' (h + h' + s) M128). revert H. generalize ((h + h' + s) mod M128) ((h + h' + s) / M128). intros x y H.
    clear - H D1 D2. unfold M128, W64 in *. simpl in *. lia.
Qed.
Lemma not128_val : forall x, x < M128 -> not128 x = M128 - 1 - x.
Proof.
  intros. unfold not128. change (N.lxor x (N.ones 128)) with (N.lnot x 128). change (M128 - 1) with (N.ones 128). apply N.lnot_sub_low.
  destruct (N.eq_dec x 0); [subst; reflexivity|apply N.log2_lt_pow2; [lia|exact H]].
Qed.
Lemma x_sub_m : forall ti a b, ok256 a -> ok256 b ->
  exists r, x_sub ti a b = Some r /\ ok256 r /\ val256 r = (val256 a + (2 ^ 256 - val256 b)) mod 2 ^ 256.
Proof.
  intros ti [l m h] [l' m' h'] (A1 & A2 & A3) (B1 & B2 & B3). unfold x_sub, ok256 in *. cbn [lo256 mid256 hi256] in *.
  rewrite shr64_some. cbn [obind]. rewrite shr64_some. cbn [obind]. eexists. split; [reflexivity|]. cbn [lo256 mid256 hi256].
  split. { repeat split; try apply to64_word. apply N.mod_lt. discriminate. }
  rewrite !val256_eq. cbn [lo256 mid256 hi256]. rewrite !wnot_val, not128_val by auto. unfold is_word, to64 in *.
  assert (E1 : add128 l (W64 - 1 - l') = l + (W64 - 1 - l')) by (apply add128_small; unfold W64, M128 in *; simpl; lia). rewrite E1.
  assert (E0 : add128 (l + (W64 - 1 - l')) 1 = l + (W64 - l')) by (rewrite add128_small; unfold W64, M128 in *; simpl; lia). rewrite E0.
  pose proof (N.div_mod' (l + (W64 - l')) W64) as D1. pose proof (N.mod_lt (l + (W64 - l')) W64) as R1.
  assert (C : (l + (W64 - l')) / W64 <= 1). { assert ((l + (W64 - l')) / W64 < 2); [apply N.div_lt_upper_bound; [discriminate|lia]|lia]. }
  revert D1 R1 C. generalize ((l + (W64 - l')) mod W64) ((l + (W64 - l')) / W64). intros r q D1 R1 C. specialize (R1 ltac:(discriminate)).
  assert (E2 : add128 m (W64 - 1 - m') = m + (W64 - 1 - m')) by (apply add128_small; unfold W64, M128 in *; simpl; lia). rewrite E2.
  assert (E3 : add128 (m + (W64 - 1 - m')) q = m + (W64 - 1 - m') + q) by (apply add128_small; unfold W64, M128 in *; simpl; lia). rewrite E3.
  pose proof (N.div_mod' (m + (W64 - 1 - m') + q) W64) as D2. pose proof (N.mod_lt (m + (W64 - 1 - m') + q) W64) as R2.
  revert D2 R2. generalize ((m + (W64 - 1 - m') + q) mod W64) ((m + (W64 - 1 - m') + q) / W64). intros t s D2 R2. specialize (R2 ltac:(discriminate)).
  unfold add128. rewrite N.add_mod_idemp_l by discriminate.
  change (2 ^ 256) with (M128 * M128). apply N.mod_unique with ((h + (M128 - 1 - h') + s) / M128).
  - pose proof (N.mod_lt (h + (M128 - 1 - h') + s) M128 ltac:(discriminate)). revert H. generalize ((h + (M128 - 1 - h') + s) mod M128). clear - R1 R2.
    intros x H. unfold M128, W64 in *. simpl in *. lia.
  - pose proof (N.div_mod' (h + (M128 - 1 - h') + s) M128). revert H. generalize ((h + (M128 - 1 - h') + s) mod M128) ((h + (M128 - 1 - h') + s) / M128). intros x y H.
    clear - H D1 D2 A1 A2 A3 B1 B2 B3. unfold M128, W64 in *. simpl in *. lia.
Qed.

Lemma lt128_lor : forall a b, a < M128 -> b < M128 -> N.lor a b < M128.
Proof. intros. apply (tb_lt_pow2 _ 128). intros. rewrite tb_lor, (tb_high a 128 k), (tb_high b 128 k); auto. Qed.
Lemma lt128_land : forall a b, a < M128 -> N.land a b < M128.
Proof. intros. apply (tb_lt_pow2 _ 128). intros. rewrite tb_land, (tb_high a 128 k); auto. Qed.
Lemma x_or_m : forall a b, ok256 a -> ok256 b -> ok256 (x_or a b) /\ val256 (x_or a b) = N.lor (val256 a) (val256 b).
Proof.
  intros a b A B. assert (O : ok256 (x_or a b)). { destruct A as (?&?&?), B as (?&?&?). repeat split; cbn; auto with word. apply lt128_lor; auto. }
  split; auto. apply tb_ext. intros k. rewrite tb_lor, !tb256 by auto. cbn [x_or lo256 mid256 hi256].
  destruct (k <? 64)%nat; [apply tb_lor|]. destruct (k <? 128)%nat; apply tb_lor.
Qed.
Lemma x_and_m : forall a b, ok256 a -> ok256 b -> ok256 (x_and a b) /\ val256 (x_and a b) = N.land (val256 a) (val256 b).
Proof.
  intros a b A B. assert (O : ok256 (x_and a b)). { destruct A as (?&?&?), B as (?&?&?). repeat split; cbn; auto with word. apply lt128_land; auto. }
  split; auto. apply tb_ext. intros k. rewrite tb_land, !tb256 by auto. cbn [x_and lo256 mid256 hi256].
  destruct (k <? 64)%nat; [apply tb_land|]. destruct (k <? 128)%nat; apply tb_land.
Qed.
Lemma x_cmp_m : forall a b, ok256 a -> ok256 b ->
  x_eqb a b = (val256 a =? val256 b) /\ x_geb a b = (val256 b <=? val256 a) /\ x_leb a b = (val256 a <=? val256 b) /\
  x_gtb a b = (val256 b <? val256 a) /\ x_ltb a b = (val256 a <? val256 b).
Proof.
  intros [l m h] [l' m' h'] (A1 & A2 & A3) (B1 & B2 & B3). rewrite !val256_eq.
  unfold x_eqb, x_geb, x_leb, x_gtb, x_ltb, x_cmp. cbn [lo256 mid256 hi256] in *. unfold M128.
  unfold is_word, W64 in *. repeat split; cmps; lia.
Qed.
Lemma x_gtb64_m : forall a x, ok256 a -> is_word x -> x_gtb64 a x = (x <? val256 a).
Proof.
  intros [l m h] x (A1 & A2 & A3) B. rewrite !val256_eq. unfold x_gtb64. cbn [lo256 mid256 hi256] in *. unfold M128.
  unfold is_word, W64 in *. cmps; lia.
Qed.

(** bits of the 128-bit operations *)
Lemma tb_low : forall m l j, is_word m -> is_word l -> tb (N.lor (m * W64) l) j = if (j <? 64)%nat then tb l j else tb m (j - 64).
Proof.
  intros. rewrite tb_lor. change W64 with (2 ^ N.of_nat 64). rewrite <- N.shiftl_mul_pow2, tb_shiftl.
  destruct (Nat.ltb_spec j 64).
  - rewrite (proj2 (Nat.leb_gt _ _)) by lia. reflexivity.
  - rewrite (proj2 (Nat.leb_le _ _)) by lia. rewrite (tb_word_high l j) by auto. apply orb_false_r.
Qed.
Lemma tb_to64 : forall x j, tb (to64 x) j = ((j <? 64)%nat && tb x j). Proof. intros. apply tb_modW. Qed.
Lemma tb_divW : forall x j, tb (x / W64) j = tb x (j + 64)%nat. Proof. intros. change W64 with (2 ^ N.of_nat 64). apply tb_divp. Qed.
Lemma tb_M : forall v x j, tb ((v * 2 ^ N.of_nat x) mod M128) j = ((j <? 128) && ((x <=? j) && tb v (j - x)))%nat.
Proof. intros. apply (tb_mulmod v x 128). Qed.
Lemma low_lt : forall m l, is_word m -> is_word l -> N.lor (m * W64) l < M128.
Proof.
  intros. apply (tb_lt_pow2 _ 128). intros. rewrite tb_low by auto. rewrite (proj2 (Nat.ltb_ge _ _)) by lia.
  apply tb_word_high; auto. lia.
Qed.
Lemma div_lt128 : forall v k, v < M128 -> v / 2 ^ N.of_nat k < M128.
Proof. intros. eapply N.le_lt_trans; [|exact H]. apply N.div_le_upper_bound. { apply N.pow_nonzero. discriminate. } pose proof (N.pow_nonzero 2 (N.of_nat k)). nia. Qed.
Ltac highs128 := repeat match goal with
  | H : is_word ?x |- context [tb ?x ?k] => rewrite (tb_word_high x k H) by lia
  | H : ?x < 2 ^ 128 |- context [tb ?x ?k] => rewrite (tb_high x 128 k H) by lia
  end.
Ltac bitcases := repeat (cmp_case; cbn [andb orb]); highs128; rewrite ?orb_false_r, ?andb_false_r; cbn [orb]; auto; apply f_equal; lia.

(** operator<<: by 0 only with the portable 128-bit class *)
Lemma x_shl_m : forall ti a x, ok256 a -> (x < 256)%nat -> (ti = true -> 1 <= x)%nat ->
  exists r, x_shl ti a x = Some r /\ ok256 r /\ val256 r = (val256 a * 2 ^ N.of_nat x) mod 2 ^ 256.
Proof.
  intros ti a x A Hx Hti. pose proof A as (A1 & A2 & A3). unfold x_shl. rewrite shl64_some by exact A2. cbn [obind].
  change (2 ^ 256) with (2 ^ N.of_nat 256). destruct (Nat.ltb_spec x 128).
  - unfold shl128 at 1. replace (sh_ok ti x) with true by (destruct ti; symmetry; [apply Nat.ltb_lt|apply Nat.leb_le]; lia). cbn [obind].
    unfold shr128 at 1. replace (sh_ok ti (128 - x)) with true by (destruct ti; symmetry; [apply Nat.ltb_lt|apply Nat.leb_le]; lia). cbn [obind].
    unfold shl128 at 1. replace (sh_ok ti x) with true by (destruct ti; symmetry; [apply Nat.ltb_lt|apply Nat.leb_le]; lia). cbn [obind].
    rewrite shr64_some. cbn [obind]. eexists. split; [reflexivity|]. match goal with |- ok256 ?r /\ _ => assert (O : ok256 r) end.
    { repeat split; cbn [lo256 mid256 hi256]; try apply to64_word. apply lt128_lor. apply N.mod_lt; discriminate. apply div_lt128, low_lt; auto. }
    split; auto. apply tb_ext. intros k. rewrite tb_mulmod, !tb256 by auto. cbn [lo256 mid256 hi256].
    rewrite tb_lor, !tb_to64, tb_divW, !tb_M, tb_divp, !tb_low by auto. bitcases.
  - unfold shl128 at 1. replace (sh_ok ti (x - 128)) with true by (destruct ti; symmetry; [apply Nat.ltb_lt|apply Nat.leb_le]; lia). cbn [obind].
    eexists. split; [reflexivity|]. match goal with |- ok256 ?r /\ _ => assert (O : ok256 r) end.
    { repeat split; cbn [lo256 mid256 hi256]. apply N.mod_lt; discriminate. }
    split; auto. apply tb_ext. intros k. rewrite tb_mulmod, !tb256 by auto. cbn [lo256 mid256 hi256].
    rewrite !tb_M, !tb_low, !tb_0 by auto. bitcases.
Qed.
Lemma x_shr_m : forall ti a x, ok256 a -> (x < 256)%nat ->
  exists r, x_shr ti a x = Some r /\ ok256 r /\ val256 r = val256 a / 2 ^ N.of_nat x.
Proof.
  intros ti a x A Hx. pose proof A as (A1 & A2 & A3). unfold x_shr. destruct (Nat.ltb_spec x 128).
  - rewrite shl64_some by exact A2. cbn [obind].
    unfold shr128 at 1. replace (sh_ok ti x) with true by (destruct ti; symmetry; [apply Nat.ltb_lt|apply Nat.leb_le]; lia). cbn [obind].
    unfold shl128 at 1. replace (sh_ok ti (127 - x)) with true by (destruct ti; symmetry; [apply Nat.ltb_lt|apply Nat.leb_le]; lia). cbn [obind].
    unfold shl128 at 1. replace (sh_ok ti 1) with true by (destruct ti; reflexivity). cbn [obind].
    rewrite shr64_some. cbn [obind]. unfold shr128 at 1. replace (sh_ok ti x) with true by (destruct ti; symmetry; [apply Nat.ltb_lt|apply Nat.leb_le]; lia). cbn [obind].
    eexists. split; [reflexivity|]. match goal with |- ok256 ?r /\ _ => assert (O : ok256 r) end.
    { repeat split; cbn [lo256 mid256 hi256]; try apply to64_word. apply div_lt128; auto. }
    split; auto. apply tb_ext. intros k. rewrite tb_divp, !tb256 by auto. cbn [lo256 mid256 hi256].
    rewrite !tb_to64, tb_divW, !tb_lor, !tb_M, !tb_divp, !tb_low by auto. bitcases.
  - unfold shr128 at 1. replace (sh_ok ti (x - 128)) with true by (destruct ti; symmetry; [apply Nat.ltb_lt|apply Nat.leb_le]; lia). cbn [obind].
    rewrite shr64_some. cbn [obind].
    eexists. split; [reflexivity|]. match goal with |- ok256 ?r /\ _ => assert (O : ok256 r) end.
    { repeat split; cbn [lo256 mid256 hi256]; try apply to64_word. }
    split; auto. apply tb_ext. intros k. rewrite tb_divp, !tb256 by auto. cbn [lo256 mid256 hi256].
    rewrite !tb_to64, tb_divW, !tb_divp, !tb_0 by auto. bitcases.
Qed.

(** the four words of a 256-bit number *)
Definition wd (a : u256) (i : nat) : N :=
  match i with O => lo256 a | 1%nat => mid256 a | 2%nat => to64 (hi256 a) | _ => to64 (hi256 a / W64) end.
Lemma wd_word : forall a i, ok256 a -> is_word (wd a i).
Proof. intros a i (A & B & C). destruct i as [|[|[|]]]; auto; apply to64_word. Qed.
Lemma wd_tb : forall a i j, ok256 a -> (i < 4)%nat -> (j < 64)%nat -> tb (val256 a) (64 * i + j) = tb (wd a i) j.
Proof.
  intros a i j A Hi Hj. rewrite tb256 by auto.
  destruct i as [|[|[|[|]]]]; [| | | |lia]; cbn [wd]; rewrite ?tb_to64, ?tb_divW; bitcases.
Qed.
Lemma rank_wd : forall a i, ok256 a -> (i < 4)%nat ->
  rank_of (tb (val256 a)) (64 * i + 64) = (rank_of (tb (val256 a)) (64 * i) + popcount (wd a i))%nat.
Proof. intros. apply rank_split64. intros. apply wd_tb; auto. Qed.
Lemma rank256 : forall a, ok256 a -> let f := tb (val256 a) in
  rank_of f 64 = popcount (wd a 0) /\ rank_of f 128 = (rank_of f 64 + popcount (wd a 1))%nat /\
  rank_of f 192 = (rank_of f 128 + popcount (wd a 2))%nat /\ rank_of f 256 = (rank_of f 192 + popcount (wd a 3))%nat.
Proof.
  intros a A f.
  assert (E : forall n m i, (i < 4)%nat -> n = (64 * i)%nat -> m = (n + 64)%nat -> rank_of f m = (rank_of f n + popcount (wd a i))%nat).
  { intros n m i Hi -> ->. apply rank_wd; auto. }
  split; [rewrite (E 0%nat 64%nat 0%nat), rank_of_0; auto; lia|].
  split; [apply E; lia|]. split; apply E; lia.
Qed.
Lemma x_popcount_m : forall ti a, ok256 a -> x_popcount ti a = Some (N.of_nat (rank_of (tb (val256 a)) 256)).
Proof.
  intros ti a A. destruct (rank256 a A) as (E0 & E1 & E2 & E3). rewrite E3, E2, E1, E0.
  unfold x_popcount. rewrite shr64_some. cbn [obind]. apply f_equal.
  pose proof (wd_word a 0 A). pose proof (wd_word a 1 A). pose proof (wd_word a 2 A). pose proof (wd_word a 3 A).
  change (cnt (lo256 a)) with (cnt (wd a 0)). change (cnt (mid256 a)) with (cnt (wd a 1)).
  change (cnt (to64 (hi256 a))) with (cnt (wd a 2)). change (cnt (to64 (hi256 a / W64))) with (cnt (wd a 3)).
  pose proof (cnt_le _ H). pose proof (cnt_le _ H0). pose proof (cnt_le _ H1). pose proof (cnt_le _ H2).
  change (2 ^ 16) with 65536. rewrite N.mod_small by lia. rewrite !cnt_correct by auto. lia.
Qed.
Lemma x_select_m : forall ti a i, ok256 a -> (1 <= i <= rank_of (tb (val256 a)) 256)%nat ->
  exists p, x_select ti a (N.of_nat i) = Some (N.of_nat p) /\ is_select (tb (val256 a)) i p.
Proof.
  intros ti a i A Hi. destruct (rank256 a A) as (E0 & E1 & E2 & E3). unfold x_select.
  change (cnt (lo256 a)) with (cnt (wd a 0)). change (cnt (mid256 a)) with (cnt (wd a 1)).
  change (cnt (to64 (hi256 a))) with (cnt (wd a 2)). change (sel (to64 (hi256 a))) with (sel (wd a 2)).
  change (sel (lo256 a)) with (sel (wd a 0)). change (sel (mid256 a)) with (sel (wd a 1)).
  rewrite !cnt_correct by (apply wd_word; auto).
  assert (P : forall n i', (n < 4)%nat -> (1 <= i' <= popcount (wd a n))%nat -> i = (rank_of (tb (val256 a)) (64 * n) + i')%nat ->
    exists p, sel (wd a n) (N.of_nat i') = Some (N.of_nat p) /\ is_select (tb (val256 a)) i (64 * n + p)).
  { intros n i' Hn Hi' ->. apply sel_part; auto. apply wd_word; auto. intros. apply wd_tb; auto. }
  set (f := tb (val256 a)) in *.
  destruct (N.leb_spec (N.of_nat i) (N.of_nat (popcount (wd a 0)))).
  { destruct (P 0%nat i) as (p & -> & S); try lia. { rewrite Nat.mul_0_r, rank_of_0. lia. } exists p. split; auto. }
  replace (N.of_nat i - N.of_nat (popcount (wd a 0))) with (N.of_nat (i - popcount (wd a 0))) by lia.
  destruct (N.leb_spec (N.of_nat (i - popcount (wd a 0))) (N.of_nat (popcount (wd a 1)))).
  { destruct (P 1%nat (i - popcount (wd a 0))%nat) as (p & -> & S); try lia. { change (64 * 1)%nat with 64%nat. lia. }
    exists (64 + p)%nat. split; auto. cbn [obind]. apply f_equal. lia. }
  replace (N.of_nat (i - popcount (wd a 0)) - N.of_nat (popcount (wd a 1))) with (N.of_nat (i - popcount (wd a 0) - popcount (wd a 1))) by lia.
  rewrite shr64_some. cbn [obind]. change (sel (to64 (hi256 a / W64))) with (sel (wd a 3)).
  destruct (N.leb_spec (N.of_nat (i - popcount (wd a 0) - popcount (wd a 1))) (N.of_nat (popcount (wd a 2)))).
  { destruct (P 2%nat (i - popcount (wd a 0) - popcount (wd a 1))%nat) as (p & -> & S); try lia. { change (64 * 2)%nat with 128%nat. lia. }
    exists (128 + p)%nat. split; auto. cbn [obind]. apply f_equal. lia. }
  replace (N.of_nat (i - popcount (wd a 0) - popcount (wd a 1)) - N.of_nat (popcount (wd a 2)))
    with (N.of_nat (i - popcount (wd a 0) - popcount (wd a 1) - popcount (wd a 2))) by lia.
  destruct (P 3%nat (i - popcount (wd a 0) - popcount (wd a 1) - popcount (wd a 2))%nat) as (p & -> & S); try lia. { change (64 * 3)%nat with 192%nat. lia. }
  exists (192 + p)%nat. split; auto. cbn [obind]. apply f_equal. lia.
Qed.
Lemma x_hi_m : forall ti a, ok256 a -> x_hi ti a = Some (N.log2 (val256 a)).
Proof.
  intros ti a A. unfold x_hi. destruct (N.eqb_spec (hi256 a) 0) as [E|E].
  - apply f_equal. destruct (N.eqb_spec (mid256 a) 0) as [F|F]; cbn [negb].
    + rewrite hi_correct by apply A. f_equal. rewrite val256_eq. lia.
    + symmetry. apply (hi_part (mid256 a) _ 64); auto. { apply A. } { intros. apply (wd_tb a 1); auto. }
      intros. rewrite tb256 by auto. destruct A as (A1 & A2 & A3). rewrite E, tb_0. bitcases.
  - rewrite shr64_some. cbn [obind]. apply f_equal. change (to64 (hi256 a / W64)) with (wd a 3).
    assert (T : forall j, (256 <= j)%nat -> tb (val256 a) j = false).
    { intros. apply (tb_high _ 256); auto. apply val256_lt; auto. }
    destruct (N.eqb_spec (wd a 3) 0) as [F|F]; cbn [negb].
    + symmetry. change (hi (to64 (hi256 a)) + 128) with (hi (wd a 2) + N.of_nat 128). apply hi_part; [apply wd_word; auto| | |].
      * intros G. apply E. apply tb_ext. intros k. rewrite tb_0. destruct (Nat.lt_ge_cases k 64).
        { change (to64 (hi256 a)) with (wd a 2). assert (X : tb (wd a 2) k = false) by (rewrite G; apply tb_0). cbn [wd] in X. rewrite tb_to64 in X.
          rewrite (proj2 (Nat.ltb_lt _ _)) in X by lia. exact X. }
        destruct (Nat.lt_ge_cases k 128). 2:{ apply (tb_high _ 128); auto. apply A. }
        assert (X : tb (wd a 3) (k - 64) = false) by (rewrite F; apply tb_0). cbn [wd] in X. rewrite tb_to64, tb_divW in X.
        rewrite (proj2 (Nat.ltb_lt _ _)) in X by lia. cbn [andb] in X. rewrite <- X. apply f_equal. lia.
      * intros. apply (wd_tb a 2); auto.
      * intros j Hj. destruct (Nat.lt_ge_cases j 256); auto.
        pose proof (wd_tb a 3 (j - 192) A ltac:(lia) ltac:(lia)) as X. replace (64 * 3 + (j - 192))%nat with j in X by lia.
        rewrite X, F. apply tb_0.
    + symmetry. change 192 with (N.of_nat 192). apply hi_part; auto. apply wd_word; auto. intros. apply (wd_tb a 3); auto.
Qed.
Lemma x_print_m : forall ti a, ok256 a -> x_print ti a = Some (hex 64 (val256 a)).
Proof.
  intros ti a A. unfold x_print. rewrite shr64_some. cbn [obind]. apply f_equal. change 64%nat with (16 * 4)%nat.
  rewrite <- (hex_words 4 [wd a 3; wd a 2; wd a 1; wd a 0]).
  - cbn [map concat]. rewrite app_nil_r. reflexivity.
  - reflexivity.
  - intros w [<-|[<-|[<-|[<-|[]]]]]; apply wd_word; auto.
  - intros i j Hi Hj. rewrite wd_tb by auto. destruct i as [|[|[|[|]]]]; [| | | |lia]; reflexivity.
Qed.
