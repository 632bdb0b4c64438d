(** * The gamma and delta codes satisfy the generic requirements. *)
From Coq Require Import NArith List Bool Arith Lia.
From Verif Require Import Base Bits SpecBits BitsProofs BitsProofs2 BitsProofs3 BitsMem IntVector AbsVec Coder CoderProofs CoderProofs2.
Import ListNotations.

(** the word at [p] codes [x] and ends before [q] *)
Definition gcode : code_t := fun m p x q => exists l, l <= 64 /\ first_one_from (mbit m) p (p + l) /\
  q = p + 2 * l + 1 /\ x = (field m (p + l + 1) l + hb l)%N /\ (l = 64 -> x = 0%N).
Definition dcode : code_t := fun m p x q => exists l k, l <= 6 /\ first_one_from (mbit m) p (p + l) /\
  N.of_nat (k + 1) = (field m (p + l + 1) l + 2 ^ N.of_nat l)%N /\ k <= 64 /\
  q = p + 2 * l + 1 + k /\ x = (field m (p + 2 * l + 1) k + hb k)%N /\ (k = 64 -> x = 0%N).

Lemma hb_lt : forall l, l < 64 -> hb l = (2 ^ N.of_nat l)%N.
Proof. intros. unfold hb. replace (l <? 64) with true by lia. auto. Qed.
Lemma hb_le : forall l, (hb l <= 2 ^ N.of_nat l)%N.
Proof. intros. unfold hb. pose proof (pow2_pos l). destruct (l <? 64); lia. Qed.
Lemma first_local : forall m m' p p' l q, first_one_from (mbit m) p (p + l) -> p + l < q ->
  (forall k, p + k < q -> mbit m (p + k) = mbit m' (p' + k)) -> first_one_from (mbit m') p' (p' + l).
Proof.
  intros m m' p p' l q [A [B C]] L E. split; [lia|]. split. { rewrite <- E by lia. auto. }
  intros k Hk. replace k with (p' + (k - p')) by lia. rewrite <- E by lia. apply C. lia.
Qed.
Lemma first_det : forall m p l l', first_one_from (mbit m) p (p + l) -> first_one_from (mbit m) p (p + l') -> l = l'.
Proof. intros. pose proof (first_one_unique _ _ _ _ H H0). lia. Qed.
Lemma field_hb_lt : forall m p l, (field m p l + hb l < 2 ^ N.of_nat (S l))%N.
Proof. intros. pose proof (field_lt m p l). pose proof (hb_le l). rewrite pow2_S. lia. Qed.

Lemma g_CL : forall m p x q m' p', gcode m p x q -> (forall k, p + k < q -> mbit m (p + k) = mbit m' (p' + k)) ->
  gcode m' p' x (p' + (q - p)).
Proof.
  intros m p x q m' p' [l [L [F [Q [X Z]]]]] E. exists l. split; auto. split.
  { apply (first_local m m' p p' l q); auto. lia. }
  split; [lia|]. split; auto. rewrite X. f_equal. apply field_ext. intros k Hk.
  replace (p + l + 1 + k) with (p + (l + 1 + k)) by lia. rewrite E by lia. f_equal. lia.
Qed.
Lemma g_CD : forall m p x q x' q', gcode m p x q -> gcode m p x' q' -> x = x' /\ q = q'.
Proof.
  intros m p x q x' q' [l [L [F [Q [X Z]]]]] [l' [L' [F' [Q' [X' Z']]]]]. pose proof (first_det _ _ _ _ F F'). subst. auto.
Qed.
Lemma g_CP : forall m p x q, gcode m p x q -> p < q.
Proof. intros m p x q [l [L [F [Q [X Z]]]]]. lia. Qed.
Lemma g_CB : forall m p x q, gcode m p x q -> (x < 2 ^ N.of_nat (q - p))%N.
Proof.
  intros m p x q [l [L [F [Q [X Z]]]]]. subst x. eapply N.lt_le_trans; [apply field_hb_lt|]. apply pow2_mono. lia.
Qed.
Lemma g_C1 : forall m p, mbit m p = true -> gcode m p 1%N (p + 1).
Proof.
  intros m p H. exists 0. split; [lia|]. split.
  { split; [lia|]. split. { rewrite Nat.add_0_r. auto. } intros. lia. }
  split; [lia|]. split; [reflexivity|]. lia.
Qed.
Lemma d_CL : forall m p x q m' p', dcode m p x q -> (forall k, p + k < q -> mbit m (p + k) = mbit m' (p' + k)) ->
  dcode m' p' x (p' + (q - p)).
Proof.
  intros m p x q m' p' [l [k [L [F [K [Kl [Q [X Z]]]]]]]] E. exists l, k. split; auto. split.
  { apply (first_local m m' p p' l q); auto. lia. }
  split.
  { rewrite K. f_equal. apply field_ext. intros j Hj. replace (p + l + 1 + j) with (p + (l + 1 + j)) by lia. rewrite E by lia. f_equal. lia. }
  split; auto. split; [lia|]. split; auto. rewrite X. f_equal. apply field_ext. intros j Hj.
  replace (p + 2 * l + 1 + j) with (p + (2 * l + 1 + j)) by lia. rewrite E by lia. f_equal. lia.
Qed.
Lemma d_CD : forall m p x q x' q', dcode m p x q -> dcode m p x' q' -> x = x' /\ q = q'.
Proof.
  intros m p x q x' q' [l [k [L [F [K [Kl [Q [X Z]]]]]]]] [l' [k' [L' [F' [K' [Kl' [Q' [X' Z']]]]]]]].
  pose proof (first_det _ _ _ _ F F'). subst l'. assert (k = k') by lia. subst. auto.
Qed.
Lemma d_CP : forall m p x q, dcode m p x q -> p < q.
Proof. intros m p x q [l [k [L [F [K [Kl [Q [X Z]]]]]]]]. lia. Qed.
Lemma d_CB : forall m p x q, dcode m p x q -> (x < 2 ^ N.of_nat (q - p))%N.
Proof.
  intros m p x q [l [k [L [F [K [Kl [Q [X Z]]]]]]]]. subst x. eapply N.lt_le_trans; [apply field_hb_lt|]. apply pow2_mono. lia.
Qed.
Lemma d_C1 : forall m p, mbit m p = true -> dcode m p 1%N (p + 1).
Proof.
  intros m p H. exists 0, 0. split; [lia|]. split.
  { split; [lia|]. split. { rewrite Nat.add_0_r. auto. } intros. lia. }
  split; [reflexivity|]. split; [lia|]. split; [lia|]. split; [reflexivity|]. lia.
Qed.

(** ** encoders *)
Lemma log2_split : forall x, x <> 0%N -> (x = x mod 2 ^ N.log2 x + 2 ^ N.log2 x)%N.
Proof.
  intros x H. destruct (N.log2_spec x) as [A B]; [lia|]. rewrite N.pow_succ_r' in B.
  assert (x / 2 ^ N.log2 x = 1)%N. { symmetry. apply N.div_unique with (x - 2 ^ N.log2 x)%N; lia. }
  pose proof (N.div_mod' x (2 ^ N.log2 x)). rewrite H0 in H1. lia.
Qed.
Lemma tb_pow2 : forall l k, tb (2 ^ N.of_nat l) k = (k =? l).
Proof.
  intros. unfold tb. destruct (Nat.eqb_spec k l). { subst. apply N.pow2_bits_true. }
  apply N.pow2_bits_false. lia.
Qed.
Lemma hi_word : forall x, is_word x -> x <> 0%N -> N.of_nat (N.to_nat (hi x)) = N.log2 x /\ N.to_nat (hi x) < 64.
Proof. intros x H Hz. pose proof (hi_lt64 x H). rewrite N2Nat.id, hi_correct by auto. split; auto. rewrite <- (hi_correct x) by auto. lia. Qed.
Lemma fits_bits : forall m w off len, off < 64 -> len <= 64 -> 1 <= len -> 64 * w + off + len <= 64 * length m -> fits m w off len.
Proof. intros. red. repeat split; lia. Qed.
Lemma mem_set_first : forall m p l m', mem_set m p (l + 1) (2 ^ N.of_nat l) m' -> first_one_from (mbit m') p (p + l).
Proof.
  intros m p l m' [L [W B]]. split; [lia|]. split.
  - rewrite B. replace (p <=? p + l) with true by lia. replace (p + l <? p + (l + 1)) with true by lia. cbn.
    rewrite tb_pow2. lia.
  - intros k Hk. rewrite B. replace (p <=? k) with true by lia. replace (k <? p + (l + 1)) with true by lia. cbn.
    rewrite tb_pow2. lia.
Qed.
Lemma mem_set_keep : forall m p l x m' k, mem_set m p l x m' -> k < p \/ p + l <= k -> mbit m' k = mbit m k.
Proof.
  intros m p l x m' k [L [W B]] H. rewrite B. destruct (Nat.leb_spec p k); destruct (Nat.ltb_spec k (p + l)); cbn; auto; lia.
Qed.
Lemma first_keep : forall m m' p q, first_one_from (mbit m) p q -> (forall k, k <= q -> mbit m' k = mbit m k) -> first_one_from (mbit m') p q.
Proof.
  intros m m' p q [A [B C]] E. split; auto. split. { rewrite E by lia. auto. } intros. rewrite E by lia. auto.
Qed.

Lemma g_E1 : enc1_ok gcode eg_len eg_enc1.
Proof.
  intros m w off x Hm Ho Hx L. unfold eg_len in *. unfold eg_enc1. remember (64 * w + off) as p eqn:Ep.
  destruct (N.eqb_spec x 0).
  - subst x. 
    destruct (write_int_and_move_correct m w 0 off 64 Hm ltac:(apply fits_bits; lia)) as [m1 [w1 [o1 [R1 [M1 [P1 O1]]]]]].
    rewrite R1. cbn [obind]. pose proof M1 as [L1 [W1 B1]].
    destruct (write_int_and_move_correct m1 w1 1 o1 1 W1 ltac:(apply fits_bits; lia)) as [m2 [w2 [o2 [R2 [M2 [P2 O2]]]]]].
    rewrite R2. cbn [obind]. pose proof M2 as [L2 [W2 B2]].
    destruct (write_int_and_move_correct m2 w2 0 o2 64 W2 ltac:(apply fits_bits; lia)) as [m3 [w3 [o3 [R3 [M3 [P3 O3]]]]]].
    exists m3, w3, o3. change (negb (64 =? 0)) with true. cbv iota. pose proof M3 as [L3 [W3 B3]].
    split; auto. split; [lia|]. split; auto. split; [lia|]. split; auto. split.
    + intros k Hk. rewrite (mem_set_keep _ _ _ _ _ _ M3), (mem_set_keep _ _ _ _ _ _ M2), (mem_set_keep _ _ _ _ _ _ M1) by lia. auto.
    + exists 64. split; [lia|]. split.
      { apply first_keep with (m := m2). 2:{ intros. apply (mem_set_keep _ _ _ _ _ _ M3). lia. }
        split; [lia|]. split.
        - rewrite B2. replace (64 * w1 + o1 <=? p + 64) with true by lia. replace (p + 64 <? 64 * w1 + o1 + 1) with true by lia. cbn.
          replace (p + 64 - (64 * w1 + o1)) with 0 by lia. reflexivity.
        - intros k Hk. rewrite (mem_set_keep _ _ _ _ _ _ M2) by lia. rewrite B1. replace (64 * w + off <=? k) with true by lia.
          replace (k <? 64 * w + off + 64) with true by lia. cbn [andb]. apply tb_0. }
      split; [lia|]. split; auto. replace (p + 64 + 1) with (64 * w2 + o2) by lia. rewrite (mem_set_read_same _ _ _ _ _ M3).
      unfold hb. rewrite N.mod_0_l by (pose proof (pow2_pos 64); lia). reflexivity.
  - destruct (hi_word x Hx n) as [HL H64]. remember (N.to_nat (hi x)) as l eqn:El.
    rewrite shl_c_1 by auto. cbn [obind].
    destruct (write_int_and_move_correct m w (2 ^ N.of_nat l) off (l + 1) Hm ltac:(apply fits_bits; lia)) as [m1 [w1 [o1 [R1 [M1 [P1 O1]]]]]].
    rewrite R1. cbn [obind]. pose proof M1 as [L1 [W1 B1]]. rewrite <- Ep in M1.
    pose proof (mem_set_first _ _ _ _ M1) as F1.
    destruct (Nat.eqb_spec l 0) as [E0|E0].
    + cbn [negb]. exists m1, w1, o1. rewrite E0 in *. split; auto. split; auto. split; auto. split; [lia|]. split; auto. split.
      * intros k Hk. apply (mem_set_keep _ _ _ _ _ _ M1). lia.
      * exists 0. split; [lia|]. split; auto. split; [lia|]. split; [|lia].
        assert (x = 1)%N. { pose proof (log2_split x n) as S. rewrite <- HL in S. simpl in S. rewrite N.mod_1_r in S. auto. } subst x. reflexivity.
    + cbn [negb]. destruct (write_int_and_move_correct m1 w1 x o1 l W1 ltac:(apply fits_bits; lia)) as [m2 [w2 [o2 [R2 [M2 [P2 O2]]]]]].
      rewrite R2. exists m2, w2, o2. pose proof M2 as [L2 [W2 B2]]. split; auto. split; [lia|]. split; auto. split; [lia|]. split; auto. split.
      * intros k Hk. rewrite (mem_set_keep _ _ _ _ _ _ M2), (mem_set_keep _ _ _ _ _ _ M1) by lia. auto.
      * exists l. split; [lia|]. split. { apply first_keep with (m := m1); auto. intros. apply (mem_set_keep _ _ _ _ _ _ M2). lia. }
        split; [lia|]. split; [|lia]. replace (p + l + 1) with (64 * w1 + o1) by lia. rewrite (mem_set_read_same _ _ _ _ _ M2), hb_lt by lia.
        rewrite HL. apply log2_split; auto.
Qed.

Lemma d_E1 : enc1_ok dcode ed_len ed_enc1.
Proof.
  intros m w off x Hm Ho Hx L. unfold ed_len in *. unfold ed_enc1. remember (64 * w + off) as p eqn:Ep.
  remember (if (x =? 0)%N then 64 else N.to_nat (hi x)) as k eqn:Ek.
  replace (if (x =? 0)%N then 65 else N.to_nat (hi x) + 1) with (k + 1) by (subst k; destruct (x =? 0)%N; lia).
  assert (Kl : k <= 64). { subst k. destruct (N.eqb_spec x 0); [lia|]. destruct (hi_word x Hx n). lia. }
  assert (XK : x = (x mod 2 ^ N.of_nat k + hb k)%N /\ (k = 64 -> x = 0%N)).
  { subst k. destruct (N.eqb_spec x 0).
    - subst x. split; auto.
    - destruct (hi_word x Hx n) as [HL H64]. split; [|lia]. rewrite hb_lt, HL by lia. apply log2_split; auto. }
  assert (KW : is_word (N.of_nat (k + 1))). { red. apply N.lt_le_trans with 66%N; [lia|]. discriminate. }
  destruct (hi_word _ KW ltac:(lia)) as [HL H64]. remember (N.to_nat (hi (N.of_nat (k + 1)))) as l eqn:El.
  assert (Hl6 : l <= 6).
  { assert (N.of_nat l <= 6)%N; [|lia]. rewrite HL. change 6%N with (N.log2 65). apply N.log2_le_mono. lia. }
  assert (Hk1 : N.of_nat (k + 1) = (N.of_nat (k + 1) mod 2 ^ N.of_nat l + 2 ^ N.of_nat l)%N). { rewrite HL. apply log2_split. lia. }
  assert (Hk0 : l = 0 -> k = 0). { intro E0. rewrite E0 in Hk1. change (2 ^ N.of_nat 0)%N with 1%N in Hk1. rewrite N.mod_1_r in Hk1. lia. }
  assert (K1' : l <> 0 -> 1 <= k).
  { intro E0. apply Nat.nlt_ge. intro. assert (Hz : k = 0) by lia. rewrite Hz in HL. change (N.log2 (N.of_nat (0 + 1))) with 0%N in HL. lia. }
  clear HL El KW Ek. apply box in Hk1. apply box in XK.
  rewrite shl_c_1 by auto. cbn [obind].
  destruct (write_int_and_move_correct m w (2 ^ N.of_nat l) off (l + 1) Hm ltac:(apply fits_bits; lia)) as [m1 [w1 [o1 [R1 [M1 [P1 O1]]]]]].
  rewrite R1. cbn [obind]. pose proof M1 as [L1 [W1 B1]]. rewrite <- Ep in M1.
  pose proof (mem_set_first _ _ _ _ M1) as F1. apply unbox in XK.
  destruct (Nat.eqb_spec l 0) as [E0|E0].
  - cbn [negb]. rewrite E0 in *. exists m1, w1, o1.
    assert (k = 0) by auto.
    split; auto. split; auto. split; auto. split; [lia|]. split; auto. split.
    + intros j Hj. apply (mem_set_keep _ _ _ _ _ _ M1). lia.
    + exists 0, k. split; [lia|]. split; auto. split; [rewrite H; reflexivity|]. split; auto. split; [lia|]. split; [|tauto].
      destruct XK as [XK _]. rewrite H in *. simpl in XK. rewrite N.mod_1_r in XK. exact XK.
  - cbn [negb].
    assert (K1 : 1 <= k) by auto. apply box in XK.
    destruct (write_int_and_move_correct m1 w1 (N.of_nat (k + 1)) o1 l W1 ltac:(apply fits_bits; lia)) as [m2 [w2 [o2 [R2 [M2 [P2 O2]]]]]].
    rewrite R2. cbn [obind]. pose proof M2 as [L2 [W2 B2]]. replace (k + 1 - 1) with k by lia.
    destruct (write_int_and_move_correct m2 w2 x o2 k W2 ltac:(apply fits_bits; lia)) as [m3 [w3 [o3 [R3 [M3 [P3 O3]]]]]].
    rewrite R3. pose proof M3 as [L3 [W3 B3]]. exists m3, w3, o3.
    split; auto. split; [lia|]. split; auto. split; [lia|]. split; auto. split.
    + intros j Hj. rewrite (mem_set_keep _ _ _ _ _ _ M3), (mem_set_keep _ _ _ _ _ _ M2), (mem_set_keep _ _ _ _ _ _ M1) by lia. auto.
    + exists l, k. split; auto. split.
      { apply first_keep with (m := m1); auto. intros. rewrite (mem_set_keep _ _ _ _ _ _ M3), (mem_set_keep _ _ _ _ _ _ M2) by lia. auto. }
      split. { rewrite (mem_set_read_other _ _ _ _ _ _ _ M3) by lia. replace (p + l + 1) with (64 * w1 + o1) by lia.
        rewrite (mem_set_read_same _ _ _ _ _ M2). exact (unbox _ Hk1). }
      apply unbox in XK.
      split; auto. split; [lia|]. split; [|tauto]. replace (p + 2 * l + 1) with (64 * w2 + o2) by lia.
      rewrite (mem_set_read_same _ _ _ _ _ M3). tauto.
Qed.

(** ** decoders *)
Section Dec.
Variable sh : N -> nat -> option N.
Hypothesis SO : shift_ok sh.
Lemma sh_val : forall k x, k <= 64 -> (k = 64 -> x = 0%N) -> (x <> 0%N \/ shift_def sh) ->
  exists b, sh 1%N k = Some b /\ (if k <? 64 then b else 0%N) = hb k.
Proof.
  intros k x K Z D. unfold hb. destruct (Nat.ltb_spec k 64).
  - exists (2 ^ N.of_nat k)%N. rewrite SO, shl_c_1 by auto. auto.
  - assert (k = 64) by lia. subst k. destruct D as [D|[y D]]; [exfalso; auto|]. exists y. auto.
Qed.
Lemma field_hb_word : forall m p k, k <= 64 -> (k = 64 -> (field m p k + hb k = 0)%N) -> wadd (field m p k) (hb k) = (field m p k + hb k)%N.
Proof.
  intros m p k K Z. apply wadd_small. pose proof (field_hb_lt m p k).
  destruct (Nat.eq_dec k 64) as [->|]. { rewrite Z by auto. reflexivity. }
  eapply N.lt_le_trans; [exact H|]. apply pow2_le_W. lia.
Qed.
Lemma g_D1 : dec1_ok gcode sh (eg_dec1 sh).
Proof.
  intros m w off x q Hm Ho [l [L [F [Q [X Z]]]]] Hq D. unfold eg_dec1. remember (64 * w + off) as p eqn:Ep.
  destruct (read_unary_and_move_correct m w off (p + l) Hm Ho) as [w1 [o1 [R1 [P1 O1]]]]. { rewrite <- Ep. auto. }
  rewrite R1. cbn [obind]. replace (p + l - (64 * w + off)) with l by lia.
  destruct (Nat.eqb_spec l 0) as [E0|E0].
  - exists w1, o1. subst l x. split; auto. split; auto. lia.
  - destruct (read_int_and_move_correct m w1 o1 l Hm ltac:(apply fits_bits; lia)) as [w2 [o2 [R2 [P2 O2]]]].
    rewrite R2. cbn [obind]. destruct (sh_val l x L Z D) as [b [-> HB]]. cbn [obind]. exists w2, o2.
    rewrite HB. replace (64 * w1 + o1) with (p + l + 1) by lia. rewrite field_hb_word; auto.
    2:{ intro. rewrite <- X. auto. }
    rewrite <- X. split; auto. split; auto. lia.
Qed.
Lemma g_single : forall m w off x q, words_ok m -> off < 64 -> gcode m (64 * w + off) x q -> q < 64 * length m ->
  (x <> 0%N \/ shift_def sh) ->
  exists w' off', eg_single sh m w off = Some (x, w', off') /\ 64 * w' + off' = q /\ off' < 64.
Proof.
  intros m w off x q Hm Ho [l [L [F [Q [X Z]]]]] Hq D. unfold eg_single. remember (64 * w + off) as p eqn:Ep.
  destruct (read_unary_and_move_correct m w off (p + l) Hm Ho) as [w1 [o1 [R1 [P1 O1]]]]. { rewrite <- Ep. auto. }
  rewrite R1. cbn [obind]. replace (p + l - (64 * w + off)) with l by lia.
  destruct (read_int_and_move_correct m w1 o1 l Hm ltac:(red; repeat split; lia)) as [w2 [o2 [R2 [P2 O2]]]].
  rewrite R2. cbn [obind]. destruct (sh_val l x L Z D) as [b [-> HB]]. cbn [obind]. exists w2, o2.
  rewrite HB. replace (64 * w1 + o1) with (p + l + 1) by lia. rewrite field_hb_word; auto.
  2:{ intro. rewrite <- X. auto. }
  rewrite <- X. split; auto. split; auto. lia.
Qed.
Lemma g_S1 : skip1_ok gcode eg_skip1.
Proof.
  intros m w off x q Hm Ho [l [L [F [Q [X Z]]]]] Hq. unfold eg_skip1. remember (64 * w + off) as p eqn:Ep.
  destruct (read_unary_and_move_correct m w off (p + l) Hm Ho) as [w1 [o1 [R1 [P1 O1]]]]. { rewrite <- Ep. auto. }
  rewrite R1. cbn [obind]. replace (p + l - (64 * w + off)) with l by lia.
  destruct (Nat.eqb_spec l 0) as [E0|E0].
  - exists w1, o1. cbn [negb]. split; auto. lia.
  - cbn [negb]. pose proof (move_right_correct w1 o1 l O1 L). destruct (move_right w1 o1 l) as [w2 o2]. exists w2, o2.
    split; auto. lia.
Qed.
Lemma d_D1 : dec1_ok dcode sh (ed_dec1 sh).
Proof.
  intros m w off x q Hm Ho [l [k [L [F [K [Kl [Q [X Z]]]]]]]] Hq D. unfold ed_dec1. remember (64 * w + off) as p eqn:Ep.
  destruct (read_unary_and_move_correct m w off (p + l) Hm Ho) as [w1 [o1 [R1 [P1 O1]]]]. { rewrite <- Ep. auto. }
  rewrite R1. cbn [obind]. replace (p + l - (64 * w + off)) with l by lia.
  destruct (Nat.eqb_spec l 0) as [E0|E0].
  - subst l. change (N.of_nat (k + 1) = 1%N) in K. assert (k = 0) by lia. subst k. exists w1, o1. subst x. split; auto. split; auto. lia.
  - destruct (read_int_and_move_correct m w1 o1 l Hm ltac:(apply fits_bits; lia)) as [w2 [o2 [R2 [P2 O2]]]].
    rewrite R2. cbn [obind]. rewrite shl_c_1 by lia. cbn [obind].
    replace (64 * w1 + o1) with (p + l + 1) by lia.
    rewrite wadd_small by (rewrite <- K; apply N.lt_le_trans with 66%N; [lia|discriminate]). rewrite <- K, Nat2N.id.
    replace (k + 1 - 1) with k by lia.
    assert (1 <= k). { pose proof (pow2_mono 1 l ltac:(lia)). change (2 ^ N.of_nat 1)%N with 2%N in H. lia. }
    destruct (read_int_and_move_correct m w2 o2 k Hm ltac:(apply fits_bits; lia)) as [w3 [o3 [R3 [P3 O3]]]].
    rewrite R3. cbn [obind]. destruct (sh_val k x Kl Z D) as [b [-> HB]]. cbn [obind]. exists w3, o3.
    rewrite HB. replace (64 * w2 + o2) with (p + 2 * l + 1) by lia. rewrite field_hb_word; auto.
    2:{ intro. rewrite <- X. auto. }
    rewrite <- X. split; auto. split; auto. lia.
Qed.
Lemma d_single : forall m w off x q, words_ok m -> off < 64 -> dcode m (64 * w + off) x q -> q < 64 * length m ->
  (x <> 0%N \/ shift_def sh) ->
  exists w' off', ed_single sh m w off = Some (x, w', off') /\ 64 * w' + off' = q /\ off' < 64.
Proof.
  intros m w off x q Hm Ho [l [k [L [F [K [Kl [Q [X Z]]]]]]]] Hq D. unfold ed_single. remember (64 * w + off) as p eqn:Ep.
  destruct (read_unary_and_move_correct m w off (p + l) Hm Ho) as [w1 [o1 [R1 [P1 O1]]]]. { rewrite <- Ep. auto. }
  rewrite R1. cbn [obind]. replace (p + l - (64 * w + off)) with l by lia.
  destruct (read_int_and_move_correct m w1 o1 l Hm ltac:(red; repeat split; lia)) as [w2 [o2 [R2 [P2 O2]]]].
  rewrite R2. cbn [obind]. rewrite shl_c_1 by lia. cbn [obind].
  replace (64 * w1 + o1) with (p + l + 1) by lia.
  assert (KW : (N.of_nat (k + 1) < W64)%N) by (apply N.lt_le_trans with 66%N; [lia|discriminate]).
  rewrite wadd_small by (rewrite <- K; auto). rewrite <- K. rewrite wsub_small by (auto; lia).
  replace (N.to_nat (N.of_nat (k + 1) - 1)) with k by lia.
  destruct (read_int_and_move_correct m w2 o2 k Hm ltac:(red; repeat split; lia)) as [w3 [o3 [R3 [P3 O3]]]].
  rewrite R3. cbn [obind]. destruct (sh_val k x Kl Z D) as [b [-> HB]]. cbn [obind]. exists w3, o3.
  rewrite HB. replace (64 * w2 + o2) with (p + 2 * l + 1) by lia. rewrite field_hb_word; auto.
  2:{ intro. rewrite <- X. auto. }
  rewrite <- X. split; auto. split; auto. lia.
Qed.
Lemma d_S1 : skip1_ok dcode ed_skip1.
Proof.
  intros m w off x q Hm Ho [l [k [L [F [K [Kl [Q [X Z]]]]]]]] Hq. unfold ed_skip1. remember (64 * w + off) as p eqn:Ep.
  destruct (read_unary_and_move_correct m w off (p + l) Hm Ho) as [w1 [o1 [R1 [P1 O1]]]]. { rewrite <- Ep. auto. }
  rewrite R1. cbn [obind]. replace (p + l - (64 * w + off)) with l by lia.
  destruct (Nat.eqb_spec l 0) as [E0|E0].
  - subst l. change (N.of_nat (k + 1) = 1%N) in K. assert (k = 0) by lia. subst k. exists w1, o1. cbn [negb]. split; auto. lia.
  - cbn [negb]. destruct (read_int_and_move_correct m w1 o1 l Hm ltac:(apply fits_bits; lia)) as [w2 [o2 [R2 [P2 O2]]]].
    rewrite R2. cbn [obind]. rewrite shl_c_1 by lia. cbn [obind].
    replace (64 * w1 + o1) with (p + l + 1) by lia.
    rewrite wadd_small by (rewrite <- K; apply N.lt_le_trans with 66%N; [lia|discriminate]). rewrite <- K, Nat2N.id.
    replace (k + 1 - 1) with k by lia.
    pose proof (move_right_correct w2 o2 k O2 Kl). destruct (move_right w2 o2 k) as [w3 o3]. exists w3, o3.
    split; auto. lia.
Qed.
End Dec.

(** ** tables *)
Lemma first_in_word : forall x off, is_word x -> off < 64 -> shr x off <> 0%N ->
  exists l, first_one_from (mbit [x]) off (off + l) /\ off + l < 64 /\ read_unary [x] 0 off = Some l.
Proof.
  intros x off Hx Ho Hs. assert (Hm : words_ok [x]) by (repeat constructor; auto).
  pose proof (lo_lsb (shr x off) ltac:(auto with word) Hs) as [A B]. set (l := N.to_nat (lo (shr x off))) in *.
  exists l. assert (l + off < 64). { apply Nat.nle_gt. intro. rewrite tb_shr, (tb_word_high x) in A; auto; try discriminate. }
  assert (F : first_one_from (mbit [x]) off (off + l)).
  { split; [lia|]. split.
    - rewrite mbit_single. replace (off + l <? 64) with true by lia. rewrite tb_shr, Nat.add_comm in A. auto.
    - intros k Hk. rewrite mbit_single. specialize (B (k - off) ltac:(lia)). rewrite tb_shr in B. replace (k - off + off) with k in B by lia.
      rewrite B. apply andb_false_r. }
  split; auto. split; [lia|]. rewrite (read_unary_correct [x] 0 off (off + l)); auto. f_equal. lia.
Qed.
Lemma first_lt_lim : forall x lim off l, (x < 2 ^ N.of_nat lim)%N -> lim <= 16 -> first_one_from (mbit [x]) off (off + l) -> off + l < lim.
Proof.
  intros x lim off l Hx Hl [_ [B _]]. apply Nat.nle_gt. intro. rewrite mbit_single in B. apply andb_prop in B. destruct B as [_ B].
  rewrite (tb_high x lim) in B; auto. discriminate.
Qed.

Lemma eg_tab_ok : forall fuel x lim maxi off num val, (x < 2 ^ N.of_nat lim)%N -> lim <= 16 -> off <= lim -> lim < off + fuel ->
  (match maxi with Some k => num <= k | None => True end) ->
  exists ys o, eg_tab fuel x lim maxi off num val = Some (o, num + length ys, (val + nsum ys)%N) /\
    codes gcode [x] off ys o /\ o <= lim /\ (match maxi with Some k => num + length ys <= k | None => True end).
Proof.
  induction fuel; intros x lim maxi off num val Hx Hl Ho Hf Hk; [lia|]. cbn [eg_tab].
  assert (Hw : is_word x). { red. eapply N.lt_le_trans; [exact Hx|]. apply pow2_le_W. lia. }
  assert (STOP : exists ys o, Some (off, num, val) = Some (o, num + length ys, (val + nsum ys)%N) /\
    codes gcode [x] off ys o /\ o <= lim /\ (match maxi with Some k => num + length ys <= k | None => True end)).
  { exists [], off. simpl. rewrite Nat.add_0_r, N.add_0_r. auto. }
  destruct (negb (shr x off =? 0)%N && match maxi with Some k => num <? k | None => true end) eqn:G; [|exact STOP].
  apply andb_prop in G. destruct G as [G1 G2].
  assert (Hs : shr x off <> 0%N) by (intro E; rewrite E in G1; discriminate).
  destruct (first_in_word x off Hw ltac:(lia) Hs) as [l [F [L R]]]. rewrite R. cbn [obind].
  pose proof (first_lt_lim _ _ _ _ Hx Hl F) as FL.
  assert (Hk2 : match maxi with Some k => num + 1 <= k | None => True end). { destruct maxi; auto. apply Nat.ltb_lt in G2. lia. }
  destruct (Nat.eqb_spec l 0) as [E0|E0].
  - subst l. destruct (IHfuel x lim maxi (off + 1) (num + 1) (val + 1)%N Hx Hl ltac:(lia) ltac:(lia) Hk2) as [ys [o [Ry [Cy [Oy Ky]]]]].
    exists (1%N :: ys), o. rewrite Ry. split.
    { cbn [length]. change (nsum (1%N :: ys)) with (1 + nsum ys)%N. do 2 f_equal; [f_equal; lia|lia]. }
    split; [|split; auto]. 2:{ cbn [length]. destruct maxi; auto. lia. }
    exists (off + 1). split; auto. apply g_C1. destruct F as [_ [F _]]. rewrite Nat.add_0_r in F. auto.
  - destruct (Nat.leb_spec (off + l + 1 + l) lim); [|exact STOP].
    assert (Hm : words_ok [x]) by (repeat constructor; auto).
    rewrite read_int_correct; auto. 2:{ red. simpl. repeat split; lia. }
    cbn [obind]. rewrite shl_c_1 by lia. cbn [obind]. change (64 * 0 + (off + l + 1)) with (off + l + 1).
    set (y := (field [x] (off + l + 1) l + 2 ^ N.of_nat l)%N).
    destruct (IHfuel x lim maxi (off + l + 1 + l) (num + 1) (val + y)%N Hx Hl ltac:(lia) ltac:(lia) Hk2) as [ys [o [Ry [Cy [Oy Ky]]]]].
    exists (y :: ys), o. rewrite Ry. split.
    { cbn [length]. change (nsum (y :: ys)) with (y + nsum ys)%N. do 2 f_equal; [f_equal; lia|lia]. }
    split; [|split; auto]. 2:{ cbn [length]. destruct maxi; auto. lia. }
    exists (off + l + 1 + l). split; auto. exists l. split; [lia|]. split; auto. split; [lia|]. split; [|lia].
    rewrite hb_lt by lia. reflexivity.
Qed.
Lemma ed_tab_ok : forall fuel x lim maxi off num val, (x < 2 ^ N.of_nat lim)%N -> lim <= 16 -> off <= lim -> lim < off + fuel ->
  (match maxi with Some k => num <= k | None => True end) ->
  exists ys o, ed_tab fuel x lim maxi off num val = Some (o, num + length ys, (val + nsum ys)%N) /\
    codes dcode [x] off ys o /\ o <= lim /\ (match maxi with Some k => num + length ys <= k | None => True end).
Proof.
  induction fuel; intros x lim maxi off num val Hx Hl Ho Hf Hk; [lia|]. cbn [ed_tab].
  assert (Hw : is_word x). { red. eapply N.lt_le_trans; [exact Hx|]. apply pow2_le_W. lia. }
  assert (STOP : exists ys o, Some (off, num, val) = Some (o, num + length ys, (val + nsum ys)%N) /\
    codes dcode [x] off ys o /\ o <= lim /\ (match maxi with Some k => num + length ys <= k | None => True end)).
  { exists [], off. simpl. rewrite Nat.add_0_r, N.add_0_r. auto. }
  destruct (negb (shr x off =? 0)%N && match maxi with Some k => num <? k | None => true end) eqn:G; [|exact STOP].
  apply andb_prop in G. destruct G as [G1 G2].
  assert (Hs : shr x off <> 0%N) by (intro E; rewrite E in G1; discriminate).
  destruct (first_in_word x off Hw ltac:(lia) Hs) as [l [F [L R]]]. rewrite R. cbn [obind].
  pose proof (first_lt_lim _ _ _ _ Hx Hl F) as FL.
  assert (Hk2 : match maxi with Some k => num + 1 <= k | None => True end). { destruct maxi; auto. apply Nat.ltb_lt in G2. lia. }
  destruct (Nat.eqb_spec l 0) as [E0|E0].
  - subst l. destruct (IHfuel x lim maxi (off + 1) (num + 1) (val + 1)%N Hx Hl ltac:(lia) ltac:(lia) Hk2) as [ys [o [Ry [Cy [Oy Ky]]]]].
    exists (1%N :: ys), o. rewrite Ry. split.
    { cbn [length]. change (nsum (1%N :: ys)) with (1 + nsum ys)%N. do 2 f_equal; [f_equal; lia|lia]. }
    split; [|split; auto]. 2:{ cbn [length]. destruct maxi; auto. lia. }
    exists (off + 1). split; auto. apply d_C1. destruct F as [_ [F _]]. rewrite Nat.add_0_r in F. auto.
  - assert (Hm : words_ok [x]) by (repeat constructor; auto).
    rewrite read_int_correct; auto. 2:{ red. simpl. repeat split; lia. }
    cbn [obind]. rewrite shl_c_1 by lia. cbn [obind]. change (64 * 0 + (off + l + 1)) with (off + l + 1).
    remember (N.to_nat (field [x] (off + l + 1) l + 2 ^ N.of_nat l)) as len eqn:El.
    destruct (Nat.leb_spec (off + l + 1 + l + len - 1) lim) as [H|H]; [|exact STOP].
    assert (H2 : (2 <= 2 ^ N.of_nat l)%N) by (change 2%N with (2 ^ N.of_nat 1)%N at 1; apply pow2_mono; lia).
    assert (len >= 2) by lia.
    assert (L6 : l <= 6). { apply Nat.nlt_ge. intro G. pose proof (pow2_mono 7 l ltac:(lia)) as P7. change (2 ^ N.of_nat 7)%N with 128%N in P7. lia. }
    rewrite read_int_correct; auto. 2:{ red. simpl. repeat split; lia. }
    cbn [obind]. rewrite shl_c_1 by lia. cbn [obind]. change (64 * 0 + (off + l + 1 + l)) with (off + l + 1 + l).
    set (y := (field [x] (off + l + 1 + l) (len - 1) + 2 ^ N.of_nat (len - 1))%N).
    destruct (IHfuel x lim maxi (off + l + 1 + l + len - 1) (num + 1) (val + y)%N Hx Hl ltac:(lia) ltac:(lia) Hk2) as [ys [o [Ry [Cy [Oy Ky]]]]].
    exists (y :: ys), o. rewrite Ry. split.
    { cbn [length]. change (nsum (y :: ys)) with (y + nsum ys)%N. do 2 f_equal; [f_equal; lia|lia]. }
    split; [|split; auto]. 2:{ cbn [length]. destruct maxi; auto. lia. }
    exists (off + l + 1 + l + len - 1). split; auto. exists l, (len - 1). split; [exact L6|]. split; auto. split.
    { replace (len - 1 + 1) with len by lia. lia. }
    split; [lia|]. split; [lia|]. split; [|lia].
    rewrite hb_lt by lia. unfold y. do 2 f_equal. lia.
Qed.

Lemma g_T16 : forall x, (x < 2 ^ 16)%N -> exists ys o, eg_t16 x = Some (tpack 24 16 (o, length ys, nsum ys)) /\ codes gcode [x] 0 ys o /\ o <= 16.
Proof.
  intros x Hx. unfold eg_t16. destruct (eg_tab_ok 17 x 16 None 0 0 0 Hx ltac:(lia) ltac:(lia) ltac:(lia) I) as [ys [o [-> [C [O _]]]]].
  exists ys, o. auto.
Qed.
Lemma g_T8 : forall k x, 1 <= k <= 8 -> (x < 2 ^ 8)%N -> exists ys o, eg_t8 k x = Some (tpack 12 8 (o, length ys, nsum ys)) /\ codes gcode [x] 0 ys o /\ o <= 8 /\
  length ys <= k /\ (nsum ys < 2 ^ N.of_nat 8)%N.
Proof.
  intros k x Hk Hx. unfold eg_t8. destruct (eg_tab_ok 17 x 8 (Some k) 0 0 0 Hx ltac:(lia) ltac:(lia) ltac:(lia) ltac:(simpl; lia)) as [ys [o [-> [C [O K]]]]].
  exists ys, o. split; auto. split; auto. split; auto. split; auto.
  pose proof (codes_sum gcode g_CL g_CD g_CP g_CB g_C1 _ _ _ _ C). eapply N.lt_le_trans; [exact H|]. apply pow2_mono. lia.
Qed.
Lemma d_T16 : forall x, (x < 2 ^ 16)%N -> exists ys o, ed_t16 x = Some (tpack 24 16 (o, length ys, nsum ys)) /\ codes dcode [x] 0 ys o /\ o <= 16.
Proof.
  intros x Hx. unfold ed_t16. destruct (ed_tab_ok 17 x 16 None 0 0 0 Hx ltac:(lia) ltac:(lia) ltac:(lia) I) as [ys [o [-> [C [O _]]]]].
  exists ys, o. auto.
Qed.
Lemma d_tab8_small : forall k x, 1 <= k <= 8 -> (x < 256)%N ->
  match ed_tab 17 x 8 (Some k) 0 0 0 with Some (_, _, v) => (v <? 16)%N | None => false end = true.
Proof.
  intros k x Hk Hx.
  assert (A : forallb (fun k => forallb (fun x => match ed_tab 17 x 8 (Some k) 0 0 0 with Some (_, _, v) => (v <? 16)%N | None => false end)
     (map N.of_nat (seq 0 256))) (seq 1 8) = true) by (vm_compute; reflexivity).
  rewrite forallb_forall in A. specialize (A k ltac:(apply in_seq; lia)).
  apply (forall_byte (fun x => match ed_tab 17 x 8 (Some k) 0 0 0 with Some (_, _, v) => (v <? 16)%N | None => false end)); auto.
Qed.
Lemma d_T8 : forall k x, 1 <= k <= 8 -> (x < 2 ^ 8)%N -> exists ys o, ed_t8 k x = Some (tpack 8 4 (o, length ys, nsum ys)) /\ codes dcode [x] 0 ys o /\ o <= 8 /\
  length ys <= k /\ (nsum ys < 2 ^ N.of_nat 4)%N.
Proof.
  intros k x Hk Hx. unfold ed_t8. pose proof (d_tab8_small k x Hk Hx) as S.
  destruct (ed_tab_ok 17 x 8 (Some k) 0 0 0 Hx ltac:(lia) ltac:(lia) ltac:(lia) ltac:(simpl; lia)) as [ys [o [E [C [O K]]]]].
  rewrite E in *. exists ys, o. split; auto. split; auto. split; auto. split; auto.
  apply N.ltb_lt in S. rewrite N.add_0_l in S. exact S.
Qed.
