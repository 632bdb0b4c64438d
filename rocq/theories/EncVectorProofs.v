(** * A uniform contract for the coders *)
From Coq Require Import NArith List Bool Arith Lia.
From Verif Require Import Base Bits SpecBits BitsProofs BitsProofs2 BitsProofs3 BitsMem IntVector AbsVec Coder CoderProofs CoderProofs2 CoderProofs3 CoderComma CoderCommaProofs SpecCoder CoderProofs4 EncVector SpecEnc.
Import ListNotations.

Definition coder_law (c : coder) (slack : nat) (zok : Prop) : Prop :=
  forall l m, words_ok m -> Forall is_word l -> list_sum (map (c_len c) l) <= 64 * length m ->
  exists m' w' o', enc_all (c_enc c) m 0 0 l = Some (m', w', o') /\ length m' = length m /\ words_ok m' /\
    forall xs ys zs after, l = xs ++ ys ++ zs -> words_ok after -> (no_zero ys \/ zok) ->
      let start := list_sum (map (c_len c) xs) in
      let stop := start + list_sum (map (c_len c) ys) in
      cd_decode_n (c_dec c) false (m' ++ after) start (length ys) = Some ys /\
      cd_decode_n (c_dec c) true (m' ++ after) start (length ys) = Some (running_sums ys) /\
      (stop + 64 * slack <= 64 * length (m' ++ after) -> c_psum c (m' ++ after) start (length ys) = Some (sum_list ys mod W64)%N).

Lemma mbit_app : forall m a k, k < 64 * length m -> mbit (m ++ a) k = mbit m k.
Proof. intros. unfold mbit. rewrite app_nth1; auto. apply Nat.div_lt_upper_bound; lia. Qed.

Section Law.
Variable code : code_t.
Hypothesis CL : forall m p x q m' p', code m p x q -> (forall k, p + k < q -> mbit m (p + k) = mbit m' (p' + k)) ->
  code m' p' x (p' + (q - p)).
Hypothesis CD : forall m p x q x' q', code m p x q -> code m p x' q' -> x = x' /\ q = q'.
Hypothesis CP : forall m p x q, code m p x q -> p < q.
Variable len1 : N -> nat.
Variable enc1 : mem -> nat -> nat -> N -> option (mem * nat * nat).
Hypothesis E1 : enc1_ok code len1 enc1.
Variable sh : N -> nat -> option N.
Variable dec1 : mem -> nat -> nat -> option (N * nat * nat).
Hypothesis D1 : dec1_ok code sh dec1.
Variable psum : mem -> nat -> nat -> option N.
Variable slack : nat.
Hypothesis PS : forall m start ys q, words_ok m -> codes code m start ys q -> q + 64 * slack <= 64 * length m -> Forall is_word ys ->
  (Forall (fun x => x <> 0%N) ys \/ shift_def sh) -> psum m start (length ys) = Some (nsum ys mod W64)%N.

Lemma enc_pos : forall us m1 w1 o1, words_ok m1 -> o1 < 64 -> Forall is_word us -> 64 * w1 + o1 + list_sum (map len1 us) <= 64 * length m1 ->
  forall m2 w2 o2, enc_all enc1 m1 w1 o1 us = Some (m2, w2, o2) -> forall us1 us2 c, us = us1 ++ us2 -> codes code m2 (64 * w1 + o1) us1 c ->
  c = 64 * w1 + o1 + list_sum (map len1 us1).
Proof.
  induction us as [|u us IH]; intros m1 w1 o1 H1 H2 H3 H4 m2 w2 o2 H5 us1 us2 c H6 H7.
  - destruct us1; [|discriminate]. simpl in *. lia.
  - destruct us1 as [|v us1]. { simpl in *. lia. }
    injection H6 as -> H6. inversion_clear H3. change (list_sum (map len1 (v :: us))) with (len1 v + list_sum (map len1 us)) in H4.
    destruct (E1 m1 w1 o1 v H1 H2 H ltac:(lia)) as [n1 [x1 [y1 [R1 [L1 [W1 [P1 [O1 [F1 K1]]]]]]]]].
    simpl in H5. rewrite R1 in H5. cbn [obind] in H5.
    destruct (enc_all_ok code CL CD CP len1 enc1 E1 us n1 x1 y1 W1 O1 H0 ltac:(lia)) as [n2 [x2 [y2 [R2 [L2 [W2 [P2 [O2 [F2 K2]]]]]]]]].
    rewrite R2 in H5. injection H5 as -> -> ->.
    destruct H7 as [r [A B]].
    assert (K1' : code m2 (64 * w1 + o1) v (64 * w1 + o1 + (64 * w1 + o1 + len1 v - (64 * w1 + o1)))).
    { apply CL with (m := n1); auto. intros. symmetry. apply F2. lia. }
    destruct (CD _ _ _ _ _ _ A K1') as [_ ->].
    change (list_sum (map len1 (v :: us1))) with (len1 v + list_sum (map len1 us1)).
    replace (64 * w1 + o1 + (len1 v + list_sum (map len1 us1))) with (64 * x1 + y1 + list_sum (map len1 us1)) by lia.
    apply (IH n1 x1 y1 W1 O1 H0 ltac:(lia) m2 w2 o2 R2 us1 us2 c H6).
    replace (64 * x1 + y1) with (64 * w1 + o1 + (64 * w1 + o1 + len1 v - (64 * w1 + o1))) by lia. auto.
Qed.

Lemma law : coder_law (mkcoder len1 enc1 dec1 psum) slack (shift_def sh).
Proof.
  intros l m Hm Hl L. cbn [c_len c_enc c_dec c_psum] in *.
  destruct (enc_all_ok code CL CD CP len1 enc1 E1 l m 0 0 Hm ltac:(lia) Hl ltac:(lia)) as [m' [w' [o' [R [Lm [Wm [P [O [F K]]]]]]]]].
  exists m', w', o'. split; auto. split; auto. split; auto.
  intros xs ys zs after E Wa Z. remember (list_sum (map len1 xs)) as start eqn:ES.
  remember (start + list_sum (map len1 ys)) as stop eqn:EP. subst l. change (64 * 0 + 0) with 0 in *.
  assert (K0 := K). apply codes_app in K. destruct K as [a [Ka K]]. apply codes_app in K. destruct K as [b [Kb K]].
  assert (A : a = start /\ b = stop).
  { pose proof (enc_pos (xs ++ ys ++ zs) m 0 0 Hm ltac:(lia) Hl ltac:(lia) m' w' o' R xs (ys ++ zs) a eq_refl Ka) as G1.
    pose proof (enc_pos (xs ++ ys ++ zs) m 0 0 Hm ltac:(lia) Hl ltac:(lia) m' w' o' R (xs ++ ys) zs b) as G2.
    rewrite <- app_assoc in G2. specialize (G2 eq_refl). rewrite map_app, list_sum_app in G2.
    assert (codes code m' (64 * 0 + 0) (xs ++ ys) b) by (apply codes_app; eauto). specialize (G2 H).
    lia. }
  destruct A as [-> ->].
  pose proof (codes_le code CL CD CP _ _ _ _ K).
  assert (SB : stop <= 64 * length m') by (rewrite Lm; lia).
  apply Forall_app in Hl. destruct Hl as [_ Hl]. apply Forall_app in Hl. destruct Hl as [Hy _].
  assert (Kc : codes code (m' ++ after) start ys stop).
  { apply (codes_same code CL CD CP) with (m := m'); auto. intros. symmetry. apply mbit_app. lia. }
  assert (WW : words_ok (m' ++ after)) by (apply Forall_app; auto).
  assert (SB2 : stop <= 64 * length (m' ++ after)) by (rewrite app_length; lia).
  unfold cd_decode_n. assert (Kd := Kc). replace start with (64 * (start / 64) + start mod 64) in Kd by lia.
  assert (SM : start mod 64 < 64) by lia.
  split; [|split].
  - rewrite (dec_all_ok code CL CD CP sh dec1 D1 false ys (m' ++ after) _ _ stop 0%N WW SM Kd SB2 Hy Z). auto.
  - rewrite (dec_all_ok code CL CD CP sh dec1 D1 true ys (m' ++ after) _ _ stop 0%N WW SM Kd SB2 Hy Z). rewrite wpsums_0. auto.
  - intro SL. rewrite (PS (m' ++ after) start ys stop); auto.
Qed.
End Law.

Lemma coder_law_ok : forall sh c k, shift_like sh -> sdsl_coder sh c k -> coder_law c k (shift64_defined sh \/ is_comma_code c).
Proof.
  assert (MONO : forall c k (P Q : Prop), (Q -> P) -> coder_law c k P -> coder_law c k Q).
  { intros c k P Q I L l m H1 H2 H3. destruct (L l m H1 H2 H3) as [m' [w' [o' [A [B [C D]]]]]]. exists m', w', o'.
    repeat (split; [assumption|]). intros xs ys zs after E W Z. apply (D xs ys zs after E W). tauto. }
  intros sh c k S0 H. pose proof (shift_like_ok _ S0) as S1. destruct H as [| |t T].
  - apply MONO with (P := shift_def sh).
    { intros [H|[t [T H]]]; [apply shift64_def; auto|]. exfalso. unfold elias_gamma, comma in H. injection H. intros _ _ _ H1.
      pose proof (f_equal (fun f => f 1%N) H1) as H3. clear - T H3.
      cbv beta in H3. change (eg_len 1%N) with 1 in H3. unfold cm_len in H3. nia. }
    apply (law gcode g_CL g_CD g_CP eg_len eg_enc1 g_E1 sh (eg_dec1 sh) (g_D1 sh S1) (eg_prefix_sum sh) 1).
    intros. apply (dps_ok gcode g_CL g_CD g_CP g_CB g_C1 sh eg_t16 eg_t8 8 12 (eg_single sh) eq_refl g_T16 g_T8 (g_single sh S1) _ _ _ q); auto; lia.
  - apply MONO with (P := shift_def sh).
    { intros [H|[t [T H]]]; [apply shift64_def; auto|]. exfalso. unfold elias_delta, comma in H. injection H. intros _ _ _ H1.
      pose proof (f_equal (fun f => f 1%N) H1) as H3. clear - T H3.
      cbv beta in H3. change (ed_len 1%N) with 1 in H3. unfold cm_len in H3. nia. }
    apply (law dcode d_CL d_CD d_CP ed_len ed_enc1 d_E1 sh (ed_dec1 sh) (d_D1 sh S1) (ed_prefix_sum sh) 1).
    intros. apply (dps_ok dcode d_CL d_CD d_CP d_CB d_C1 sh ed_t16 ed_t8 4 8 (ed_single sh) eq_refl d_T16 d_T8 (d_single sh S1) _ _ _ q); auto; lia.
  - apply MONO with (P := shift_def (fun _ _ => Some 0%N)).
    { intros _. exists 0%N. auto. }
    apply (law (ccode t) (c_CL t T) (c_CD t T) (c_CP t T) (cm_len t) (cm_enc1 t) (c_E1 t T) _ (cm_dec1 t) (c_D1 t T) (cm_prefix_sum t) 0).
    intros. apply (cm_psum_ok t T _ _ _ q); auto; lia.
Qed.

(** every code word has at most 200 bits *)
Lemma eg_len_le : forall x, is_word x -> eg_len x <= 200.
Proof. intros x H. unfold eg_len. destruct (x =? 0)%N; [lia|]. pose proof (hi_lt64 x H). lia. Qed.
Lemma hi_small : forall k, k <= 65 -> N.to_nat (hi (N.of_nat k)) < 64.
Proof. intros k H. assert (is_word (N.of_nat k)). { red. rewrite W64_pow. apply N.le_lt_trans with 65%N; [lia|]. reflexivity. } pose proof (hi_lt64 _ H0). lia. Qed.
Lemma ed_len_le : forall x, is_word x -> ed_len x <= 200.
Proof.
  intros x H. unfold ed_len. pose proof (hi_lt64 x H).
  pose proof (hi_small ((if (x =? 0)%N then 64 else N.to_nat (hi x)) + 1)). destruct (x =? 0)%N; lia.
Qed.
Lemma cm_len_le : forall t x, 2 <= t <= 30 -> is_word x -> cm_len t x <= 200.
Proof.
  intros t x T H. destruct (cm_len_spec t x T H) as [k [-> [A [B C]]]].
  destruct (N.eq_dec x 0) as [Z|Z]. { rewrite (C Z). lia. }
  specialize (B Z). assert (D : (2 ^ N.of_nat ((t - 1) * (k - 1)) < 2 ^ 64)%N).
  { eapply N.le_lt_trans; [|eapply N.le_lt_trans; [exact B|]].
    - rewrite Nat2N.inj_mul, N.pow_mul_r. apply N.pow_le_mono_l.
      replace t with (S (t - 1)) at 2 by lia. rewrite pow2_S. pose proof (pow2_pos (t - 1)). lia.
    - red in H. rewrite W64_pow in H. auto. }
  apply N.pow_lt_mono_r_iff in D; [|lia]. clear A B C.
  destruct k; [lia|]. replace (S k - 1) with k in D by lia. nia.
Qed.
Lemma len_le : forall sh c k x, sdsl_coder sh c k -> is_word x -> c_len c x <= 200.
Proof. intros sh c k x H W. destruct H; cbn; [apply eg_len_le|apply ed_len_le|apply cm_len_le]; auto. Qed.
