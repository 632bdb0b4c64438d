(** * Sequences of codewords in a memory. *)
From Coq Require Import NArith List Bool Arith Lia.
From Verif Require Import Base Bits SpecBits BitsProofs BitsProofs2 BitsProofs3 BitsMem IntVector AbsVec SpecCoder Coder CoderComma
  CoderProofs CoderProofs2 CoderProofs3 CoderCommaProofs.
Import ListNotations.

Lemma sum_list_nsum : forall xs, sum_list xs = nsum xs. Proof. reflexivity. Qed.
Lemma shift_like_ok : forall sh, shift_like sh -> shift_ok sh.
Proof. intros sh H k Hk. rewrite H, shl_c_1; auto. Qed.
Lemma shift64_def : forall sh, shift64_defined sh -> shift_def sh.
Proof. intros sh H. unfold shift_def. red in H. destruct (sh 1%N 64); [eauto|congruence]. Qed.
Lemma wpsums_running : forall xs a, wpsums (a mod W64) xs = map (fun i => ((a + nsum (firstn (S i) xs)) mod W64)%N) (seq 0 (length xs)).
Proof.
  induction xs as [|x r IH]; intros a; [reflexivity|]. simpl length. cbn [seq map wpsums]. rewrite wadd_mod. f_equal.
  - simpl firstn. change (nsum [x]) with (x + 0)%N. f_equal. lia.
  - rewrite IH, <- seq_shift, map_map. apply map_ext. intro i.
    change (nsum (firstn (S (S i)) (x :: r))) with (x + nsum (firstn (S i) r))%N. f_equal. lia.
Qed.
Lemma wpsums_0 : forall xs, wpsums 0 xs = running_sums xs.
Proof. intro xs. change 0%N with (0 mod W64)%N at 1. rewrite wpsums_running. apply map_ext. intro i. reflexivity. Qed.
Lemma running_last : forall xs, last (running_sums xs) 0%N = (sum_list xs mod 2 ^ 64)%N.
Proof.
  intro xs. unfold running_sums. destruct xs as [|x r] using rev_ind; [reflexivity|].
  rewrite app_length. change (length [x]) with 1. rewrite seq_app, map_app. cbn [seq map]. rewrite last_last.
  rewrite firstn_all2; auto. rewrite app_length. simpl. lia.
Qed.

Section Seq.
Variable code : code_t.
Hypothesis CL : forall m p x q m' p', code m p x q -> (forall k, p + k < q -> mbit m (p + k) = mbit m' (p' + k)) ->
  code m' p' x (p' + (q - p)).
Hypothesis CD : forall m p x q x' q', code m p x q -> code m p x' q' -> x = x' /\ q = q'.
Hypothesis CP : forall m p x q, code m p x q -> p < q.
Variable len1 : N -> nat.
Variable enc1 : mem -> nat -> nat -> N -> option (mem * nat * nat).
Hypothesis E1 : enc1_ok code len1 enc1.
Variable sh : N -> nat -> option N.
Variable dec1 : mem -> nat -> nat -> option (N * nat * nat).
Hypothesis D1 : dec1_ok code sh dec1.
Variable psum : mem -> nat -> nat -> option N.
Variable slack : nat.
Hypothesis PS : forall m start ys q, words_ok m -> codes code m start ys q -> q + slack <= 64 * length m -> Forall is_word ys ->
  (Forall (fun x => x <> 0%N) ys \/ shift_def sh) -> psum m start (length ys) = Some (nsum ys mod W64)%N.

Lemma seq_ok : forall xs ys zs m w off, words_ok m -> off < 64 -> Forall is_word (xs ++ ys ++ zs) ->
  64 * w + off + list_sum (map len1 (xs ++ ys ++ zs)) <= 64 * length m ->
  let start := 64 * w + off + list_sum (map len1 xs) in
  let stop := start + list_sum (map len1 ys) in
  let endp := 64 * w + off + list_sum (map len1 (xs ++ ys ++ zs)) in
  exists m' w' off', enc_all enc1 m w off (xs ++ ys ++ zs) = Some (m', w', off') /\
    64 * w' + off' = endp /\ off' < 64 /\ length m' = length m /\ words_ok m' /\
    same_outside (64 * w + off) endp (mbit m') (mbit m) /\
    (no_zero ys \/ shift_def sh ->
      cd_decode_n dec1 false m' start (length ys) = Some ys /\
      cd_decode_n dec1 true m' start (length ys) = Some (running_sums ys) /\
      (stop + slack <= 64 * length m -> psum m' start (length ys) = Some (sum_list ys mod 2 ^ 64)%N)).
Proof.
  intros xs ys zs m w off Hm Ho Hw L start stop endp.
  destruct (enc_all_ok code CL CD CP len1 enc1 E1 (xs ++ ys ++ zs) m w off Hm Ho Hw L) as [m' [w' [o' [R [Lm [Wm [P [O [F K]]]]]]]]].
  exists m', w', o'. split; auto. split; auto. split; auto. split; auto. split; auto. split; [exact F|].
  intro Z. apply codes_app in K. destruct K as [a [Ka K]]. apply codes_app in K. destruct K as [b [Kb K]].
  (* position of the segments *)
  assert (A : a = start /\ b = stop).
  { clear Z.
    assert (G : forall us m1 w1 o1, words_ok m1 -> o1 < 64 -> Forall is_word us -> 64 * w1 + o1 + list_sum (map len1 us) <= 64 * length m1 ->
       forall m2 w2 o2, enc_all enc1 m1 w1 o1 us = Some (m2, w2, o2) -> forall us1 us2 c, us = us1 ++ us2 -> codes code m2 (64 * w1 + o1) us1 c ->
         c = 64 * w1 + o1 + list_sum (map len1 us1)).
    { induction us as [|u us IH]; intros m1 w1 o1 H1 H2 H3 H4 m2 w2 o2 H5 us1 us2 c H6 H7.
      - destruct us1; [|discriminate]. simpl in *. lia.
      - destruct us1 as [|v us1]. { simpl in *. lia. }
        injection H6 as -> H6. inversion_clear H3. change (list_sum (map len1 (v :: us))) with (len1 v + list_sum (map len1 us)) in H4.
        destruct (E1 m1 w1 o1 v H1 H2 H ltac:(lia)) as [n1 [x1 [y1 [R1 [L1 [W1 [P1 [O1 [F1 K1]]]]]]]]].
        simpl in H5. rewrite R1 in H5. cbn [obind] in H5.
        destruct (enc_all_ok code CL CD CP len1 enc1 E1 us n1 x1 y1 W1 O1 H0 ltac:(lia)) as [n2 [x2 [y2 [R2 [L2 [W2 [P2 [O2 [F2 K2]]]]]]]]].
        rewrite R2 in H5. injection H5 as -> -> ->.
        destruct H7 as [r [A B]].
        assert (K1' : code m2 (64 * w1 + o1) v (64 * w1 + o1 + (64 * w1 + o1 + len1 v - (64 * w1 + o1)))).
        { apply CL with (m := n1); auto. intros. symmetry. apply F2. lia. }
        destruct (CD _ _ _ _ _ _ A K1') as [_ ->].
        change (list_sum (map len1 (v :: us1))) with (len1 v + list_sum (map len1 us1)).
        replace (64 * w1 + o1 + (len1 v + list_sum (map len1 us1))) with (64 * x1 + y1 + list_sum (map len1 us1)) by lia.
        apply (IH n1 x1 y1 W1 O1 H0 ltac:(lia) m2 w2 o2 R2 us1 us2 c H6).
        replace (64 * x1 + y1) with (64 * w1 + o1 + (64 * w1 + o1 + len1 v - (64 * w1 + o1))) by lia. auto. }
    assert (G1 := G (xs ++ ys ++ zs) m w off Hm Ho Hw L m' w' o' R xs (ys ++ zs) a eq_refl Ka).
    assert (G2 := G (xs ++ ys ++ zs) m w off Hm Ho Hw L m' w' o' R (xs ++ ys) zs b).
    rewrite <- app_assoc in G2. specialize (G2 eq_refl). rewrite map_app, list_sum_app in G2.
    assert (codes code m' (64 * w + off) (xs ++ ys) b) by (apply codes_app; eauto). specialize (G2 H).
    unfold start, stop. lia. }
  destruct A as [-> ->].
  pose proof (codes_le code CL CD CP _ _ _ _ K). 
  assert (SB : stop <= 64 * length m'). { rewrite Lm. unfold endp in *. lia. }
  apply Forall_app in Hw. destruct Hw as [_ Hw]. apply Forall_app in Hw. destruct Hw as [Hy _].
  unfold cd_decode_n. replace start with (64 * (start / 64) + start mod 64) in Kb by lia.
  assert (SM : start mod 64 < 64) by lia.
  split; [|split].
  - rewrite (dec_all_ok code CL CD CP sh dec1 D1 false ys m' _ _ stop 0%N Wm SM Kb SB Hy Z). auto.
  - rewrite (dec_all_ok code CL CD CP sh dec1 D1 true ys m' _ _ stop 0%N Wm SM Kb SB Hy Z). rewrite wpsums_0. auto.
  - intro SL. replace (64 * (start / 64) + start mod 64) with start in Kb by lia.
    rewrite (PS m' start ys stop); auto. lia.
Qed.
End Seq.

(** ** instances *)
Lemma eg_seq : forall sh, shift_like sh -> forall xs ys zs m w off, words_ok m -> off < 64 -> Forall is_word (xs ++ ys ++ zs) ->
  64 * w + off + list_sum (map eg_len (xs ++ ys ++ zs)) <= 64 * length m ->
  let start := 64 * w + off + list_sum (map eg_len xs) in
  let stop := start + list_sum (map eg_len ys) in
  let endp := 64 * w + off + list_sum (map eg_len (xs ++ ys ++ zs)) in
  exists m' w' off', enc_all eg_enc1 m w off (xs ++ ys ++ zs) = Some (m', w', off') /\
    64 * w' + off' = endp /\ off' < 64 /\ length m' = length m /\ words_ok m' /\
    same_outside (64 * w + off) endp (mbit m') (mbit m) /\
    (no_zero ys \/ shift64_defined sh ->
      cd_decode_n (eg_dec1 sh) false m' start (length ys) = Some ys /\
      cd_decode_n (eg_dec1 sh) true m' start (length ys) = Some (running_sums ys) /\
      (stop + 64 <= 64 * length m -> eg_prefix_sum sh m' start (length ys) = Some (sum_list ys mod 2 ^ 64)%N)).
Proof.
  intros sh S xs ys zs m w off Hm Ho Hw L. apply shift_like_ok in S.
  pose proof (seq_ok gcode g_CL g_CD g_CP eg_len eg_enc1 g_E1 sh (eg_dec1 sh) (g_D1 sh S) (eg_prefix_sum sh) 64) as Q.
  cbv zeta in *. destruct (Q ltac:(intros; apply (dps_ok gcode g_CL g_CD g_CP g_CB g_C1 sh eg_t16 eg_t8 8 12 (eg_single sh) eq_refl g_T16 g_T8 (g_single sh S) _ _ _ q); auto; lia)
    xs ys zs m w off Hm Ho Hw L) as [m' [w' [o' [A [B [C [D [E [F G]]]]]]]]].
  exists m', w', o'. repeat (split; [assumption|]). intros Z. apply G. destruct Z as [Z|Z]; auto. right. apply shift64_def; auto.
Qed.
Lemma ed_seq : forall sh, shift_like sh -> forall xs ys zs m w off, words_ok m -> off < 64 -> Forall is_word (xs ++ ys ++ zs) ->
  64 * w + off + list_sum (map ed_len (xs ++ ys ++ zs)) <= 64 * length m ->
  let start := 64 * w + off + list_sum (map ed_len xs) in
  let stop := start + list_sum (map ed_len ys) in
  let endp := 64 * w + off + list_sum (map ed_len (xs ++ ys ++ zs)) in
  exists m' w' off', enc_all ed_enc1 m w off (xs ++ ys ++ zs) = Some (m', w', off') /\
    64 * w' + off' = endp /\ off' < 64 /\ length m' = length m /\ words_ok m' /\
    same_outside (64 * w + off) endp (mbit m') (mbit m) /\
    (no_zero ys \/ shift64_defined sh ->
      cd_decode_n (ed_dec1 sh) false m' start (length ys) = Some ys /\
      cd_decode_n (ed_dec1 sh) true m' start (length ys) = Some (running_sums ys) /\
      (stop + 64 <= 64 * length m -> ed_prefix_sum sh m' start (length ys) = Some (sum_list ys mod 2 ^ 64)%N)).
Proof.
  intros sh S xs ys zs m w off Hm Ho Hw L. apply shift_like_ok in S.
  pose proof (seq_ok dcode d_CL d_CD d_CP ed_len ed_enc1 d_E1 sh (ed_dec1 sh) (d_D1 sh S) (ed_prefix_sum sh) 64) as Q.
  cbv zeta in *. destruct (Q ltac:(intros; apply (dps_ok dcode d_CL d_CD d_CP d_CB d_C1 sh ed_t16 ed_t8 4 8 (ed_single sh) eq_refl d_T16 d_T8 (d_single sh S) _ _ _ q); auto; lia)
    xs ys zs m w off Hm Ho Hw L) as [m' [w' [o' [A [B [C [D [E [F G]]]]]]]]].
  exists m', w', o'. repeat (split; [assumption|]). intros Z. apply G. destruct Z as [Z|Z]; auto. right. apply shift64_def; auto.
Qed.
Lemma cm_psum_ok : forall t, 2 <= t <= 30 -> forall m start ys q, words_ok m -> codes (ccode t) m start ys q -> q <= 64 * length m -> Forall is_word ys ->
  cm_prefix_sum t m start (length ys) = Some (nsum ys mod W64)%N.
Proof.
  intros t T m start ys q Hm C L Hy. unfold cm_prefix_sum, cd_decode_n.
  replace start with (64 * (start / 64) + start mod 64) in C by lia.
  rewrite (dec_all_ok (ccode t) (c_CL t T) (c_CD t T) (c_CP t T) _ _ (c_D1 t T) true ys m (start / 64) (start mod 64) q 0%N Hm ltac:(lia) C L Hy).
  2:{ right. exists 0%N. auto. }
  cbn [obind]. rewrite wpsums_0, running_last. reflexivity.
Qed.
Lemma cm_seq : forall t, 2 <= t <= 30 -> forall xs ys zs m w off, words_ok m -> off < 64 -> Forall is_word (xs ++ ys ++ zs) ->
  64 * w + off + list_sum (map (cm_len t) (xs ++ ys ++ zs)) <= 64 * length m ->
  let start := 64 * w + off + list_sum (map (cm_len t) xs) in
  let endp := 64 * w + off + list_sum (map (cm_len t) (xs ++ ys ++ zs)) in
  exists m' w' off', enc_all (cm_enc1 t) m w off (xs ++ ys ++ zs) = Some (m', w', off') /\
    64 * w' + off' = endp /\ off' < 64 /\ length m' = length m /\ words_ok m' /\
    same_outside (64 * w + off) endp (mbit m') (mbit m) /\
    cd_decode_n (cm_dec1 t) false m' start (length ys) = Some ys /\
    cd_decode_n (cm_dec1 t) true m' start (length ys) = Some (running_sums ys) /\
    cm_prefix_sum t m' start (length ys) = Some (sum_list ys mod 2 ^ 64)%N.
Proof.
  intros t T xs ys zs m w off Hm Ho Hw L.
  pose proof (seq_ok (ccode t) (c_CL t T) (c_CD t T) (c_CP t T) (cm_len t) (cm_enc1 t) (c_E1 t T) _ (cm_dec1 t) (c_D1 t T) (cm_prefix_sum t) 0) as Q.
  cbv zeta in *. destruct (Q ltac:(intros; apply (cm_psum_ok t T _ _ _ q); auto; lia) xs ys zs m w off Hm Ho Hw L) as [m' [w' [o' [A [B [C [D [E [F G]]]]]]]]].
  exists m', w', o'. repeat (split; [assumption|]). destruct G as [G1 [G2 G3]]. { right. exists 0%N. auto. }
  split; auto. split; auto. apply G3. rewrite !map_app, !list_sum_app in L. lia.
Qed.

Lemma eg_roundtrip : forall sh g width xs, shift_like sh -> 1 <= width <= 64 -> Forall (fun x => (x < 2 ^ N.of_nat width)%N) xs ->
  (forall i, is_word (g i)) -> (width < 64 \/ no_zero xs \/ shift64_defined sh) ->
  exists m bits, eg_encode g width xs = Some (m, bits) /\ length m = bits / 64 + 1 /\ eg_decode sh width m bits = Some xs.
Proof.
  intros sh g width xs S Hw Hx Hg Z.
  destruct (cd_roundtrip gcode g_CL g_CD g_CP eg_len eg_enc1 g_E1 sh (eg_dec1 sh) (g_D1 sh (shift_like_ok _ S)) eg_skip1 g_S1 g width xs Hw Hx Hg) as [m [bits [A [B [C [D E]]]]]].
  { destruct Z as [Z|[Z|Z]]; auto. right. right. apply shift64_def; auto. }
  exists m, bits. auto.
Qed.
Lemma ed_roundtrip : forall sh g width xs, shift_like sh -> 1 <= width <= 64 -> Forall (fun x => (x < 2 ^ N.of_nat width)%N) xs ->
  (forall i, is_word (g i)) -> (width < 64 \/ no_zero xs \/ shift64_defined sh) ->
  exists m bits, ed_encode g width xs = Some (m, bits) /\ length m = bits / 64 + 1 /\ ed_decode sh width m bits = Some xs.
Proof.
  intros sh g width xs S Hw Hx Hg Z.
  destruct (cd_roundtrip dcode d_CL d_CD d_CP ed_len ed_enc1 d_E1 sh (ed_dec1 sh) (d_D1 sh (shift_like_ok _ S)) ed_skip1 d_S1 g width xs Hw Hx Hg) as [m [bits [A [B [C [D E]]]]]].
  { destruct Z as [Z|[Z|Z]]; auto. right. right. apply shift64_def; auto. }
  exists m, bits. auto.
Qed.
Lemma cm_roundtrip' : forall t g width xs, 2 <= t <= 30 -> 1 <= width <= 64 -> Forall (fun x => (x < 2 ^ N.of_nat width)%N) xs ->
  (forall i, is_word (g i)) ->
  exists m bits, cm_encode t g xs = Some (m, bits) /\ length m = bits / 64 + 1 /\ cm_decode t width m bits = Some (Some xs).
Proof. intros t g width xs T Hw Hx Hg. destruct (cm_roundtrip t T g width xs Hw Hx Hg) as [m [bits [A [B [C [D E]]]]]]. exists m, bits. auto. Qed.

(** lengths *)
Lemma eg_len_ok : forall x, is_word x -> x <> 0%N -> eg_len x = 2 * N.to_nat (N.log2 x) + 1.
Proof. intros x H Z. unfold eg_len. replace (x =? 0)%N with false by lia. rewrite hi_correct; auto. Qed.
Lemma ed_len_ok : forall x, is_word x -> x <> 0%N ->
  ed_len x = N.to_nat (N.log2 x) + 2 * N.to_nat (N.log2 (N.log2 x + 1)) + 1.
Proof.
  intros x H Z. unfold ed_len. replace (x =? 0)%N with false by lia. rewrite hi_correct by auto. do 4 f_equal.
  pose proof (hi_lt64 x H) as HL. rewrite hi_correct in HL by auto.
  rewrite hi_correct. { f_equal. lia. } red. rewrite W64_pow. apply N.lt_le_trans with 65%N; [lia|]. discriminate.
Qed.
Lemma cm_len_spec : forall t x, 2 <= t <= 30 -> is_word x -> exists k, cm_len t x = (k + 1) * t /\
  (x < (2 ^ N.of_nat t - 1) ^ N.of_nat k)%N /\ (x <> 0%N -> ((2 ^ N.of_nat t - 1) ^ N.of_nat (k - 1) <= x)%N) /\ (x = 0%N -> k = 0).
Proof.
  intros t x T H. exists (ndig t 64 x). rewrite cm_len_ok by auto. split; auto.
  destruct (ndig_spec t T 64 x H) as [A B]. split; auto. split; [intro; apply B; auto|]. intros ->. reflexivity.
Qed.
