(** * Proofs about Coder.v: codewords, the generic machinery. *)
From Coq Require Import NArith List Bool Arith Lia.
From Verif Require Import Base Bits SpecBits BitsProofs BitsProofs2 BitsProofs3 BitsMem IntVector AbsVec Coder.
Import ListNotations.

Definition shift_ok (sh : N -> nat -> option N) : Prop := forall k, k < 64 -> sh 1%N k = shl_c 1 k.
Definition shift_def (sh : N -> nat -> option N) : Prop := exists y, sh 1%N 64 = Some y.
Definition code_t := mem -> nat -> N -> nat -> Prop.
Fixpoint codes (code : code_t) (m : mem) (p : nat) (xs : list N) (q : nat) : Prop :=
  match xs with
  | [] => p = q
  | x :: t => exists r, code m p x r /\ codes code m r t q
  end.
Definition hb (l : nat) : N := if l <? 64 then (2 ^ N.of_nat l)%N else 0%N.

Lemma shl_c_1 : forall k, k < 64 -> shl_c 1 k = Some (2 ^ N.of_nat k)%N.
Proof.
  intros. rewrite shl_c_some by auto. f_equal. rewrite shl_mul, N.mul_1_l. apply N.mod_small.
  rewrite W64_pow. apply N.pow_lt_mono_r; lia.
Qed.
Lemma pow2_le_W : forall k, k <= 64 -> (2 ^ N.of_nat k <= W64)%N.
Proof. intros. rewrite W64_pow. apply N.pow_le_mono_r; lia. Qed.
Lemma pow2_pos : forall k, (0 < 2 ^ N.of_nat k)%N.
Proof. intros. apply N.neq_0_lt_0, N.pow_nonzero. discriminate. Qed.
Lemma pow2_S : forall k, (2 ^ N.of_nat (S k) = 2 * 2 ^ N.of_nat k)%N.
Proof. intros. rewrite Nat2N.inj_succ, N.pow_succ_r'. auto. Qed.
Lemma pow2_mono : forall a b, a <= b -> (2 ^ N.of_nat a <= 2 ^ N.of_nat b)%N.
Proof. intros. apply N.pow_le_mono_r; lia. Qed.

Lemma nsum_repeat1 : forall k, nsum (repeat 1%N k) = N.of_nat k.
Proof.
  induction k; [auto|]. simpl repeat. change (nsum (1%N :: repeat 1%N k)) with (1 + nsum (repeat 1%N k))%N. lia.
Qed.

Lemma cd_zero_word : forall width x, 1 <= width <= 64 -> (x < 2 ^ N.of_nat width)%N ->
  is_word (cd_zero width x) /\ (cd_zero width x mod 2 ^ N.of_nat width = x)%N /\ (cd_zero width x = 0%N -> width = 64 /\ x = 0%N).
Proof.
  intros width x Hw Hx. unfold cd_zero. destruct (N.eqb_spec x 0).
  - subst. destruct (Nat.ltb_spec width 64).
    + pose proof (shl_c_1 width H). rewrite shl_c_some in H0 by auto. apply some_inj in H0. rewrite H0.
      split; [|split].
      * red. rewrite W64_pow. apply N.pow_lt_mono_r; lia.
      * apply N.mod_same. pose proof (pow2_pos width). lia.
      * intro Z. pose proof (pow2_pos width). lia.
    + split; [apply is_word_0|]. split; auto. intros. split; auto. lia.
  - split; [|split].
    + red. pose proof (pow2_le_W width ltac:(lia)). lia.
    + apply N.mod_small. auto.
    + intros; contradiction.
Qed.
Section Gen.
Variable code : code_t.
Hypothesis CL : forall m p x q m' p', code m p x q -> (forall k, p + k < q -> mbit m (p + k) = mbit m' (p' + k)) ->
  code m' p' x (p' + (q - p)).
Hypothesis CD : forall m p x q x' q', code m p x q -> code m p x' q' -> x = x' /\ q = q'.
Hypothesis CP : forall m p x q, code m p x q -> p < q.

Lemma codes_le : forall xs m p q, codes code m p xs q -> p + length xs <= q.
Proof.
  induction xs as [|x t IH]; intros m p q H; simpl in H. { subst. simpl. lia. }
  destruct H as [r [A B]]. apply CP in A. apply IH in B. simpl. lia.
Qed.
Lemma codes_app : forall xs ys m p q, codes code m p (xs ++ ys) q <->
  exists r, codes code m p xs r /\ codes code m r ys q.
Proof.
  induction xs as [|x t IH]; intros; simpl.
  - split. { intro H. exists p. auto. } intros [r [A B]]. subst. auto.
  - split.
    + intros [r [A B]]. apply IH in B. destruct B as [s [B C]]. exists s. split; auto. exists r. auto.
    + intros [s [[r [A B]] C]]. exists r. split; auto. apply IH. exists s. auto.
Qed.
Lemma codes_local : forall xs m p q m' p', codes code m p xs q ->
  (forall k, p + k < q -> mbit m (p + k) = mbit m' (p' + k)) -> codes code m' p' xs (p' + (q - p)).
Proof.
  induction xs as [|x t IH]; intros m p q m' p' H E; simpl in *.
  - lia.
  - destruct H as [r [A B]]. pose proof (CP _ _ _ _ A). pose proof (codes_le _ _ _ _ B).
    exists (p' + (r - p)). split.
    + apply CL with (m := m); auto. intros. apply E. lia.
    + replace (p' + (q - p)) with (p' + (r - p) + (q - r)) by lia. apply IH with (m := m); auto.
      intros k Hk. replace (r + k) with (p + (r - p + k)) by lia. rewrite E by lia. f_equal. lia.
Qed.
Lemma codes_same : forall xs m p q m', codes code m p xs q ->
  (forall k, p <= k < q -> mbit m k = mbit m' k) -> codes code m' p xs q.
Proof.
  intros xs m p q m' H E. pose proof (codes_le _ _ _ _ H). replace q with (p + (q - p)) by lia.
  apply codes_local with (m := m); auto. intros. apply E. lia.
Qed.
Lemma codes_prefix : forall ys xs m p q r, codes code m p xs q -> codes code m p ys r -> length ys <= length xs ->
  exists zs, xs = ys ++ zs /\ codes code m r zs q.
Proof.
  induction ys as [|y t IH]; intros xs m p q r X Y L; simpl in *.
  - subst. exists xs. auto.
  - destruct xs as [|x xs]; simpl in *; [lia|].
    destruct X as [a [X1 X2]], Y as [b [Y1 Y2]]. destruct (CD _ _ _ _ _ _ X1 Y1). subst.
    destruct (IH xs m b q r X2 Y2 ltac:(lia)) as [zs [-> Z]]. exists zs. auto.
Qed.
(** ** encoding a sequence *)
Variable len1 : N -> nat.
Variable enc1 : mem -> nat -> nat -> N -> option (mem * nat * nat).
Definition enc1_ok : Prop := forall m w off x, words_ok m -> off < 64 -> is_word x -> 64 * w + off + len1 x <= 64 * length m ->
  exists m' w' off', enc1 m w off x = Some (m', w', off') /\ length m' = length m /\ words_ok m' /\
    64 * w' + off' = 64 * w + off + len1 x /\ off' < 64 /\
    (forall k, k < 64 * w + off \/ 64 * w + off + len1 x <= k -> mbit m' k = mbit m k) /\
    code m' (64 * w + off) x (64 * w + off + len1 x).
Hypothesis E1 : enc1_ok.
Lemma enc_all_ok : forall xs m w off, words_ok m -> off < 64 -> Forall is_word xs ->
  64 * w + off + list_sum (map len1 xs) <= 64 * length m ->
  exists m' w' off', enc_all enc1 m w off xs = Some (m', w', off') /\ length m' = length m /\ words_ok m' /\
    64 * w' + off' = 64 * w + off + list_sum (map len1 xs) /\ off' < 64 /\
    (forall k, k < 64 * w + off \/ 64 * w + off + list_sum (map len1 xs) <= k -> mbit m' k = mbit m k) /\
    codes code m' (64 * w + off) xs (64 * w + off + list_sum (map len1 xs)).
Proof.
  induction xs as [|x t IH]; intros m w off Hm Ho Hx L.
  - exists m, w, off. simpl. repeat split; auto; lia.
  - inversion_clear Hx. change (list_sum (map len1 (x :: t))) with (len1 x + list_sum (map len1 t)) in *.
    destruct (E1 m w off x Hm Ho H ltac:(lia)) as [m1 [w1 [o1 [R1 [L1 [W1 [P1 [O1 [F1 K1]]]]]]]]].
    destruct (IH m1 w1 o1 W1 O1 H0 ltac:(lia)) as [m2 [w2 [o2 [R2 [L2 [W2 [P2 [O2 [F2 K2]]]]]]]]].
    exists m2, w2, o2. simpl enc_all. rewrite R1. cbn [obind]. rewrite R2. repeat split; auto; try lia.
    + intros k Hk. rewrite F2 by lia. apply F1. lia.
    + exists (64 * w1 + o1). split.
      * rewrite P1. replace (64 * w + off + len1 x) with (64 * w + off + (64 * w + off + len1 x - (64 * w + off))) by lia.
        apply CL with (m := m1); auto. intros. symmetry. apply F2. lia.
      * replace (64 * w + off + (len1 x + list_sum (map len1 t))) with (64 * w1 + o1 + list_sum (map len1 t)) by lia. auto.
Qed.

(** ** decoding a sequence *)
Variable sh : N -> nat -> option N.
Variable dec1 : mem -> nat -> nat -> option (N * nat * nat).
Definition dec1_ok : Prop := forall m w off x q, words_ok m -> off < 64 -> code m (64 * w + off) x q -> q <= 64 * length m ->
  (x <> 0%N \/ shift_def sh) ->
  exists w' off', dec1 m w off = Some (x, w', off') /\ 64 * w' + off' = q /\ off' < 64.
Hypothesis D1 : dec1_ok.
Fixpoint wpsums (acc : N) (xs : list N) : list N :=
  match xs with [] => [] | x :: t => wadd acc x :: wpsums (wadd acc x) t end.
Lemma dec_all_ok : forall (sumup : bool) xs m w off q v, words_ok m -> off < 64 -> codes code m (64 * w + off) xs q ->
  q <= 64 * length m -> Forall is_word xs -> (Forall (fun x => x <> 0%N) xs \/ shift_def sh) ->
  dec_all dec1 sumup (length xs) m w off v = Some (if sumup then wpsums v xs else xs).
Proof.
  intro sumup. induction xs as [|x t IH]; intros m w off q v Hm Ho C L Wx Z.
  - simpl. destruct sumup; auto.
  - simpl in C. destruct C as [r [A B]]. pose proof (codes_le _ _ _ _ B). inversion_clear Wx.
    destruct (D1 m w off x r Hm Ho A ltac:(lia)) as [w1 [o1 [R [P O]]]].
    { destruct Z as [Z|Z]; auto. inversion_clear Z. auto. }
    simpl dec_all. rewrite R. cbn [obind].
    rewrite IH with (q := q); auto; try (rewrite P; auto).
    2:{ destruct Z as [Z|Z]; auto. inversion_clear Z. auto. }
    cbn [obind]. destruct sumup; auto. f_equal. f_equal. unfold wadd. rewrite N.add_0_l. apply N.mod_small. auto.
Qed.

(** ** counting *)
Variable skip1 : mem -> nat -> nat -> option (nat * nat).
Definition skip1_ok : Prop := forall m w off x q, words_ok m -> off < 64 -> code m (64 * w + off) x q -> q <= 64 * length m ->
  exists w' off', skip1 m w off = Some (w', off') /\ 64 * w' + off' = q /\ off' < 64.
Hypothesis S1 : skip1_ok.
Lemma cd_count_ok : forall xs fuel m bits w off n, words_ok m -> off < 64 -> codes code m (64 * w + off) xs bits ->
  bits <= 64 * length m -> length xs < fuel ->
  cd_count skip1 fuel m bits w off n = Some (n + length xs).
Proof.
  induction xs as [|x t IH]; intros fuel m bits w off n Hm Ho C L F; (destruct fuel as [|f]; [simpl in F; lia|]); simpl cd_count.
  - simpl in C. replace ((w <? bits / 64) || ((w =? bits / 64) && (off <? bits mod 64))) with false.
    2:{ symmetry. destruct (Nat.ltb_spec w (bits / 64)); [lia|]. destruct (Nat.eqb_spec w (bits / 64)); auto. simpl. lia. }
    f_equal. simpl. lia.
  - simpl in C. destruct C as [r [A B]]. pose proof (codes_le _ _ _ _ B). pose proof (CP _ _ _ _ A).
    replace ((w <? bits / 64) || ((w =? bits / 64) && (off <? bits mod 64))) with true.
    2:{ symmetry. destruct (Nat.ltb_spec w (bits / 64)); auto. destruct (Nat.eqb_spec w (bits / 64)); simpl; lia. }
    destruct (S1 m w off x r Hm Ho A ltac:(lia)) as [w1 [o1 [R [P O]]]]. rewrite R. cbn [obind].
    rewrite IH; auto; try (rewrite P; auto); simpl in *; try lia. f_equal. lia.
Qed.

(** ** the whole vector *)
Hypothesis SO : shift_ok sh.
Lemma cd_roundtrip : forall g width xs, 1 <= width <= 64 -> Forall (fun x => (x < 2 ^ N.of_nat width)%N) xs ->
  (forall i, is_word (g i)) -> (width < 64 \/ Forall (fun x => x <> 0%N) xs \/ shift_def sh) ->
  exists m bits, cd_encode len1 enc1 g width xs = Some (m, bits) /\ bits = cd_bits len1 width xs /\
    length m = bits / 64 + 1 /\ words_ok m /\
    cd_decode dec1 skip1 width m bits = Some xs.
Proof.
  intros g width xs Hw Hx Hg Z.
  remember (cd_bits len1 width xs) as bits eqn:EB. remember (map g (seq 0 (bits / 64 + 1))) as m0 eqn:Em0.
  assert (L0 : length m0 = bits / 64 + 1) by (subst m0; rewrite map_length, seq_length; auto).
  assert (W0 : words_ok m0). { subst m0. apply Forall_forall. intros y Hy. apply in_map_iff in Hy. destruct Hy as [i [<- _]]. auto. }
  assert (exists m1, (if negb (bits mod 64 =? 0) then st m0 (bits / 64) 0%N else Some m0) = Some m1 /\ length m1 = length m0 /\ words_ok m1) as [m1 [R1 [L1 W1]]].
  { destruct (negb (bits mod 64 =? 0)).
    - rewrite st_some by lia. eexists. split; [reflexivity|]. split; [apply upd_length|]. apply words_ok_upd; auto with word.
    - exists m0. auto. }
  assert (ZW : Forall is_word (map (cd_zero width) xs)).
  { apply Forall_map. eapply Forall_impl; [|exact Hx]. intros a Ha. apply cd_zero_word; auto. }
  assert (LB : list_sum (map len1 (map (cd_zero width) xs)) = bits).
  { subst bits. unfold cd_bits. rewrite map_map. auto. }
  destruct (enc_all_ok (map (cd_zero width) xs) m1 0 0 W1 ltac:(lia) ZW) as [m2 [w2 [o2 [R2 [L2 [W2 [P2 [O2 [F2 K2]]]]]]]]].
  { rewrite LB. lia. }
  rewrite LB in *. exists m2, bits. unfold cd_encode. rewrite <- EB, <- Em0, R1. cbn [obind]. rewrite R2. cbn [obind].
  split; auto. split; auto. split; [lia|]. split; auto.
  unfold cd_decode. simpl in K2.
  pose proof (codes_le _ _ _ _ K2) as LL.
  assert (cd_count skip1 (S bits) m2 bits 0 0 0 = Some (length xs)) as ->.
  { rewrite cd_count_ok with (xs := map (cd_zero width) xs); auto; rewrite ?map_length in *; try lia; auto. }
  cbn [obind]. unfold cd_decode_n. change (0 / 64) with 0. change (0 mod 64) with 0.
  replace (length xs) with (length (map (cd_zero width) xs)) by apply map_length.
  rewrite dec_all_ok with (q := bits); auto; try lia.
  - cbn [obind]. f_equal. rewrite map_map. rewrite <- (map_id xs) at 2. apply map_ext_in. intros a Ha.
    rewrite Forall_forall in Hx. apply cd_zero_word; auto.
  - destruct Z as [Z|[Z|Z]]; auto; left; apply Forall_map; rewrite Forall_forall in *; intros a Ha E;
    apply cd_zero_word in E; auto; destruct E; [lia|]. subst a. apply (Z 0%N); auto.
Qed.
End Gen.

Section Gen2.
Variable code : code_t.
Hypothesis CL : forall m p x q m' p', code m p x q -> (forall k, p + k < q -> mbit m (p + k) = mbit m' (p' + k)) ->
  code m' p' x (p' + (q - p)).
Hypothesis CD : forall m p x q x' q', code m p x q -> code m p x' q' -> x = x' /\ q = q'.
Hypothesis CP : forall m p x q, code m p x q -> p < q.

Hypothesis CB : forall m p x q, code m p x q -> (x < 2 ^ N.of_nat (q - p))%N.
Hypothesis C1 : forall m p, mbit m p = true -> code m p 1%N (p + 1).
Lemma codes_sum : forall xs m p q, codes code m p xs q -> (nsum xs < 2 ^ N.of_nat (q - p))%N.
Proof.
  induction xs as [|x t IH]; intros m p q H; simpl in H.
  - subst. rewrite Nat.sub_diag. reflexivity.
  - destruct H as [r [A B]]. pose proof (CP _ _ _ _ A). pose proof (codes_le code CL CD CP _ _ _ _ B). apply CB in A. apply IH in B.
    change (nsum (x :: t)) with (x + nsum t)%N.
    replace (q - p) with ((r - p) + (q - r)) by lia. rewrite Nat2N.inj_add, N.pow_add_r.
    revert A B. generalize (2 ^ N.of_nat (r - p))%N (2 ^ N.of_nat (q - r))%N. intros a b A B. nia.
Qed.
Lemma codes_ones : forall k m p, (forall j, j < k -> mbit m (p + j) = true) -> codes code m p (repeat 1%N k) (p + k).
Proof.
  induction k; intros m p H; simpl; [lia|].
  exists (p + 1). split. { apply C1. rewrite <- (H 0) by lia. f_equal. lia. }
  replace (p + S k) with (p + 1 + k) by lia. apply IHk. intros. rewrite <- (H (S j)) by lia. f_equal. lia.
Qed.
End Gen2.

(** ** the packed table entries *)
Lemma tpack_fields : forall so sn o k v, sn <= so -> (v < 2 ^ N.of_nat sn)%N -> (N.of_nat k < 2 ^ N.of_nat (so - sn))%N ->
  let t := tpack so sn (o, k, v) in
  N.land t (lo_set sn) = v /\ N.to_nat (N.land (shr t sn) (lo_set (so - sn))) = k /\ N.to_nat (shr t so) = o /\
  (t = 0%N -> o = 0 /\ k = 0 /\ v = 0%N).
Proof.
  intros so sn o k v Hs Hv Hk t.
  assert (T : forall j, tb t j = ((so <=? j) && tb (N.of_nat o) (j - so)) || ((sn <=? j) && tb (N.of_nat k) (j - sn)) || tb v j).
  { intro j. unfold t, tpack. rewrite !tb_lor, !tb_shiftl. auto. }
  assert (V : forall j, sn <= j -> tb v j = false) by (intros; eapply tb_high; eauto).
  assert (K : forall j, so - sn <= j -> tb (N.of_nat k) j = false) by (intros; eapply tb_high; eauto).
  assert (A : N.land t (lo_set sn) = v).
  { apply tb_ext. intro j. rewrite tb_land, tb_lo_set, T. destruct (Nat.ltb_spec j sn).
    - replace (so <=? j) with false by lia. replace (sn <=? j) with false by lia. cbn. apply andb_true_r.
    - rewrite andb_false_r. symmetry. auto. }
  assert (B : N.land (shr t sn) (lo_set (so - sn)) = N.of_nat k).
  { apply tb_ext. intro j. rewrite tb_land, tb_lo_set, tb_shr, T. destruct (Nat.ltb_spec j (so - sn)).
    - replace (so <=? j + sn) with false by lia. replace (sn <=? j + sn) with true by lia. cbn.
      rewrite (V (j + sn)) by lia. rewrite orb_false_r, andb_true_r. f_equal. lia.
    - rewrite andb_false_r. symmetry. auto. }
  assert (C : shr t so = N.of_nat o).
  { apply tb_ext. intro j. rewrite tb_shr, T. replace (so <=? j + so) with true by lia. replace (sn <=? j + so) with true by lia.
    cbn. rewrite (V (j + so)) by lia. rewrite (K (j + so - sn)) by lia. rewrite !orb_false_r. f_equal. lia. }
  split; auto. split; [rewrite B; lia|]. split; [rewrite C; lia|].
  intro Z. rewrite Z in *. split; [|split]; [..|auto].
  - unfold shr in C. rewrite N.shiftr_0_l in C. lia.
  - unfold shr in B. rewrite N.shiftr_0_l, N.land_0_l in B. lia.
Qed.
