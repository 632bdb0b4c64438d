(** * The comma code. *)
From Coq Require Import NArith List Bool Arith Lia.
From Verif Require Import Base Bits SpecBits BitsProofs BitsProofs2 BitsProofs3 BitsMem IntVector AbsVec Coder CoderProofs CoderProofs2 CoderProofs3 CoderComma.
Import ListNotations.

Section Comma.
Variable t : nat.
Hypothesis T : 2 <= t <= 30.
Notation base := (cm_base t).
Definition cm_val (ds : list N) : N := fold_left (fun v d => (v * base + d)%N) ds 0%N.

Lemma base_ge : (3 <= base)%N.
Proof. unfold cm_base. pose proof (pow2_mono 2 t ltac:(lia)). change (2 ^ N.of_nat 2)%N with 4%N in H. lia. Qed.
Lemma base_lt : (base < 2 ^ N.of_nat t)%N.
Proof. unfold cm_base. pose proof (pow2_pos t). lia. Qed.
Lemma base_pow : (base + 1 = 2 ^ N.of_nat t)%N.
Proof. unfold cm_base. pose proof (pow2_pos t). lia. Qed.

(** the digits [ds] of a value, then the terminator *)
Definition cdig (m : mem) (p : nat) (ds : list N) : Prop :=
  forall i, i < length ds -> field m (p + t * i) t = nth i ds 0%N.
Definition ccode : code_t := fun m p x q => exists ds, Forall (fun d => (d < base)%N) ds /\ cdig m p ds /\
  field m (p + t * length ds) t = base /\ q = p + t * (length ds + 1) /\ x = cm_val ds /\ is_word x.

Lemma c_CL : forall m p x q m' p', ccode m p x q -> (forall k, p + k < q -> mbit m (p + k) = mbit m' (p' + k)) ->
  ccode m' p' x (p' + (q - p)).
Proof.
  intros m p x q m' p' [ds [D [F [E [Q [X W]]]]]] H. exists ds. split; auto.
  assert (FE : forall i, i <= length ds -> field m' (p' + t * i) t = field m (p + t * i) t).
  { intros i Hi. symmetry. apply field_ext. intros k Hk. rewrite <- !Nat.add_assoc. apply H. nia. }
  split. { intros i Hi. rewrite FE by lia. apply F; auto. }
  split. { rewrite FE; auto. }
  split; auto. rewrite Q. lia.
Qed.
Lemma c_CD : forall m p x q x' q', ccode m p x q -> ccode m p x' q' -> x = x' /\ q = q'.
Proof.
  intros m p x q x' q' [ds [D [F [E [Q [X W]]]]]] [ds' [D' [F' [E' [Q' [X' W']]]]]].
  assert (L : length ds = length ds').
  { destruct (Nat.lt_trichotomy (length ds) (length ds')) as [G|[G|G]]; auto; exfalso.
    - rewrite (F' _ G) in E. rewrite Forall_forall in D'. specialize (D' _ (nth_In ds' 0%N G)). lia.
    - rewrite (F _ G) in E'. rewrite Forall_forall in D. specialize (D _ (nth_In ds 0%N G)). lia. }
  assert (ds = ds'). { apply (list_nth_ext _ 0%N); auto. intros i Hi. rewrite <- F, <- F' by lia. auto. }
  subst. auto.
Qed.
Lemma c_CP : forall m p x q, ccode m p x q -> p < q.
Proof. intros m p x q [ds [D [F [E [Q [X W]]]]]]. rewrite Q. nia. Qed.

(** ** number of digits *)
Fixpoint ndig (fuel : nat) (x : N) : nat :=
  match fuel with 0 => 0 | S f => if (x =? 0)%N then 0 else S (ndig f (x / base)%N) end.
Lemma ndig_spec : forall fuel x, (x < 2 ^ N.of_nat fuel)%N ->
  (x < base ^ N.of_nat (ndig fuel x))%N /\ (x <> 0%N -> 0 < ndig fuel x /\ (base ^ N.of_nat (ndig fuel x - 1) <= x)%N).
Proof.
  induction fuel; intros x H; cbn [ndig].
  - simpl in H. assert (x = 0%N) by lia. subst. split; [reflexivity|]. intros C; contradiction.
  - destruct (N.eqb_spec x 0). { subst. split; [reflexivity|]. intros C; contradiction. }
    pose proof base_ge. rewrite pow2_S in H.
    assert (D : (x / base < 2 ^ N.of_nat fuel)%N). { apply N.div_lt_upper_bound; [lia|]. nia. }
    destruct (IHfuel _ D) as [A B]. set (k := ndig fuel (x / base)%N) in *.
    pose proof (N.div_mod' x base) as DM. pose proof (N.mod_lt x base ltac:(lia)) as ML.
    split.
    + rewrite Nat2N.inj_succ, N.pow_succ_r'. nia.
    + intros _. split; [lia|]. replace (S k - 1) with k by lia.
      destruct (N.eq_dec (x / base) 0) as [E|E].
      * unfold k. rewrite E. destruct fuel; cbn; lia.
      * destruct (B E) as [B1 B2]. replace k with (S (k - 1)) by lia. rewrite Nat2N.inj_succ, N.pow_succ_r'. nia.
Qed.

Lemma upper_idx_pow : forall k c d x, (x < base ^ N.of_nat d)%N -> (d <= c \/ (base ^ N.of_nat (d - 1) <= x)%N) -> d <= c + k ->
  upper_idx (map (fun i => (base ^ N.of_nat i)%N) (seq c k)) x = d - c.
Proof.
  pose proof base_ge as BG.
  assert (MONO : forall a b, a <= b -> (base ^ N.of_nat a <= base ^ N.of_nat b)%N) by (intros; apply N.pow_le_mono_r; lia).
  induction k; intros c d x A B D; cbn [seq map upper_idx].
  - lia.
  - destruct (N.ltb_spec x (base ^ N.of_nat c)).
    + destruct (Nat.le_gt_cases d c); [lia|]. destruct B as [B|B]; [lia|]. pose proof (MONO c (d - 1) ltac:(lia)). lia.
    + destruct (Nat.le_gt_cases d c) as [G|G]. { pose proof (MONO d c G). lia. }
      rewrite (IHk (S c) d x A); lia.
Qed.
End Comma.
Definition Ntbl_ok (t : nat) : bool :=
  let k := length (cm_codelentbl t) in
  (if list_eq_dec N.eq_dec (cm_codelentbl t) (map (fun i => (cm_base t ^ N.of_nat i)%N) (seq 0 k)) then true else false)
  && (W64 <=? cm_base t ^ N.of_nat k)%N.
Lemma tbl_ok : forall t, 2 <= t <= 30 -> Ntbl_ok t = true.
Proof.
  intros t H. assert (A : forallb Ntbl_ok (seq 2 29) = true) by (vm_compute; reflexivity).
  rewrite forallb_forall in A. apply A. apply in_seq. lia.
Qed.

Section Comma2.
Variable t : nat.
Hypothesis T : 2 <= t <= 30.
Notation base := (cm_base t).
Lemma cm_len_ok : forall x, is_word x -> cm_len t x = (ndig t 64 x + 1) * t.
Proof.
  intros x Hx. unfold cm_len. do 2 f_equal. pose proof (tbl_ok t T) as A. unfold Ntbl_ok in A.
  apply andb_prop in A. destruct A as [A B]. apply N.leb_le in B.
  destruct (list_eq_dec N.eq_dec (cm_codelentbl t) (map (fun i => (base ^ N.of_nat i)%N) (seq 0 (length (cm_codelentbl t))))); [|discriminate].
  rewrite e. destruct (ndig_spec t T 64 x Hx) as [S1 S2].
  destruct (N.eq_dec x 0) as [E|E].
  - subst x. rewrite (upper_idx_pow t T _ 0 0); [reflexivity|reflexivity|left; lia|lia].
  - destruct (S2 E) as [P Q]. rewrite upper_idx_pow with (d := ndig t 64 x); auto; try lia.
    apply Nat.nlt_ge. intro G. red in Hx.
    assert (base ^ N.of_nat (length (cm_codelentbl t)) <= base ^ N.of_nat (ndig t 64 x - 1))%N.
    { pose proof (base_ge t T). apply N.pow_le_mono_r; lia. }
    lia.
Qed.

Fixpoint digs (fuel : nat) (x : N) : list N :=
  match fuel with 0 => [] | S f => if (x =? 0)%N then [] else digs f (x / base)%N ++ [(x mod base)%N] end.
Lemma digs_length : forall fuel x, length (digs fuel x) = ndig t fuel x.
Proof. induction fuel; intros; cbn [digs ndig]; auto. destruct (x =? 0)%N; auto. rewrite app_length, IHfuel. simpl. lia. Qed.
Lemma digs_lt : forall fuel x, Forall (fun d => (d < base)%N) (digs fuel x).
Proof.
  pose proof (base_ge t T). induction fuel; intros; cbn [digs]; auto. destruct (x =? 0)%N; auto.
  apply Forall_app. split; auto. constructor; auto. apply N.mod_lt. lia.
Qed.
Lemma digs_val : forall fuel x, (x < 2 ^ N.of_nat fuel)%N -> cm_val t (digs fuel x) = x.
Proof.
  pose proof (base_ge t T). induction fuel; intros x Hx; cbn [digs].
  - simpl in Hx. unfold cm_val. simpl. lia.
  - destruct (N.eqb_spec x 0). { subst. reflexivity. }
    rewrite pow2_S in Hx. unfold cm_val. rewrite fold_left_app. simpl. fold (cm_val t (digs fuel (x / base))).
    rewrite IHfuel. { pose proof (N.div_mod' x base). lia. }
    apply N.div_lt_upper_bound; [lia|]. nia.
Qed.
Lemma cdig_snoc : forall m p ds d, cdig t m p (ds ++ [d]) <-> cdig t m p ds /\ field m (p + t * length ds) t = d.
Proof.
  intros. unfold cdig. split.
  - intro H. split.
    + intros i Hi. rewrite H by (rewrite app_length; simpl; lia). apply app_nth1. auto.
    + rewrite H by (rewrite app_length; simpl; lia). rewrite app_nth2, Nat.sub_diag by lia. auto.
  - intros [H E] i Hi. rewrite app_length in Hi. simpl in Hi. destruct (Nat.eq_dec i (length ds)).
    + subst i. rewrite app_nth2, Nat.sub_diag by lia. auto.
    + rewrite app_nth1 by lia. apply H. lia.
Qed.
Lemma cdig_ext : forall m m' p ds, cdig t m p ds -> (forall k, p <= k < p + t * length ds -> mbit m' k = mbit m k) -> cdig t m' p ds.
Proof.
  intros m m' p ds H E i Hi. rewrite <- H by auto. apply field_ext. intros k Hk. apply E. nia.
Qed.

Lemma cm_digits_ok : forall fuel x m w off, (x < 2 ^ N.of_nat fuel)%N -> words_ok m -> off < 64 ->
  64 * w + off + t * ndig t fuel x <= 64 * length m ->
  exists m' w' off', cm_digits fuel t m w off x = Some (m', w', off') /\ length m' = length m /\ words_ok m' /\
    64 * w' + off' = 64 * w + off + t * ndig t fuel x /\ off' < 64 /\
    (forall k, k < 64 * w + off \/ 64 * w + off + t * ndig t fuel x <= k -> mbit m' k = mbit m k) /\
    cdig t m' (64 * w + off) (digs fuel x).
Proof.
  pose proof (base_ge t T) as BG.
  induction fuel; intros x m w off Hx Hm Ho L; cbn [cm_digits ndig digs] in *.
  - simpl in Hx. replace (x =? 0)%N with true by lia. exists m, w, off. repeat split; auto; try lia. red. simpl. lia.
  - destruct (N.eqb_spec x 0). { exists m, w, off. repeat split; auto; try lia. red. simpl. lia. }
    rewrite pow2_S in Hx.
    assert (D : (x / base < 2 ^ N.of_nat fuel)%N). { apply N.div_lt_upper_bound; [lia|]. nia. }
    remember (ndig t fuel (x / base)%N) as k eqn:Ek.
    replace (t * S k) with (t * k + t) in * by lia.
    destruct (IHfuel _ m w off D Hm Ho ltac:(rewrite <- Ek; lia)) as [m1 [w1 [o1 [R1 [L1 [W1 [P1 [O1 [F1 C1]]]]]]]]].
    rewrite R1. cbn [obind]. rewrite <- Ek in *.
    destruct (write_int_and_move_correct m1 w1 (x mod base) o1 t W1 ltac:(apply fits_bits; lia)) as [m2 [w2 [o2 [R2 [M2 [P2 O2]]]]]].
    rewrite R2. exists m2, w2, o2. pose proof M2 as [L2 [W2 B2]]. split; auto. split; [lia|]. split; auto. split; [lia|]. split; auto. split.
    + intros j Hj. rewrite (mem_set_keep _ _ _ _ _ _ M2) by lia. apply F1. lia.
    + apply cdig_snoc. rewrite digs_length, <- Ek. split.
      * apply cdig_ext with (m := m1); auto. intros j Hj. rewrite digs_length, <- Ek in Hj. apply (mem_set_keep _ _ _ _ _ _ M2). lia.
      * rewrite <- P1. rewrite (mem_set_read_same _ _ _ _ _ M2). apply N.mod_small.
        pose proof (N.mod_lt x base ltac:(lia)). pose proof (base_lt t T). lia.
Qed.
Lemma c_E1 : enc1_ok (ccode t) (cm_len t) (cm_enc1 t).
Proof.
  intros m w off x Hm Ho Hx L. rewrite cm_len_ok in * by auto. unfold cm_enc1.
  remember (ndig t 64 x) as k eqn:Ek. replace ((k + 1) * t) with (t * k + t) in * by lia.
  destruct (cm_digits_ok 64 x m w off Hx Hm Ho ltac:(rewrite <- Ek; lia)) as [m1 [w1 [o1 [R1 [L1 [W1 [P1 [O1 [F1 C1]]]]]]]]].
  rewrite R1. cbn [obind]. rewrite <- Ek in *.
  destruct (write_int_and_move_correct m1 w1 base o1 t W1 ltac:(apply fits_bits; lia)) as [m2 [w2 [o2 [R2 [M2 [P2 O2]]]]]].
  rewrite R2. exists m2, w2, o2. pose proof M2 as [L2 [W2 B2]]. split; auto. split; [lia|]. split; auto. split; [lia|]. split; auto. split.
  - intros j Hj. rewrite (mem_set_keep _ _ _ _ _ _ M2) by lia. apply F1. lia.
  - exists (digs 64 x). rewrite digs_length, <- Ek. split; [apply digs_lt|]. split.
    { apply cdig_ext with (m := m1); auto. intros j Hj. rewrite digs_length, <- Ek in Hj. apply (mem_set_keep _ _ _ _ _ _ M2). lia. }
    split. { rewrite <- P1, (mem_set_read_same _ _ _ _ _ M2). apply N.mod_small. apply (base_lt t T). }
    split; [lia|]. split; auto. symmetry. apply digs_val. auto.
Qed.

(** ** decoding *)
Lemma cm_val_snoc_le : forall ds v, (v <= fold_left (fun v d => (v * base + d)%N) ds v)%N.
Proof.
  pose proof (base_ge t T). induction ds as [|d r IH]; intros; simpl; [lia|]. eapply N.le_trans; [|apply IH]. nia.
Qed.
Lemma shl_sub : forall v, is_word v -> (v * base < W64)%N -> wsub (shl v t) v = (v * base)%N.
Proof.
  intros v Hv H. pose proof (base_pow t T). rewrite shl_mul, <- H0. unfold wsub.
  replace (v * (base + 1))%N with (v * base + v)%N by lia. 
  destruct (N.lt_ge_cases (v * base + v) W64) as [G|G].
  - rewrite (N.mod_small (v * base + v)) by auto. red in Hv.
    replace (v * base + v + (W64 - v))%N with (v * base + 1 * W64)%N by lia. rewrite N.mod_add by discriminate. apply N.mod_small. auto.
  - assert ((v * base + v) mod W64 = v * base + v - W64)%N.
    { symmetry. apply N.mod_unique with 1%N; red in Hv; lia. }
    rewrite H1. red in Hv. replace (v * base + v - W64 + (W64 - v))%N with (v * base)%N by lia. apply N.mod_small; auto.
Qed.
Lemma cm_dec_digits_ok : forall ds fuel m w off v, words_ok m -> off < 64 -> Forall (fun d => (d < base)%N) ds ->
  cdig t m (64 * w + off) ds -> field m (64 * w + off + t * length ds) t = base -> length ds < fuel ->
  64 * w + off + t * (length ds + 1) <= 64 * length m ->
  is_word (fold_left (fun v d => (v * base + d)%N) ds v) ->
  exists w' off', cm_dec_digits fuel t m w off v = Some (fold_left (fun v d => (v * base + d)%N) ds v, w', off') /\
    64 * w' + off' = 64 * w + off + t * (length ds + 1) /\ off' < 64.
Proof.
  induction ds as [|d r IH]; intros fuel m w off v Hm Ho D C E F L W; (destruct fuel as [|f]; [simpl in F; lia|]); cbn [cm_dec_digits].
  - simpl length in *. destruct (read_int_and_move_correct m w off t Hm ltac:(apply fits_bits; lia)) as [w1 [o1 [R1 [P1 O1]]]].
    rewrite R1. cbn [obind]. rewrite Nat.mul_0_r, Nat.add_0_r in E. rewrite E, N.eqb_refl. exists w1, o1. split; auto. split; auto. lia.
  - simpl length in *. inversion_clear D.
    destruct (read_int_and_move_correct m w off t Hm ltac:(apply fits_bits; nia)) as [w1 [o1 [R1 [P1 O1]]]].
    rewrite R1. cbn [obind]. assert (E0 : field m (64 * w + off) t = d).
    { specialize (C 0 ltac:(simpl; lia)). rewrite Nat.mul_0_r, Nat.add_0_r in C. exact C. }
    rewrite E0. replace (d =? base)%N with false by lia.
    simpl fold_left in *. pose proof (cm_val_snoc_le r (v * base + d)%N) as LE. pose proof (base_ge t T).
    assert (HV : (v * base + d < W64)%N) by (red in W; lia).
    assert (Hvb : (v <= v * base)%N) by (rewrite <- (N.mul_1_r v) at 1; apply N.mul_le_mono_l; lia).
    rewrite shl_sub; [|red; lia|lia]. rewrite wadd_small by auto.
    replace (t * (S (length r) + 1)) with (t + t * (length r + 1)) in * by lia. replace (t * S (length r)) with (t + t * length r) in * by lia.
    destruct (IH f m w1 o1 (v * base + d)%N Hm O1 H0) as [w2 [o2 [R2 [P2 O2]]]]; auto; try lia.
    + intros i Hi. specialize (C (S i) ltac:(simpl; lia)). simpl nth in C. rewrite <- C. f_equal. lia.
    + rewrite <- E. f_equal. lia.
    + exists w2, o2. split; auto. split; auto. lia.
Qed.
Lemma c_D1 : dec1_ok (ccode t) (fun _ _ => Some 0%N) (cm_dec1 t).
Proof.
  intros m w off x q Hm Ho [ds [D [F [E [Q [X W]]]]]] Hq _. unfold cm_dec1. rewrite X in *.
  assert (LF : length ds < S (64 * length m)) by (clear - T Q Hq; nia).
  destruct (cm_dec_digits_ok ds (S (64 * length m)) m w off 0%N Hm Ho D F E LF) as [w1 [o1 [R1 [P1 O1]]]]; auto; try lia.
  exists w1, o1. rewrite R1. split; auto. split; auto. lia.
Qed.

(** ** counting the terminators *)
Lemma cm_count_digs : forall ds m w off n d k, words_ok m -> off < 64 -> Forall (fun d => (d < base)%N) ds ->
  cdig t m (64 * w + off) ds -> field m (64 * w + off + t * length ds) t = base ->
  64 * w + off + t * (length ds + 1) <= 64 * length m ->
  exists w' off', 64 * w' + off' = 64 * w + off + t * (length ds + 1) /\ off' < 64 /\
   cm_count (length ds + 1 + k) t m w off n d = cm_count k t m w' off' (S n) base.
Proof.
  induction ds as [|e r IH]; intros m w off n d k Hm Ho D C E L.
  - simpl length in *. cbn [Nat.add cm_count]. destruct (read_int_and_move_correct m w off t Hm ltac:(apply fits_bits; lia)) as [w1 [o1 [R1 [P1 O1]]]].
    rewrite R1. cbn [obind]. rewrite Nat.mul_0_r, Nat.add_0_r in E. rewrite E, N.eqb_refl. exists w1, o1. split; auto. lia.
  - simpl length in *. inversion_clear D. cbn [Nat.add cm_count].
    destruct (read_int_and_move_correct m w off t Hm ltac:(apply fits_bits; nia)) as [w1 [o1 [R1 [P1 O1]]]].
    rewrite R1. cbn [obind]. assert (E0 : field m (64 * w + off) t = e).
    { specialize (C 0 ltac:(simpl; lia)). rewrite Nat.mul_0_r, Nat.add_0_r in C. exact C. }
    rewrite E0. replace (e =? base)%N with false by lia.
    replace (t * (S (length r) + 1)) with (t + t * (length r + 1)) in * by lia. replace (t * S (length r)) with (t + t * length r) in * by lia.
    destruct (IH m w1 o1 n e k Hm O1 H0) as [w2 [o2 [P2 [O2 R2]]]]; auto; try lia.
    + intros i Hi. specialize (C (S i) ltac:(simpl; lia)). simpl nth in C. rewrite <- C. f_equal. lia.
    + rewrite <- E. f_equal. lia.
    + exists w2, o2. split; [lia|]. split; auto.
Qed.
Lemma cm_count_ok : forall xs m w off n q, words_ok m -> off < 64 -> codes (ccode t) m (64 * w + off) xs q -> q <= 64 * length m ->
  exists k, q = 64 * w + off + t * k /\ cm_count k t m w off n base = Some (n + length xs, base).
Proof.
  induction xs as [|x r IH]; intros m w off n q Hm Ho C L; simpl in C.
  - exists 0. split; [lia|]. simpl. do 2 f_equal. lia.
  - destruct C as [q1 [A B]]. pose proof (codes_le (ccode t) (c_CL t T) (c_CD t T) (c_CP t T) _ _ _ _ B).
    destruct A as [ds [D [F [E [Q [X W]]]]]].
    destruct (cm_count_digs ds m w off n base 0 Hm Ho D F E ltac:(lia)) as [w1 [o1 [P1 [O1 _]]]].
    destruct (IH m w1 o1 (S n) q Hm O1) as [k [Hk Rk]]; auto. { rewrite P1, <- Q. auto. }
    destruct (cm_count_digs ds m w off n base k Hm Ho D F E ltac:(lia)) as [w2 [o2 [P2 [O2 R2]]]].
    assert (w1 = w2 /\ o1 = o2) as [-> ->] by lia.
    exists (length ds + 1 + k). split; [lia|]. rewrite R2, Rk. do 2 f_equal. simpl. lia.
Qed.

Lemma cm_roundtrip : forall g width xs, 1 <= width <= 64 -> Forall (fun x => (x < 2 ^ N.of_nat width)%N) xs ->
  (forall i, is_word (g i)) ->
  exists m bits, cm_encode t g xs = Some (m, bits) /\ bits = list_sum (map (cm_len t) xs) /\ length m = bits / 64 + 1 /\ words_ok m /\
    cm_decode t width m bits = Some (Some xs).
Proof.
  intros g width xs Hw Hx Hg.
  remember (list_sum (map (cm_len t) xs)) as bits eqn:EB. remember (map g (seq 0 (bits / 64 + 1))) as m0 eqn:Em0.
  assert (L0 : length m0 = bits / 64 + 1) by (subst m0; rewrite map_length, seq_length; auto).
  assert (W0 : words_ok m0). { subst m0. apply Forall_forall. intros y Hy. apply in_map_iff in Hy. destruct Hy as [i [<- _]]. auto. }
  assert (XW : Forall is_word xs). { eapply Forall_impl; [|exact Hx]. intros a Ha. pose proof (pow2_le_W width ltac:(lia)). red. cbv beta in Ha. lia. }
  destruct (enc_all_ok (ccode t) (c_CL t T) (c_CD t T) (c_CP t T) _ _ c_E1 xs m0 0 0 W0 ltac:(lia) XW) as [m2 [w2 [o2 [R2 [L2 [W2 [P2 [O2 [F2 K2]]]]]]]]].
  { rewrite <- EB. lia. }
  exists m2, bits. unfold cm_encode. rewrite <- EB, <- Em0, R2. cbn [obind]. rewrite <- EB in K2. simpl in K2.
  split; auto. split; auto. split; [lia|]. split; auto.
  destruct (cm_count_ok xs m2 0 0 0 bits W2 ltac:(lia) K2 ltac:(lia)) as [k [Hk Rk]].
  unfold cm_decode. simpl in Hk. rewrite Hk, Nat.mul_comm, Nat.mod_mul, Nat.div_mul by lia. cbn [Nat.eqb negb].
  rewrite Rk. cbn [obind]. rewrite N.eqb_refl. cbn [negb].
  unfold cd_decode_n. change (0 / 64) with 0. change (0 mod 64) with 0. change (0 + length xs) with (length xs).
  rewrite (dec_all_ok (ccode t) (c_CL t T) (c_CD t T) (c_CP t T) _ _ c_D1) with (q := bits); auto; try lia.
  - cbn [obind]. do 2 f_equal. rewrite <- (map_id xs) at 2. apply map_ext_in. intros a Ha.
    rewrite Forall_forall in Hx. apply N.mod_small. apply (Hx a Ha).
  - right. exists 0%N. auto.
Qed.
End Comma2.
