(** * decode_prefix_sum, generically in the coder. *)
From Coq Require Import NArith List Bool Arith Lia.
From Verif Require Import Base Bits SpecBits BitsProofs BitsProofs2 BitsProofs3 BitsMem IntVector AbsVec Coder CoderProofs.
Import ListNotations.

Lemma mbit_single : forall x k, mbit [x] k = (k <? 64) && tb x k.
Proof.
  intros. unfold mbit. destruct (Nat.ltb_spec k 64).
  - rewrite Nat.div_small, Nat.mod_small by auto. auto.
  - rewrite nth_overflow. apply tb_0. simpl. assert (1 <= k / 64) by (apply Nat.div_le_lower_bound; lia). lia.
Qed.
Lemma rd_int_ok : forall m p len, words_ok m -> len <= 64 -> p / 64 + 1 < length m ->
  rd_int m p len = Some (field m p len).
Proof.
  intros. unfold rd_int. rewrite read_int_correct; auto.
  - do 2 f_equal. lia.
  - red. repeat split; try lia.
Qed.

Section PS.
Variable code : code_t.
Hypothesis CL : forall m p x q m' p', code m p x q -> (forall k, p + k < q -> mbit m (p + k) = mbit m' (p' + k)) ->
  code m' p' x (p' + (q - p)).
Hypothesis CD : forall m p x q x' q', code m p x q -> code m p x' q' -> x = x' /\ q = q'.
Hypothesis CP : forall m p x q, code m p x q -> p < q.
Hypothesis CB : forall m p x q, code m p x q -> (x < 2 ^ N.of_nat (q - p))%N.
Hypothesis C1 : forall m p, mbit m p = true -> code m p 1%N (p + 1).
Variable sh : N -> nat -> option N.
Variable t16 : N -> option N.
Variable t8 : nat -> N -> option N.
Variables v8 o8 : nat.
Variable single : mem -> nat -> nat -> option (N * nat * nat).
Hypothesis O8 : o8 = v8 + 4.
Hypothesis T16 : forall x, (x < 2 ^ 16)%N -> exists ys o, t16 x = Some (tpack 24 16 (o, length ys, nsum ys)) /\ codes code [x] 0 ys o /\ o <= 16.
Hypothesis T8 : forall k x, 1 <= k <= 8 -> (x < 2 ^ 8)%N -> exists ys o, t8 k x = Some (tpack o8 v8 (o, length ys, nsum ys)) /\ codes code [x] 0 ys o /\ o <= 8 /\
  length ys <= k /\ (nsum ys < 2 ^ N.of_nat v8)%N.
Hypothesis DS : forall m w off x q, words_ok m -> off < 64 -> code m (64 * w + off) x q -> q < 64 * length m ->
  (x <> 0%N \/ shift_def sh) ->
  exists w' off', single m w off = Some (x, w', off') /\ 64 * w' + off' = q /\ off' < 64.

(* transfer from the looked-up bits to the memory *)
Lemma field_codes : forall m p len ys o, len <= 64 -> codes code [field m p len] 0 ys o -> o <= len -> codes code m p ys (p + o).
Proof.
  intros m p len ys o Hl C Ho. replace (p + o) with (p + (o - 0)) by lia.
  eapply (codes_local code CL CD CP); eauto. intros k Hk. rewrite mbit_single, tb_field. simpl.
  replace (k <? 64) with true by lia. replace (k <? len) with true by lia. auto.
Qed.
Lemma wadd_mod : forall a b, wadd (a mod W64) b = ((a + b) mod W64)%N.
Proof. intros. unfold wadd. apply N.add_mod_idemp_l. discriminate. Qed.

Lemma dps_inner_ok : forall fuel m n i p value ys q, words_ok m -> codes code m p ys q -> q <= 64 * (length m - 1) ->
  i + length ys = n -> length ys < fuel ->
  exists ys1 ys2 p1, ys = ys1 ++ ys2 /\
    dps_inner t16 t8 v8 o8 fuel m n i p (value mod W64) = Some (i + length ys1, p1, ((value + nsum ys1) mod W64)%N) /\
    codes code m p1 ys2 q.
Proof.
  induction fuel; intros m n i p value ys q Hm C Hq Hn F; [lia|]. cbn [dps_inner].
  destruct (Nat.ltb_spec i n) as [In|In].
  2:{ destruct ys; [|simpl in Hn; lia]. exists [], [], p. split; auto. split; auto. do 2 f_equal; [f_equal; simpl; lia|]. f_equal. simpl. lia. }
  pose proof (codes_le code CL CD CP _ _ _ _ C) as Lq.
  rewrite rd_int_ok by (auto; lia). cbn [obind].
  pose proof (field_lt m p 16) as FL. destruct (T16 _ FL) as [zs [o [-> [Z Ho]]]]. cbn [obind].
  apply field_codes in Z; [|lia|auto].
  pose proof (codes_le code CL CD CP _ _ _ _ Z) as Lz. pose proof (codes_sum code CL CD CP CB C1 _ _ _ _ Z) as Sz.
  assert (Sz16 : (nsum zs < 2 ^ N.of_nat 16)%N). { eapply N.lt_le_trans; [exact Sz|]. apply pow2_mono. lia. }
  destruct (tpack_fields 24 16 o (length zs) (nsum zs) ltac:(lia) Sz16) as [A [B [D E]]].
  { replace (2 ^ N.of_nat (24 - 16))%N with 256%N by reflexivity. lia. }
  change (lo_set 16) with 65535%N in A. change (lo_set (24 - 16)) with 255%N in B.
  rewrite A, B, D.
  destruct (N.eqb_spec (tpack 24 16 (o, length zs, nsum zs)) 0) as [E0|E0].
  { exists [], ys, p. split; auto. split; auto. do 2 f_equal; [f_equal; simpl; lia|]. f_equal. simpl. lia. }
  destruct (Nat.ltb_spec n (i + length zs)) as [Lt|Ge].
  - destruct (Nat.leb_spec (n - i) 8) as [H8|H8].
    + rewrite rd_int_ok by (auto; lia). cbn [obind].
      pose proof (field_lt m p 8) as FL8. destruct (T8 (n - i) _ ltac:(lia) FL8) as [us [o2 [-> [U [Ho2 [Lu Su]]]]]]. cbn [obind].
      apply field_codes in U; [|lia|auto].
      destruct (tpack_fields o8 v8 o2 (length us) (nsum us) ltac:(lia) Su) as [A2 [B2 [D2 E2]]].
      { replace (o8 - v8) with 4 by lia. change (2 ^ N.of_nat 4)%N with 16%N. lia. }
      replace (o8 - v8) with 4 in B2 by lia. change (lo_set 4) with 15%N in B2.
      destruct (N.ltb_spec 0 (tpack o8 v8 (o2, length us, nsum us))).
      * rewrite A2, B2, D2. destruct (codes_prefix code CL CD CP us ys m p q _ C U ltac:(lia)) as [vs [-> V]].
        exists us, vs, (p + o2). split; auto. split; auto. rewrite wadd_mod. auto.
      * exists [], ys, p. split; auto. split; auto. do 2 f_equal; [f_equal; simpl; lia|]. f_equal. simpl. lia.
    + exists [], ys, p. split; auto. split; auto. do 2 f_equal; [f_equal; simpl; lia|]. f_equal. simpl. lia.
  - destruct (codes_prefix code CL CD CP zs ys m p q _ C Z ltac:(lia)) as [vs [-> V]].
    assert (zs <> []). { intro; subst zs. simpl in Z. assert (o = 0) by lia. subst o. apply E0. reflexivity. }
    assert (0 < length zs) by (destruct zs; [congruence|simpl; lia]).
    rewrite app_length in *. rewrite wadd_mod.
    destruct (IHfuel m n (i + length zs) (p + o) (value + nsum zs)%N vs q Hm V Hq ltac:(lia) ltac:(lia)) as [y1 [y2 [p1 [Ey [Ry Cy]]]]].
    subst vs. exists (zs ++ y1), y2, p1. rewrite app_assoc. split; auto. split; auto.
    rewrite Ry. rewrite nsum_app, app_length. do 2 f_equal; [f_equal; lia|]. f_equal. lia.
Qed.

Lemma ones_run : forall m p k, words_ok m -> k <= 63 ->
  exists r, N.to_nat (lo (wnot (field m p k))) = r /\ r <= k /\ (forall j, j < r -> mbit m (p + j) = true) /\
    (mbit m p = true -> 0 < k -> 0 < r).
Proof.
  intros m p k Hm Hk. pose proof (field_lt m p k) as FL.
  assert (FW : is_word (field m p k)). { red. pose proof (pow2_le_W k ltac:(lia)). lia. }
  assert (NZ : wnot (field m p k) <> 0%N).
  { intro Z. assert (T : tb (wnot (field m p k)) k = false) by (rewrite Z; apply tb_0).
    rewrite tb_wnot, tb_field in T. replace (k <? k) with false in T by lia. replace (k <? 64) with true in T by lia. discriminate. }
  destruct (lo_lsb (wnot (field m p k)) ltac:(auto with word) NZ) as [A B].
  exists (N.to_nat (lo (wnot (field m p k)))). split; auto.
  assert (R : N.to_nat (lo (wnot (field m p k))) <= k).
  { apply Nat.nlt_ge. intro G. specialize (B k G). rewrite tb_wnot, tb_field in B.
    replace (k <? k) with false in B by lia. replace (k <? 64) with true in B by lia. discriminate. }
  split; auto. split.
  - intros j Hj. specialize (B j Hj). rewrite tb_wnot, tb_field in B. replace (j <? k) with true in B by lia.
    replace (j <? 64) with true in B by lia. simpl in B. destruct (mbit m (p + j)); auto.
  - intros M K0. apply Nat.neq_0_lt_0. intro Z. rewrite Z in A. rewrite tb_wnot, tb_field, Nat.add_0_r, M in A.
    replace (0 <? k) with true in A by lia. discriminate.
Qed.
Lemma low4 : forall m p, words_ok m -> p / 64 < length m -> N.land (shr (nth (p / 64) m 0%N) (p mod 64)) 0xF = 0xF%N -> mbit m p = true.
Proof.
  intros m p Hm L H. assert (T : tb (N.land (shr (nth (p / 64) m 0%N) (p mod 64)) 0xF) 0 = true) by (rewrite H; reflexivity).
  rewrite tb_land, tb_shr in T. apply andb_prop in T. destruct T as [T _]. exact T.
Qed.

Lemma dps_loop_ok : forall fuel m n i p value ys q, words_ok m -> codes code m p ys q -> q <= 64 * (length m - 1) ->
  (Forall (fun x => x <> 0%N) ys \/ shift_def sh) ->
  i + length ys = n -> length ys < fuel ->
  dps_loop t16 t8 v8 o8 single fuel m n i p (value mod W64) = Some ((value + nsum ys) mod W64)%N.
Proof.
  induction fuel; intros m n i p value ys q Hm C Hq Z Hn F; [lia|]. cbn [dps_loop].
  destruct (Nat.ltb_spec i n) as [In|In].
  2:{ destruct ys; [|simpl in Hn; lia]. simpl. rewrite N.add_0_r. auto. }
  pose proof (codes_le code CL CD CP _ _ _ _ C) as Lq.
  rewrite ld_some by lia. cbn [obind].
  match goal with |- obind ?e _ = _ => assert (exists ys1 ys2 p1 cont, ys = ys1 ++ ys2 /\ codes code m p1 ys2 q /\
     e = Some (i + length ys1, p1, ((value + nsum ys1) mod W64)%N, cont) /\ (cont = true -> 0 < length ys1)) as [ys1 [ys2 [p1 [cont [-> [C1' [-> Hc]]]]]]] end.
  { destruct (N.eqb_spec (N.land (shr (nth (p / 64) m 0%N) (p mod 64)) 15) 15) as [E|E].
    - remember (if 63 <? n - i then 63 else n - i) as mx eqn:Emx.
      assert (1 <= mx <= 63 /\ mx <= n - i) by (subst mx; destruct (Nat.ltb_spec 63 (n - i)); lia).
      rewrite rd_int_ok by (auto; lia). cbn [obind].
      destruct (ones_run m p mx Hm ltac:(lia)) as [r [Er [Lr [Or Pr]]]]. rewrite Er.
      pose proof (codes_ones code CL CD CP CB C1 r m p Or) as CO.
      destruct (codes_prefix code CL CD CP _ ys m p q _ C CO ltac:(rewrite repeat_length; lia)) as [zs [-> V]].
      exists (repeat 1%N r), zs, (p + r), (r =? mx). split; auto. split; auto. split.
      + rewrite repeat_length, nsum_repeat1, wadd_mod. auto.
      + intros _. rewrite repeat_length. apply Pr; [|lia]. apply low4; auto. lia.
    - exists [], ys, p, false. split; auto. split; auto. split; [|discriminate]. simpl. rewrite N.add_0_r, Nat.add_0_r. auto. }
  cbn [obind]. rewrite app_length in *.
  assert (Z2 : Forall (fun x => x <> 0%N) ys2 \/ shift_def sh). { destruct Z as [Z|Z]; auto. apply Forall_app in Z. left. apply Z. }
  destruct cont.
  { specialize (Hc eq_refl). rewrite IHfuel with (ys := ys2) (q := q); auto; try lia. rewrite nsum_app. do 2 f_equal. lia. }
  destruct (dps_inner_ok (S n) m n (i + length ys1) p1 (value + nsum ys1)%N ys2 q Hm C1' Hq ltac:(lia) ltac:(lia)) as [z1 [z2 [p2 [-> [-> C2]]]]].
  cbn [obind]. rewrite app_length in *. rewrite !nsum_app.
  assert (Z3 : Forall (fun x => x <> 0%N) z2 \/ shift_def sh). { destruct Z2 as [Z2|Z2]; auto. apply Forall_app in Z2. left. apply Z2. }
  destruct (Nat.ltb_spec (i + length ys1 + length z1) n) as [In2|In2].
  - destruct z2 as [|x z2]; [simpl in *; lia|]. simpl in C2. destruct C2 as [r [A B]].
    pose proof (codes_le code CL CD CP _ _ _ _ B). 
    destruct (DS m (p2 / 64) (p2 mod 64) x r Hm ltac:(lia)) as [w1 [o1 [-> [P1 O1]]]].
    { replace (64 * (p2 / 64) + p2 mod 64) with p2 by lia. auto. }
    { lia. }
    { destruct Z3 as [Z3|Z3]; auto. inversion_clear Z3. auto. }
    cbn [obind]. rewrite P1, wadd_mod. simpl length in *. rewrite IHfuel with (ys := z2) (q := q); auto; try lia.
    + do 2 f_equal. change (nsum (x :: z2)) with (x + nsum z2)%N. lia.
    + destruct Z3 as [Z3|Z3]; auto. inversion_clear Z3. auto.
  - rewrite IHfuel with (ys := z2) (q := q); auto; try lia. do 2 f_equal. lia.
Qed.

Lemma lo_set_run : forall m w off k, off + k <= 64 -> N.land (shr (nth w m 0%N) off) (lo_set k) = lo_set k ->
  forall j, j < k -> mbit m (64 * w + off + j) = true.
Proof.
  intros m w off k L H j Hj. assert (T : tb (N.land (shr (nth w m 0%N) off) (lo_set k)) j = true).
  { rewrite H, tb_lo_set. lia. }
  rewrite tb_land, tb_shr in T. apply andb_prop in T. destruct T as [T _].
  rewrite <- Nat.add_assoc, mbit_wo by lia. rewrite <- T. f_equal. lia.
Qed.

Lemma dps_ok : forall m start ys q, words_ok m -> codes code m start ys q -> q <= 64 * (length m - 1) ->
  (Forall (fun x => x <> 0%N) ys \/ shift_def sh) ->
  dps t16 t8 v8 o8 single m start (length ys) = Some (nsum ys mod W64)%N.
Proof.
  intros m p ys q Hm C Hq Z. unfold dps. set (n := length ys).
  destruct (Nat.eqb_spec n 0) as [E0|E0].
  { destruct ys; [reflexivity|discriminate]. }
  pose proof (codes_le code CL CD CP _ _ _ _ C) as Lq. fold n in Lq.
  assert (L0 : dps_loop t16 t8 v8 o8 single (S n) m n 0 p 0 = Some (nsum ys mod W64)%N).
  { change 0%N with (0 mod W64)%N at 1. rewrite dps_loop_ok with (ys := ys) (q := q); auto. }
  destruct (Nat.ltb_spec n 24) as [H24|_]; [|exact L0].
  rewrite ld_some by lia. cbn [obind].
  assert (Sn : (N.of_nat n mod W64 = N.of_nat n)%N). { apply N.mod_small. rewrite W64_pow. apply N.lt_le_trans with 24%N; [lia|]. discriminate. }
  destruct (Nat.leb_spec (n + p mod 64) 64) as [Hin|Hout].
  - destruct (N.eqb_spec (N.land (shr (nth (p / 64) m 0%N) (p mod 64)) (lo_set n)) (lo_set n)) as [E|E]; [|exact L0].
    assert (O := lo_set_run m (p / 64) (p mod 64) n ltac:(lia) E). replace (64 * (p / 64) + p mod 64) with p in O by lia.
    pose proof (codes_ones code CL CD CP CB C1 n m p O) as CO.
    destruct (codes_prefix code CL CD CP _ ys m p q _ C CO ltac:(rewrite repeat_length; lia)) as [zs [Ey V]].
    assert (zs = []). { assert (Ll : length ys = n + length zs) by (rewrite Ey at 1; rewrite app_length, repeat_length; auto). apply length_zero_iff_nil. clear - Ll. subst n. lia. }
    subst zs. rewrite app_nil_r in Ey. rewrite Ey, nsum_repeat1, Sn. auto.
  - destruct (N.eqb_spec (shr (nth (p / 64) m 0%N) (p mod 64)) (lo_set (64 - p mod 64))) as [E|E]; [|exact L0].
    assert (O := lo_set_run m (p / 64) (p mod 64) (64 - p mod 64) ltac:(lia)). rewrite E, N.land_diag in O. specialize (O eq_refl).
    replace (64 * (p / 64) + p mod 64) with p in O by lia.
    remember (64 - p mod 64) as k eqn:Ek.
    pose proof (codes_ones code CL CD CP CB C1 k m p O) as CO.
    destruct (codes_prefix code CL CD CP _ ys m p q _ C CO ltac:(rewrite repeat_length; lia)) as [zs [Ey V]].
    assert (Ln : length zs = n - k). { unfold n. rewrite Ey, app_length, repeat_length. lia. }
    assert (Es : (nsum ys = N.of_nat k + nsum zs)%N) by (rewrite Ey, nsum_app, nsum_repeat1; auto).
    pose proof (codes_le code CL CD CP _ _ _ _ V) as Lv.
    rewrite ld_some by lia. cbn [obind].
    destruct (N.eqb_spec (N.land (nth ((p + k) / 64) m 0%N) (lo_set (n - k))) (lo_set (n - k))) as [E2|E2].
    + assert (O2 := lo_set_run m ((p + k) / 64) 0 (n - k) ltac:(lia)). unfold shr in O2. rewrite N.shiftr_0_r in O2. specialize (O2 E2).
      replace (64 * ((p + k) / 64) + 0) with (p + k) in O2 by lia.
      pose proof (codes_ones code CL CD CP CB C1 (n - k) m (p + k) O2) as CO2.
      destruct (codes_prefix code CL CD CP _ zs m (p + k) q _ V CO2 ltac:(rewrite repeat_length; lia)) as [us [Ez U]].
      assert (us = []). { assert (Ll : length zs = n - k + length us) by (rewrite Ez at 1; rewrite app_length, repeat_length; auto). apply length_zero_iff_nil. clear - Ll Ln. lia. }
      subst us. rewrite app_nil_r in Ez. rewrite Es, Ez, nsum_repeat1. reflexivity.
    + replace (N.of_nat k) with (N.of_nat k mod W64)%N at 1.
      2:{ apply N.mod_small. rewrite W64_pow. apply N.lt_le_trans with 65%N; [lia|]. discriminate. }
      rewrite dps_loop_ok with (ys := zs) (q := q); auto; try lia.
      * rewrite Es. auto.
      * destruct Z as [Z|Z]; auto. rewrite Ey in Z. apply Forall_app in Z. left. apply Z.
Qed.
End PS.
