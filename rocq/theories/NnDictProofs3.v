(** * nn_dict_dynamic: next and prev *)
From Coq Require Import NArith List Bool Arith Lia.
From Verif Require Import Base Bits SpecBits RankSelect BitsProofs BitsProofs2 AbsVec FnArr NnDict SpecNn NnDictProofs NnDictProofs2.
Import ListNotations.

Section Search.
Variable n : nat.
Hypothesis HN : 0 < n.
Hypothesis HW : (N.of_nat n < W64)%N.
Notation D := (D n).
Notation cnt := (cnt n).
Notation anc := (anc n).
Variable b : nat -> bool.
Hypothesis DM : dom n b.
Variable t : nnd.
Hypothesis I : inv n (fun _ => b) t.
Variable ovs : nat -> option N.
Hypothesis OV : forall d, ovs d <> None.

Lemma vbl : nn_vbl t = vb D. Proof. apply I. Qed.
Lemma dep : nn_depth t = D. Proof. apply I. Qed.
Lemma siz : nn_size t = n. Proof. apply I. Qed.

Lemma first_bit : forall w off, is_word w -> off < 64 -> shr w off <> 0%N ->
  let p := N.to_nat (lo (shr w off)) + off in p < 64 /\ off <= p /\ tb w p = true /\ forall j, off <= j < p -> tb w j = false.
Proof.
  intros w off W O NZ p.
  assert (WS : is_word (shr w off)). { unfold is_word. rewrite W64_pow. apply (tb_lt_pow2 _ 64). intros j J. rewrite tb_shr. apply tb_word_high; auto. lia. }
  destruct (lo_lsb _ WS NZ) as [T1 T2]. rewrite tb_shr in T1. fold p in T1.
  split. { destruct (le_lt_dec 64 p); auto. rewrite (tb_word_high w p) in T1 by auto. discriminate. }
  split; [unfold p; lia|]. split; auto. intros j J. specialize (T2 (j - off) ltac:(unfold p in J; lia)). rewrite tb_shr in T2. replace (j - off + off) with j in T2 by lia. auto.
Qed.
Lemma no_bit : forall w off, shr w off = 0%N -> forall j, off <= j -> tb w j = false.
Proof. intros w off Z j J. replace j with (j - off + off) by lia. rewrite <- tb_shr, Z. apply tb_0. Qed.
Lemma last_bit : forall w off, is_word w -> off < 64 -> shl w (63 - off) <> 0%N ->
  63 - off <= N.to_nat (hi (shl w (63 - off))) /\
  let p := N.to_nat (hi (shl w (63 - off))) - (63 - off) in p <= off /\ tb w p = true /\ forall j, p < j <= off -> tb w j = false.
Proof.
  intros w off W O NZ. pose proof (is_word_shl w (63 - off)) as WS. destruct (hi_msb _ WS NZ) as [T1 T2]. pose proof (hi_lt64 _ WS) as LT.
  remember (N.to_nat (hi (shl w (63 - off)))) as q eqn:Eq. rewrite tb_shl in T1. apply andb_true_iff in T1. destruct T1 as [_ T1]. apply andb_true_iff in T1. destruct T1 as [A B].
  apply Nat.leb_le in A. split; auto. cbn zeta. split; [lia|]. split; auto. intros j J. specialize (T2 (j + (63 - off)) ltac:(lia)). rewrite tb_shl in T2.
  replace (j + (63 - off) <? 64) with true in T2 by (symmetry; apply Nat.ltb_lt; lia). replace (63 - off <=? j + (63 - off)) with true in T2 by (symmetry; apply Nat.leb_le; lia).
  replace (j + (63 - off) - (63 - off)) with j in T2 by lia. auto.
Qed.
Lemma no_bit_l : forall w off, off < 64 -> shl w (63 - off) = 0%N -> forall j, j <= off -> tb w j = false.
Proof.
  intros w off O Z j J. assert (T : tb (shl w (63 - off)) (j + (63 - off)) = false) by (rewrite Z; apply tb_0). rewrite tb_shl in T.
  replace (j + (63 - off) <? 64) with true in T by (symmetry; apply Nat.ltb_lt; lia). replace (63 - off <=? j + (63 - off)) with true in T by (symmetry; apply Nat.leb_le; lia).
  replace (j + (63 - off) - (63 - off)) with j in T by lia. auto.
Qed.

(** ** the way down, shared: from a bit of level d that is the first (last) one, to the leaf *)
Lemma down_lo : forall fuel d P, d <= D -> D - d + 1 <= fuel -> has n b d P ->
  exists r, nn_down lo t fuel (vb d + P / 64) d (P mod 64) = Some r /\ b r = true /\ anc d r = P /\ forall x, b x = true -> anc d x = P -> r <= x.
Proof.
  induction fuel as [|fuel IH]; intros d P Hd FU HP; [lia|]. cbn [nn_down]. rewrite vbl.
  pose proof (has_range n HN HW b d P DM HP) as K.
  destruct (Nat.eq_dec d D) as [->|NE].
  - replace (vb D + P / 64 <? vb D) with false by (symmetry; apply Nat.ltb_ge; lia). exists P.
    replace (vb D + P / 64 - vb D) with (P / 64) by lia. rewrite <- Nat.mul_comm. split. { f_equal. symmetry. apply Nat.div_mod. discriminate. }
    destruct HP as (x & BX & AX). rewrite anc_D in *. subst x. split; auto. split; auto. intros x BX' E. rewrite anc_D in E. lia.
  - assert (LT : vb d + P / 64 < vb D).
    { pose proof (cnt_le n HN HW d Hd) as [_ C]. destruct (vb_base n HN HW d ltac:(lia)) as (_ & _ & _ & V). pose proof (vb_mono n HN HW (S d) D ltac:(lia)) as M. rewrite vb_S in M. lia. }
    replace (vb d + P / 64 <? vb D) with true by (symmetry; apply Nat.ltb_lt; auto).
    assert (VP : (vb d + P / 64) * 64 + 1 + P mod 64 = vb (d + 1) + P).
    { replace (d + 1) with (S d) by lia. rewrite vb_S. pose proof (Nat.div_mod P 64 ltac:(discriminate)). clear - H. lia. }
    rewrite VP. destruct HP as (x0 & B0 & A0).
    assert (PC : P < cnt (d + 1)). { rewrite <- A0, (anc_up n HN HW d) by lia. rewrite Nat.add_1_r. apply anc_cnt; auto. }
    destruct (word_ok n HN HW _ t (d + 1) P I ltac:(lia) PC) as (w & EW & [W1 W2]). rewrite EW. cbn [obind].
    assert (NZ : w <> 0%N).
    { intro Z. assert (TT : tb w (anc (d + 1) x0 mod 64) = true).
      { apply W2; [apply Nat.mod_upper_bound; discriminate|]. exists x0. split; auto. rewrite <- A0, (anc_up n HN HW d) by lia. rewrite Nat.add_1_r. apply Nat.div_mod. discriminate. }
      rewrite Z, tb_0 in TT. discriminate. }
    destruct (lo_lsb w W1 NZ) as [L1 L2]. remember (N.to_nat (lo w)) as q eqn:Eq.
    assert (Q64 : q < 64). { destruct (le_lt_dec 64 q); auto. rewrite (tb_word_high w q) in L1 by auto. discriminate. }
    assert (HQ : has n b (d + 1) (64 * P + q)) by (apply W2; auto).
    destruct (IH (d + 1) (64 * P + q) ltac:(lia) ltac:(lia) HQ) as (r & E & BR & AR & MR).
    replace ((64 * P + q) / 64) with P in E by (clear - Q64; lia). replace ((64 * P + q) mod 64) with q in E by (clear - Q64; lia).
    exists r. split; auto. split; auto. split. { rewrite (anc_up n HN HW d) by lia. rewrite <- (Nat.add_1_r d), AR. clear - Q64. lia. }
    intros x BX AX. destruct (Nat.eq_dec (anc (d + 1) x) (64 * P + q)) as [EQ|NQ]; [apply MR; auto|].
    rewrite (anc_up n HN HW d) in AX by lia. rewrite <- (Nat.add_1_r d) in AX.
    assert (LQ : q < anc (d + 1) x mod 64).
    { destruct (le_lt_dec (anc (d + 1) x mod 64) q) as [LE|]; auto. exfalso. destruct (Nat.eq_dec (anc (d + 1) x mod 64) q) as [E2|N2].
      - apply NQ. rewrite <- AX, <- E2. apply Nat.div_mod. discriminate.
      - specialize (L2 (anc (d + 1) x mod 64) ltac:(lia)). assert (TT : tb w (anc (d + 1) x mod 64) = true).
        { apply W2; [apply Nat.mod_upper_bound; discriminate|]. exists x. split; auto. rewrite <- AX. apply Nat.div_mod. discriminate. }
        congruence. }
    assert (AL : anc (d + 1) r < anc (d + 1) x). { rewrite AR. pose proof (Nat.div_mod (anc (d + 1) x) 64 ltac:(discriminate)). clear - H AX LQ. lia. }
    destruct (le_lt_dec r x); auto. exfalso. assert (anc (d + 1) x <= anc (d + 1) r); [|lia]. apply Nat.div_le_mono; [pose proof (p64_pos (D - (d + 1))); lia | lia].
Qed.
Lemma down_hi : forall fuel d P, d <= D -> D - d + 1 <= fuel -> has n b d P ->
  exists r, nn_down hi t fuel (vb d + P / 64) d (P mod 64) = Some r /\ b r = true /\ anc d r = P /\ forall x, b x = true -> anc d x = P -> x <= r.
Proof.
  induction fuel as [|fuel IH]; intros d P Hd FU HP; [lia|]. cbn [nn_down]. rewrite vbl.
  pose proof (has_range n HN HW b d P DM HP) as K.
  destruct (Nat.eq_dec d D) as [->|NE].
  - replace (vb D + P / 64 <? vb D) with false by (symmetry; apply Nat.ltb_ge; lia). exists P.
    replace (vb D + P / 64 - vb D) with (P / 64) by lia. rewrite <- Nat.mul_comm. split. { f_equal. symmetry. apply Nat.div_mod. discriminate. }
    destruct HP as (x & BX & AX). rewrite anc_D in *. subst x. split; auto. split; auto. intros x BX' E. rewrite anc_D in E. lia.
  - assert (LT : vb d + P / 64 < vb D).
    { pose proof (cnt_le n HN HW d Hd) as [_ C]. destruct (vb_base n HN HW d ltac:(lia)) as (_ & _ & _ & V). pose proof (vb_mono n HN HW (S d) D ltac:(lia)) as M. rewrite vb_S in M. lia. }
    replace (vb d + P / 64 <? vb D) with true by (symmetry; apply Nat.ltb_lt; auto).
    assert (VP : (vb d + P / 64) * 64 + 1 + P mod 64 = vb (d + 1) + P).
    { replace (d + 1) with (S d) by lia. rewrite vb_S. pose proof (Nat.div_mod P 64 ltac:(discriminate)). clear - H. lia. }
    rewrite VP. destruct HP as (x0 & B0 & A0).
    assert (PC : P < cnt (d + 1)). { rewrite <- A0, (anc_up n HN HW d) by lia. rewrite Nat.add_1_r. apply anc_cnt; auto. }
    destruct (word_ok n HN HW _ t (d + 1) P I ltac:(lia) PC) as (w & EW & [W1 W2]). rewrite EW. cbn [obind].
    assert (NZ : w <> 0%N).
    { intro Z. assert (TT : tb w (anc (d + 1) x0 mod 64) = true).
      { apply W2; [apply Nat.mod_upper_bound; discriminate|]. exists x0. split; auto. rewrite <- A0, (anc_up n HN HW d) by lia. rewrite Nat.add_1_r. apply Nat.div_mod. discriminate. }
      rewrite Z, tb_0 in TT. discriminate. }
    destruct (hi_msb w W1 NZ) as [L1 L2]. remember (N.to_nat (hi w)) as q eqn:Eq.
    assert (Q64 : q < 64). { destruct (le_lt_dec 64 q); auto. rewrite (tb_word_high w q) in L1 by auto. discriminate. }
    assert (HQ : has n b (d + 1) (64 * P + q)) by (apply W2; auto).
    destruct (IH (d + 1) (64 * P + q) ltac:(lia) ltac:(lia) HQ) as (r & E & BR & AR & MR).
    replace ((64 * P + q) / 64) with P in E by (clear - Q64; lia). replace ((64 * P + q) mod 64) with q in E by (clear - Q64; lia).
    exists r. split; auto. split; auto. split. { rewrite (anc_up n HN HW d) by lia. rewrite <- (Nat.add_1_r d), AR. clear - Q64. lia. }
    intros x BX AX. destruct (Nat.eq_dec (anc (d + 1) x) (64 * P + q)) as [EQ|NQ]; [apply MR; auto|].
    rewrite (anc_up n HN HW d) in AX by lia. rewrite <- (Nat.add_1_r d) in AX.
    assert (LQ : anc (d + 1) x mod 64 < q).
    { destruct (le_lt_dec q (anc (d + 1) x mod 64)) as [LE|]; auto. exfalso. destruct (Nat.eq_dec (anc (d + 1) x mod 64) q) as [E2|N2].
      - apply NQ. rewrite <- AX, <- E2. apply Nat.div_mod. discriminate.
      - specialize (L2 (anc (d + 1) x mod 64) ltac:(lia)). assert (TT : tb w (anc (d + 1) x mod 64) = true).
        { apply W2; [apply Nat.mod_upper_bound; discriminate|]. exists x. split; auto. rewrite <- AX. apply Nat.div_mod. discriminate. }
        congruence. }
    assert (AL : anc (d + 1) x < anc (d + 1) r). { rewrite AR. pose proof (Nat.div_mod (anc (d + 1) x) 64 ltac:(discriminate)). clear - H AX LQ. lia. }
    destruct (le_lt_dec x r); auto. exfalso. assert (anc (d + 1) r <= anc (d + 1) x); [|lia]. apply Nat.div_le_mono; [pose proof (p64_pos (D - (d + 1))); lia | lia].
Qed.

(** ** next *)
Lemma up_next_ok : forall i d k off w node fuel, d <= D -> k < cnt d -> off <= 64 -> d + 1 <= fuel ->
  wok n b d k w -> (off < 64 -> node = shr w off) ->
  (forall x, b x = true -> (i <= x <-> 64 * k + off <= anc d x)) ->
  exists r, nn_up_next ovs t fuel (vb d + k) d off node = Some r /\
    match r with
    | None => forall x, b x = true -> x < i
    | Some (vp, d', off', node') => exists k' P, d' <= D /\ vp = vb d' + k' /\ P = 64 * k' + (N.to_nat (lo node') + off') /\ N.to_nat (lo node') + off' < 64 /\
        has n b d' P /\ (forall x, b x = true -> (i <= x <-> P <= anc d' x))
    end.
Proof.
  intros i d k off w node fuel. revert d k off w node. induction fuel as [|fuel IH]; intros d k off w node Hd K O FU W ND INV; [lia|]. cbn [nn_up_next].
  pose proof W as [W1 W2].
  assert (BIT : forall x cc, b x = true -> cc < 64 -> anc d x = 64 * k + cc -> tb w cc = true).
  { intros x cc BX CC E. apply W2; auto. exists x. auto. }
  destruct ((node =? 0)%N || (off =? 64)) eqn:C.
  - assert (NB : forall x, b x = true -> i <= x -> 64 * k + 64 <= anc d x).
    { intros x BX L. apply INV in L; auto. destruct (le_lt_dec (64 * k + 64) (anc d x)) as [|LT]; auto. exfalso.
      assert (TT : tb w (anc d x - 64 * k) = true) by (apply (BIT x); auto; lia).
      apply orb_true_iff in C. destruct C as [C|C]; [apply N.eqb_eq in C | apply Nat.eqb_eq in C; lia].
      destruct (le_lt_dec 64 off); [lia|]. rewrite ND in C by auto. rewrite (no_bit w off C) in TT by lia. discriminate. }
    destruct d as [|d].
    + assert (K0 : k = 0) by (pose proof (cnt_0 n HN HW); lia). subst k. cbn [vb Nat.add Nat.eqb]. exists None. split; auto.
      intros x BX. destruct (le_lt_dec i x) as [L|]; auto. exfalso. specialize (NB x BX L). pose proof (anc_cnt n HN HW 0 x (DM x BX)) as A. rewrite (cnt_0 n HN HW) in A.
      clear - NB A. lia.
    + assert (VZ : vb (S d) + k =? 0 = false) by (apply Nat.eqb_neq; rewrite vb_S; lia). rewrite VZ.
      unfold sub_c at 1. replace (1 <=? S d) with true by reflexivity. cbn [obind]. replace (S d - 1) with d by lia.
      assert (V1 : (vb (S d) + k - 1) mod 64 = k mod 64). { rewrite vb_S. replace (vb d * 64 + 1 + k - 1) with (k + vb d * 64) by lia. apply Nat.mod_add. discriminate. }
      assert (V2 : (vb (S d) + k - 1) / 64 = vb d + k / 64). { rewrite vb_S. replace (vb d * 64 + 1 + k - 1) with (k + vb d * 64) by lia. rewrite Nat.div_add by discriminate. lia. }
      rewrite V1, V2.
      assert (K2 : k / 64 < cnt d). { unfold NnDictProofs.cnt in *. replace (D - d) with (S (D - S d)) by lia. cbn [c]. clear - K. lia. }
      destruct (word_ok n HN HW _ t d (k / 64) I ltac:(lia) K2) as (w' & EW & W'). rewrite EW. cbn [obind].
      pose proof (Nat.mod_upper_bound k 64 ltac:(discriminate)) as MB.
      assert (NX : exists node', nn_shr ovs d w' (k mod 64 + 1) = Some node' /\ (k mod 64 + 1 < 64 -> node' = shr w' (k mod 64 + 1))).
      { unfold nn_shr. destruct (Nat.ltb_spec (k mod 64 + 1) 64) as [LT|GE]. { eauto. } destruct (ovs d) eqn:EO; [|exfalso; apply (OV d); auto]. exists n0. split; auto. intros. lia. }
      destruct NX as (node' & EN & PN). rewrite EN. cbn [obind].
      apply (IH d (k / 64) (k mod 64 + 1) w' node'); auto; try lia.
      intros x BX. rewrite (anc_up n HN HW d) by lia. pose proof (Nat.div_mod k 64 ltac:(discriminate)) as KD. replace (64 * (k / 64) + (k mod 64 + 1)) with (k + 1) by lia. split.
      * intro L. specialize (NB x BX L). clear - NB. lia.
      * intro L. apply INV; auto. remember (anc (S d) x) as a. clear - L O. lia.
  - apply orb_false_iff in C. destruct C as [C1 C2]. apply N.eqb_neq in C1. apply Nat.eqb_neq in C2. assert (O' : off < 64) by lia. specialize (ND O'). subst node.
    destruct (first_bit w off W1 O' C1) as (F1 & F2 & F3 & F4). eexists. split; [reflexivity|]. cbn beta iota.
    remember (N.to_nat (lo (shr w off)) + off) as p eqn:EP. exists k, (64 * k + p). do 4 (split; [auto|]). split; [apply W2; auto|].
    intros x BX. rewrite (INV x BX). split; [|lia]. intro L. destruct (le_lt_dec (64 * k + p) (anc d x)) as [|LT]; auto. exfalso.
    assert (TT : tb w (anc d x - 64 * k) = true) by (apply (BIT x); auto; lia). rewrite F4 in TT by lia. discriminate.
Qed.
Theorem next_ok : forall i, i < n -> exists r, nn_next ovs t i = Some r /\ is_next b n i r.
Proof.
  intros i X. unfold nn_next. rewrite vbl, dep, siz. pose proof (anc_cnt n HN HW D i X) as K. rewrite anc_D in K.
  destruct (word_ok n HN HW _ t D (i / 64) I (Nat.le_refl _) K) as (w & E & W). rewrite E. cbn [obind].
  pose proof (Nat.mod_upper_bound i 64 ltac:(discriminate)) as MB.
  destruct (up_next_ok i D (i / 64) (i mod 64) w (shr w (i mod 64)) (D + 1)) as (r & ER & Q); auto; try lia.
  { intros x BX. rewrite anc_D. rewrite <- (Nat.div_mod i 64) by discriminate. reflexivity. }
  rewrite ER. cbn [obind]. destruct r as [[[[vp d'] off'] node']|].
  - destruct Q as (k' & P & Hd & -> & EP & PL & HP & INV). rewrite (Nat.add_comm (N.to_nat _)) in *. remember (off' + N.to_nat (lo node')) as p.
    destruct (down_lo (D + 1) d' P Hd ltac:(lia) HP) as (r & EN & BR & AR & MR).
    replace (P / 64) with k' in EN by (rewrite EP; clear - PL; lia). replace (P mod 64) with p in EN by (rewrite EP; clear - PL; lia).
    exists r. split; auto. left. split; auto. split. { split; [apply INV; auto; lia | apply DM; auto]. }
    intros j J. destruct (b j) eqn:BJ; auto. exfalso. pose proof (proj1 (INV j BJ) ltac:(lia)) as LJ.
    assert (AJ : anc d' j <= anc d' r) by (apply Nat.div_le_mono; [pose proof (p64_pos (D - d')); lia | lia]).
    specialize (MR j BJ ltac:(lia)). lia.
  - exists n. split; auto. right. split; auto. intros j J. destruct (b j) eqn:BJ; auto. specialize (Q j BJ). lia.
Qed.

(** ** prev: [o1] is the offset plus one *)
Lemma up_prev_ok : forall i d k o1 w node fuel, d <= D -> k < cnt d -> o1 <= 64 -> d + 1 <= fuel ->
  wok n b d k w -> (0 < o1 -> node = shl w (63 - (o1 - 1))) ->
  (forall x, b x = true -> (x <= i <-> anc d x < 64 * k + o1)) ->
  exists r, nn_up_prev ovs t fuel (vb d + k) d (if o1 =? 0 then 255 else o1 - 1) node = Some r /\
    match r with
    | None => forall x, b x = true -> i < x
    | Some (vp, d', off', node') => exists k' P p, d' <= D /\ vp = vb d' + k' /\ P = 64 * k' + p /\ p < 64 /\
        63 - off' <= N.to_nat (hi node') /\ p = N.to_nat (hi node') - (63 - off') /\
        has n b d' P /\ (forall x, b x = true -> (x <= i <-> anc d' x <= P))
    end.
Proof.
  intros i d k o1 w node fuel. revert d k o1 w node. induction fuel as [|fuel IH]; intros d k o1 w node Hd K O FU W ND INV; [lia|]. cbn [nn_up_prev].
  pose proof W as [W1 W2].
  assert (BIT : forall x cc, b x = true -> cc < 64 -> anc d x = 64 * k + cc -> tb w cc = true).
  { intros x cc BX CC E. apply W2; auto. exists x. auto. }
  assert (OE : (if o1 =? 0 then 255 else o1 - 1) =? 255 = (o1 =? 0)).
  { destruct (Nat.eqb_spec o1 0); auto. apply Nat.eqb_neq. lia. }
  rewrite OE. destruct ((node =? 0)%N || (o1 =? 0)) eqn:C.
  - assert (NB : forall x, b x = true -> x <= i -> anc d x < 64 * k).
    { intros x BX L. apply INV in L; auto. destruct (le_lt_dec (64 * k) (anc d x)) as [LT|]; auto. exfalso.
      assert (TT : tb w (anc d x - 64 * k) = true) by (apply (BIT x); auto; lia).
      apply orb_true_iff in C. destruct C as [C|C]; [apply N.eqb_eq in C | apply Nat.eqb_eq in C; lia].
      destruct (le_lt_dec o1 0); [lia|]. rewrite ND in C by auto. rewrite (no_bit_l w (o1 - 1) ltac:(lia) C) in TT by lia. discriminate. }
    destruct d as [|d].
    + assert (K0 : k = 0) by (pose proof (cnt_0 n HN HW); lia). subst k. cbn [vb Nat.add Nat.eqb]. exists None. split; auto.
      intros x BX. destruct (le_lt_dec x i) as [L|]; auto. exfalso. specialize (NB x BX L). lia.
    + assert (VZ : vb (S d) + k =? 0 = false) by (apply Nat.eqb_neq; rewrite vb_S; lia). rewrite VZ.
      unfold sub_c at 1. replace (1 <=? S d) with true by reflexivity. cbn [obind]. replace (S d - 1) with d by lia.
      assert (V1 : (vb (S d) + k - 1) mod 64 = k mod 64). { rewrite vb_S. replace (vb d * 64 + 1 + k - 1) with (k + vb d * 64) by lia. apply Nat.mod_add. discriminate. }
      assert (V2 : (vb (S d) + k - 1) / 64 = vb d + k / 64). { rewrite vb_S. replace (vb d * 64 + 1 + k - 1) with (k + vb d * 64) by lia. rewrite Nat.div_add by discriminate. lia. }
      rewrite V1, V2.
      assert (K2 : k / 64 < cnt d). { unfold NnDictProofs.cnt in *. replace (D - d) with (S (D - S d)) by lia. cbn [c]. clear - K. lia. }
      destruct (word_ok n HN HW _ t d (k / 64) I ltac:(lia) K2) as (w' & EW & W'). rewrite EW. cbn [obind].
      pose proof (Nat.mod_upper_bound k 64 ltac:(discriminate)) as MB.
      assert (OO : (k mod 64 + 255) mod 256 = if k mod 64 =? 0 then 255 else k mod 64 - 1).
      { remember (k mod 64) as m. clear - MB. destruct (Nat.eqb_spec m 0) as [->|]; [reflexivity|]. replace (m + 255) with (m - 1 + 1 * 256) by lia.
        rewrite Nat.mod_add by discriminate. apply Nat.mod_small. lia. }
      rewrite OO.
      assert (NX : exists node', nn_shl ovs d w' (if k mod 64 =? 0 then 255 else k mod 64 - 1) = Some node' /\ (0 < k mod 64 -> node' = shl w' (63 - (k mod 64 - 1)))).
      { unfold nn_shl. destruct (Nat.eqb_spec (k mod 64) 0) as [Z|Z].
        - change (255 <? 64) with false. cbn match. destruct (ovs d) eqn:EO; [|exfalso; apply (OV d); auto]. exists n0. split; auto. intros. lia.
        - replace (k mod 64 - 1 <? 64) with true by (symmetry; apply Nat.ltb_lt; lia). eauto. }
      destruct NX as (node' & EN & PN). rewrite EN. cbn [obind].
      apply (IH d (k / 64) (k mod 64) w' node'); auto; try lia.
      intros x BX. rewrite (anc_up n HN HW d) by lia. rewrite <- (Nat.div_mod k 64) by discriminate. split.
      * intro L. specialize (NB x BX L). clear - NB. lia.
      * intro L. apply INV; auto. remember (anc (S d) x) as a. clear - L O. lia.
  - apply orb_false_iff in C. destruct C as [C1 C2]. apply N.eqb_neq in C1. rewrite C2. apply Nat.eqb_neq in C2. specialize (ND ltac:(lia)). subst node.
    destruct (last_bit w (o1 - 1) W1 ltac:(lia) C1) as (F0 & F1 & F2 & F3). eexists. split; [reflexivity|]. cbn beta iota.
    remember (N.to_nat (hi (shl w (63 - (o1 - 1)))) - (63 - (o1 - 1))) as p eqn:EP. exists k, (64 * k + p), p. do 3 (split; [auto|]). split; [lia|]. split; [auto|]. split; [auto|].
    split; [apply W2; auto; lia|].
    intros x BX. rewrite (INV x BX). split; [|lia]. intro L. destruct (le_lt_dec (anc d x) (64 * k + p)) as [|LT]; auto. exfalso.
    assert (TT : tb w (anc d x - 64 * k) = true) by (apply (BIT x); auto; lia). rewrite F3 in TT by lia. discriminate.
Qed.
Theorem prev_ok : forall i, i < n -> exists r, nn_prev ovs t i = Some r /\ is_prev b n i r.
Proof.
  intros i X. unfold nn_prev. rewrite vbl, dep, siz. pose proof (anc_cnt n HN HW D i X) as K. rewrite anc_D in K.
  destruct (word_ok n HN HW _ t D (i / 64) I (Nat.le_refl _) K) as (w & E & W). rewrite E. cbn [obind].
  pose proof (Nat.mod_upper_bound i 64 ltac:(discriminate)) as MB.
  destruct (up_prev_ok i D (i / 64) (i mod 64 + 1) w (shl w (63 - i mod 64)) (D + 1)) as (r & ER & Q); auto; try lia.
  { intros _. f_equal. lia. }
  { intros x BX. rewrite anc_D. pose proof (Nat.div_mod i 64 ltac:(discriminate)). lia. }
  replace (i mod 64 + 1 =? 0) with false in ER by (symmetry; apply Nat.eqb_neq; lia). replace (i mod 64 + 1 - 1) with (i mod 64) in ER by lia.
  rewrite ER. cbn [obind]. destruct r as [[[[vp d'] off'] node']|].
  - destruct Q as (k' & P & p & Hd & -> & EP & PL & HL & Ep & HP & INV). unfold sub_c.
    replace (63 - off' <=? N.to_nat (hi node')) with true by (symmetry; apply Nat.leb_le; auto). cbn [obind]. rewrite <- Ep.
    destruct (down_hi (D + 1) d' P Hd ltac:(lia) HP) as (r & EN & BR & AR & MR).
    replace (P / 64) with k' in EN by (rewrite EP; clear - PL; lia). replace (P mod 64) with p in EN by (rewrite EP; clear - PL; lia).
    exists r. split; auto. left. split; auto. split. { apply INV; auto. lia. }
    intros j J. destruct (b j) eqn:BJ; auto. exfalso. pose proof (proj1 (INV j BJ) ltac:(lia)) as LJ.
    assert (AJ : anc d' r <= anc d' j) by (apply Nat.div_le_mono; [pose proof (p64_pos (D - d')); lia | lia]).
    specialize (MR j BJ ltac:(lia)). lia.
  - exists n. split; auto. right. split; auto. intros j J. destruct (b j) eqn:BJ; auto. specialize (Q j BJ). lia.
Qed.
End Search.

Theorem nn_history : forall n ops ovs, 0 < n -> (N.of_nat n < W64)%N -> nd_ok n ops -> (forall d, ovs d <> None) ->
  exists t0 t, nn_new n = Some t0 /\ nn_run t0 ops = Some t /\ nn_size t = n /\
    forall i, i < n -> nn_get t i = Some (nd_bits ops i) /\
      (exists r, nn_next ovs t i = Some r /\ is_next (nd_bits ops) n i r) /\
      (exists r, nn_prev ovs t i = Some r /\ is_prev (nd_bits ops) n i r).
Proof.
  intros n ops ovs HN HW OK OV. destruct (new_ok n HN HW) as (t0 & E0 & SH & TR).
  assert (I0 : inv n (fun _ _ => false) t0) by (apply zero_inv; auto).
  destruct (run_ok n HN HW ops (fun _ => false) t0) as (t & E & I & DM); auto. { intros x F. discriminate. }
  exists t0, t. split; auto. split; auto. split; [apply I|]. intros i X. split; [|split].
  - apply (get_ok n HN HW); auto.
  - apply (next_ok n HN HW); auto.
  - apply (prev_ok n HN HW); auto.
Qed.
