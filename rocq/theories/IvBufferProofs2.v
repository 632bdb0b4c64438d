(** * int_vector_buffer: the invariant *)
From Coq Require Import NArith ZArith List Bool Arith Lia.
From Verif Require Import Base Bits SpecBits IntVector SpecIntVector IntVectorProofs IntVectorProofs2 IntVectorProofs3 IntVectorProofs4 IvBuffer SpecIvb IvBufferProofs.
Import ListNotations.

Section Inv.
Variables (sr : N -> nat -> option N) (g : nat -> N) (tw w off : nat).
Hypothesis G : fresh_ok g.
Hypothesis TW : tw = 0 /\ 1 <= w <= 64 \/ 1 <= tw <= 64 /\ w = tw.
Hypothesis SR : sr_ok sr w.
Variable cap : nat -> nat.   (* bound for the bytes of the file behind the header *)
Hypothesis CAP : forall n, (n * w + 7) / 8 <= cap n.
Hypothesis CAPM : forall n n', n <= n' -> cap n <= cap n'.

Lemma W1 : 1 <= w <= 64. Proof. lia. Qed.

Record buf_ok (l : list N) (b : ivb) : Prop := {
  B_ok : iv_ok (b_buf b); B_w : iv_width (b_buf b) = w; B_sz : iv_size (b_buf b) = b_bs b * w;
  B_bs : 0 < b_bs b; B_8 : (b_bs b * w) mod 8 = 0 }.
Record inv (l : list N) (b : ivb) : Prop := {
  I_buf : buf_ok l b;
  I_beg : exists q, b_begin b = q * b_bs b;
  I_off : b_off b = off;
  I_size : b_size b = length l; I_lt : forall i, (nth i l 0 < 2 ^ N.of_nat w)%N;
  I_el : forall j, j < b_bs b -> nth j (elems (b_buf b)) 0%N = nth (b_begin b + j) l 0%N;
  I_byte : Forall is_byte (b_file b);
  I_file : forall p, length l * w <= p \/ b_dirty b = false \/ p < b_begin b * w \/ (b_begin b + b_bs b) * w <= p ->
           bbit (b_file b) (8 * off + p) = lbit w l p;
  I_len : off + (length l * w + 7) / 8 <= length (b_file b) \/ length l = 0 \/ b_dirty b = true /\ length l <= b_begin b + b_bs b;
  I_dirty : b_dirty b = true -> b_begin b < length l;
  I_cap : length (b_file b) <= off + cap (length l) }.

Lemma blen : forall l b, buf_ok l b -> iv_len (b_buf b) = b_bs b.
Proof. intros l b []. unfold iv_len. rewrite B_sz0, B_w0. apply Nat.div_mul. pose proof W1. lia. Qed.
Lemma beg8 : forall l b q, buf_ok l b -> (q * b_bs b * w) mod 8 = 0.
Proof.
  intros l b q []. apply Nat.mod_divides; [discriminate|]. apply Nat.mod_divides in B_9; [|discriminate]. destruct B_9 as [c E].
  exists (q * c). rewrite <- Nat.mul_assoc, E. lia.
Qed.
(** bits of the buffer *)
Lemma buf_bits : forall l b, buf_ok l b -> (forall i, (nth i l 0 < 2 ^ N.of_nat w)%N) ->
  (forall j, j < b_bs b -> nth j (elems (b_buf b)) 0%N = nth (b_begin b + j) l 0%N) ->
  forall p, p < b_bs b * w -> mbit (iv_data (b_buf b)) p = lbit w l (b_begin b * w + p).
Proof.
  intros l b OK LT EL p P. pose proof W1. destruct (divmod_w w p ltac:(lia)) as (i & k & -> & K).
  assert (I : i < b_bs b). { apply Nat.mul_lt_mono_pos_r with w; lia. }
  replace (b_begin b * w + (i * w + k)) with ((b_begin b + i) * w + k) by lia. rewrite lbit_at by auto.
  pose proof (blen l b OK) as LEN. destruct OK. pose proof (elems_bits (b_buf b) (b_bs b) (fun i => nth (b_begin b + i) l 0%N) B_ok0 LEN) as E.
  rewrite B_w0 in E. apply E; auto.
Qed.

Lemma write_block_ok : forall l b, inv l b -> exists b', b_write_block b = Some b' /\ inv l b' /\ b_dirty b' = false /\
  b_bs b' = b_bs b /\ b_begin b' = b_begin b /\ b_buf b' = b_buf b.
Proof.
  intros l b I. pose proof W1 as HW. unfold b_write_block. destruct (b_dirty b) eqn:D; [|exists b; do 5 (split; auto)].
  destruct I. rename I_buf0 into OK. pose proof OK as [O1 O2 O3 O4 O5]. destruct I_beg0 as [q Q].
  specialize (I_dirty0 D). unfold b_width. rewrite O2, I_off0, I_size0.
  pose proof (beg8 l b q OK) as BG. rewrite <- Q in BG.
  remember (if length l <=? b_begin b + b_bs b then ((length l - b_begin b) * w + 7) / 8 else b_bs b * w / 8) as nb eqn:NB.
  assert (B8 : b_bs b * w = 8 * (b_bs b * w / 8)) by (clear - O5; lia).
  assert (G8 : b_begin b * w = 8 * (b_begin b * w / 8)) by (clear - BG; lia).
  assert (NBL : nb <= b_bs b * w / 8).
  { subst nb. destruct (Nat.leb_spec (length l) (b_begin b + b_bs b)); auto.
    assert ((length l - b_begin b) * w <= b_bs b * w) by (apply Nat.mul_le_mono_r; lia).
    remember ((length l - b_begin b) * w) as x. remember (b_bs b * w) as y. clear - H0 B8. lia. }
  assert (NB0 : 0 < nb).
  { subst nb. destruct (Nat.leb_spec (length l) (b_begin b + b_bs b)).
    - assert (1 * 1 <= (length l - b_begin b) * w) by (apply Nat.mul_le_mono; lia). remember ((length l - b_begin b) * w) as x. clear - H0. lia.
    - assert (1 * 1 <= b_bs b * w) by (apply Nat.mul_le_mono; lia). clear - H0 B8. lia. }
  assert (MEM : nb <= 8 * length (iv_data (b_buf b))). { destruct O1 as (_ & _ & C). rewrite O3 in C. clear - C NBL B8. lia. }
  destruct (f_write_spec (b_file b) (off + b_begin b * w / 8) (iv_data (b_buf b)) nb I_byte0 NB0 MEM) as (F' & EF & FB & FL & FBIT).
  rewrite EF. cbn [obind]. eexists. split; [reflexivity|]. cbn [b_dirty b_bs b_begin b_buf]. split; [|auto].
  assert (NBC : length l <= b_begin b + b_bs b /\ off + b_begin b * w / 8 + nb = off + (length l * w + 7) / 8 \/
                b_begin b + b_bs b < length l /\ nb = b_bs b * w / 8).
  { subst nb. destruct (Nat.leb_spec (length l) (b_begin b + b_bs b)); auto. left. split; auto.
    rewrite Nat.mul_sub_distr_r. assert (b_begin b * w <= length l * w) by (apply Nat.mul_le_mono_r; lia).
    remember (length l * w) as x. remember (b_begin b * w) as y. clear - H0 G8. lia. }
  constructor; cbn [b_buf b_bs b_begin b_file b_off b_size b_dirty]; auto.
  - constructor; auto.
  - eauto.
  - intros p _. rewrite FBIT.
    destruct ((8 * (off + b_begin b * w / 8) <=? 8 * off + p) && (8 * off + p <? 8 * (off + b_begin b * w / 8 + nb))) eqn:C.
    + apply andb_true_iff in C. destruct C as [C1 C2]. apply Nat.leb_le in C1. apply Nat.ltb_lt in C2.
      rewrite (buf_bits l b OK I_lt0 I_el0) by (clear - C1 C2 NBL B8 G8; lia). f_equal. clear - C1 G8. lia.
    + apply I_file0. apply andb_false_iff in C. destruct C as [C|C]; [apply Nat.leb_gt in C; right; right; left; clear - C G8; lia|].
      apply Nat.ltb_ge in C. destruct NBC as [[A1 A2]|[A1 A2]].
      * left. remember (length l * w) as x. clear - C A2 G8. lia.
      * right; right; right. rewrite Nat.mul_add_distr_r. clear - C A2 B8 G8. lia.
  - rewrite FL. destruct NBC as [[A1 A2]|[A1 A2]]; [left; lia|]. left. destruct I_len0 as [L|[L|[_ L]]]; lia.
  - rewrite FL. apply Nat.max_lub; auto. destruct NBC as [[A1 A2]|[A1 A2]]. { pose proof (CAP (length l)). lia. }
    assert ((b_begin b + b_bs b) * w <= length l * w) by (apply Nat.mul_le_mono_r; lia). rewrite Nat.mul_add_distr_r in H.
    pose proof (CAP (length l)). remember (length l * w) as x. remember (cap (length l)) as y. clear - H H0 A2 B8 G8. lia.
Qed.

Lemma zero_ok : forall k i v, iv_ok v -> iv_len v = i + k -> exists v', b_zero k i v = Some v' /\ iv_ok v' /\ iv_width v' = iv_width v /\ iv_size v' = iv_size v /\
  forall j, j < iv_len v -> nth j (elems v') 0%N = if j <? i then nth j (elems v) 0%N else 0%N.
Proof.
  induction k as [|k IH]; intros i v O L; cbn [b_zero].
  - exists v. split; auto. split; auto. split; auto. split; auto. intros j J. destruct (Nat.ltb_spec j i); auto. lia.
  - destruct (ref_set_ok v i 0 O ltac:(lia)) as (v1 & E1 & O1 & S1 & W1' & _ & EL). rewrite E1. cbn [obind].
    assert (L1 : iv_len v1 = iv_len v) by (unfold iv_len; congruence).
    destruct (IH (S i) v1 O1 ltac:(lia)) as (v' & E' & O' & W' & S' & P). rewrite E'. exists v'. split; auto. split; auto. split; [congruence|]. split; [congruence|].
    intros j J. rewrite P by lia. rewrite EL. rewrite nth_upd. rewrite elems_length.
    destruct (Nat.ltb_spec j (S i)); destruct (Nat.ltb_spec j i); try lia; auto.
    + destruct (Nat.eqb_spec j i); [lia|]. cbn [andb]. auto.
    + replace j with i by lia. rewrite Nat.eqb_refl. replace (i <? iv_len v) with true by (symmetry; apply Nat.ltb_lt; lia). cbn [andb]. apply N.mod_0_l. apply N.pow_nonzero. discriminate.
Qed.

(** reading block [idx / bs]: everything but the buffer contents may be assumed *)
Lemma read_block_ok : forall l b idx, buf_ok l b -> b_off b = off -> b_size b = length l -> (forall i, (nth i l 0 < 2 ^ N.of_nat w)%N) ->
  Forall is_byte (b_file b) -> (forall p, bbit (b_file b) (8 * off + p) = lbit w l p) -> b_dirty b = false ->
  (off + (length l * w + 7) / 8 <= length (b_file b) \/ length l = 0) -> length (b_file b) <= off + cap (length l) ->
  exists b', b_read_block sr b idx = Some b' /\ inv l b' /\ b_dirty b' = false /\ b_bs b' = b_bs b /\ b_begin b' = idx / b_bs b * b_bs b.
Proof.
  intros l b idx OK OFF SZ LT FB FBIT ND LEN CAPL. pose proof W1 as HW. pose proof OK as [O1 O2 O3 O4 O5]. pose proof (blen l b OK) as BL.
  unfold b_read_block. remember (idx / b_bs b * b_bs b) as bg eqn:BG. unfold b_width. rewrite SZ, OFF, O2.
  assert (R : exists buf, (if length l <=? bg then iv_set_to_value sr (b_buf b) 0
     else let* m := f_read (b_file b) (off + bg * w / 8) (iv_data (b_buf b)) (b_bs b * w / 8) in
          b_zero (b_bs b - (length l - bg)) (length l - bg) (mkiv (iv_size (b_buf b)) m w)) = Some buf /\
     iv_ok buf /\ iv_width buf = w /\ iv_size buf = b_bs b * w /\ forall j, j < b_bs b -> nth j (elems buf) 0%N = nth (bg + j) l 0%N).
  { destruct (Nat.leb_spec (length l) bg) as [C|C].
    - destruct (set_to_value_ok sr (b_buf b) 0 O1 ltac:(reflexivity)) as (v & E & O & S & WW & _ & EL). { rewrite O2. auto. }
      exists v. split; auto. split; auto. split; [congruence|]. split; [congruence|]. intros j J. rewrite EL.
      rewrite (nth_overflow l) by lia. destruct (nth_in_or_default j (repeat (0 mod 2 ^ N.of_nat (iv_width (b_buf b)))%N (iv_len (b_buf b))) 0%N) as [IN|E0]; auto.
      apply repeat_spec in IN. rewrite IN. apply N.mod_0_l. apply N.pow_nonzero. discriminate.
    - assert (B8 : b_bs b * w = 8 * (b_bs b * w / 8)) by (clear - O5; lia).
      assert (G8 : bg * w = 8 * (bg * w / 8)). { pose proof (beg8 l b (idx / b_bs b) OK) as X. rewrite <- BG in X. clear - X. lia. }
      assert (MEM : b_bs b * w / 8 <= 8 * length (iv_data (b_buf b))). { destruct O1 as (_ & _ & C1). rewrite O3 in C1. clear - C1 B8. lia. }
      destruct (f_read_spec (b_file b) (off + bg * w / 8) (iv_data (b_buf b)) (b_bs b * w / 8) FB (proj1 O1) MEM) as (m & EM & MW & ML & MB).
      rewrite EM. cbn [obind]. remember (mkiv (iv_size (b_buf b)) m w) as v1 eqn:EV.
      assert (OV : iv_ok v1). { subst v1. destruct O1 as (X & Y & Z). split; [auto|]. cbn. split; [lia|]. rewrite ML. lia. }
      assert (LV : iv_len v1 = b_bs b). { subst v1. unfold iv_len. cbn. rewrite O3. apply Nat.div_mul. lia. }
      assert (WV : iv_width v1 = w) by (subst v1; auto). assert (SV : iv_size v1 = b_bs b * w) by (subst v1; auto).
      assert (EL : forall j, j < b_bs b -> bg + j < length l -> nth j (elems v1) 0%N = nth (bg + j) l 0%N).
      { intros j J JL. rewrite nth_elems by lia. rewrite WV. subst v1. cbn [iv_data]. apply tb_ext. intro k. rewrite tb_field.
        destruct (Nat.ltb_spec k w) as [K|K]; cbn [andb]; [|symmetry; apply (tb_high _ w); auto].
        assert (JB : (j + 1) * w <= b_bs b * w) by (apply Nat.mul_le_mono_r; lia).
        assert (JLL : (bg + j + 1) * w <= length l * w) by (apply Nat.mul_le_mono_r; lia).
        assert (E1 : 8 * (off + bg * w / 8) + (j * w + k) = 8 * off + ((bg + j) * w + k)) by (rewrite Nat.mul_add_distr_r; clear - G8; lia).
        rewrite MB.
        - rewrite E1. rewrite FBIT. apply lbit_at. auto.
        - rewrite <- B8. clear - JB K. nia.
        - rewrite E1. destruct LEN as [LEN|LEN]; [|lia]. assert ((bg + j) * w + k < length l * w) by (clear - JLL K; nia).
          remember ((bg + j) * w + k) as x. remember (length l * w) as y. clear - LEN H. lia. }
      destruct (le_lt_dec (b_bs b) (length l - bg)) as [FULL|PART].
      + replace (b_bs b - (length l - bg)) with 0 by lia. cbn [b_zero]. exists v1. split; auto. split; auto. split; auto. split; auto.
        intros j J. apply EL; auto. lia.
      + destruct (zero_ok (b_bs b - (length l - bg)) (length l - bg) v1 OV ltac:(lia)) as (v' & EZ & OZ & WZ & SZ' & PZ).
        exists v'. split; auto. split; auto. split; [congruence|]. split; [congruence|]. intros j J. rewrite PZ by lia.
        destruct (Nat.ltb_spec j (length l - bg)); [apply EL; auto; lia|]. symmetry. apply nth_overflow. lia. }
  destruct R as (buf & ER & OB & WB & SB & EB). rewrite ER. cbn [obind]. eexists. split; [reflexivity|]. cbn [b_dirty b_bs b_begin]. split; [|auto].
  constructor; cbn [b_buf b_bs b_begin b_file b_off b_size b_dirty]; auto.
  - constructor; auto.
  - eauto.
  - tauto.
  - intro X. congruence.
Qed.

Lemma load_ok : forall l b idx, inv l b -> exists b', b_load sr b idx = Some b' /\ inv l b' /\ b_begin b' <= idx < b_begin b' + b_bs b'.
Proof.
  intros l b idx I. unfold b_load. destruct ((idx <? b_begin b) || (b_begin b + b_bs b <=? idx)) eqn:C.
  - destruct (write_block_ok l b I) as (b1 & E1 & I1 & D1 & B1 & _ & _). rewrite E1. cbn [obind]. pose proof I1 as [].
    destruct (read_block_ok l b1 idx) as (b2 & E2 & I2 & D2 & B2 & G2); auto.
    { destruct I_len0 as [L|[L|[L _]]]; auto. congruence. }
    exists b2. split; auto. split; auto. rewrite G2, B2. destruct I_buf0. pose proof (Nat.div_mod idx (b_bs b1) ltac:(lia)). pose proof (Nat.mod_upper_bound idx (b_bs b1) ltac:(lia)). lia.
  - exists b. split; auto. split; auto. apply orb_false_iff in C. destruct C as [C1 C2]. apply Nat.ltb_ge in C1. apply Nat.leb_gt in C2. lia.
Qed.

Lemma read_ok : forall l b idx, inv l b -> idx < length l -> exists b', b_read sr b idx = Some (b', nth idx l 0%N) /\ inv l b'.
Proof.
  intros l b idx I L. unfold b_read. destruct (load_ok l b idx I) as (b' & E & I' & R). rewrite E. cbn [obind]. pose proof I' as [].
  pose proof (blen l b' I_buf0) as BL. destruct I_buf0. rewrite ref_get_ok by (auto; lia). cbn [obind]. rewrite I_el0 by lia.
  exists b'. replace (b_begin b' + (idx - b_begin b')) with idx by lia. auto.
Qed.

Lemma put_length : forall l i x, length (put l i x) = Nat.max (length l) (i + 1).
Proof. intros. unfold put. rewrite upd_length, app_length, repeat_length. lia. Qed.
Lemma nth_put : forall l i x j, nth j (put l i x) 0%N = if j =? i then x else nth j l 0%N.
Proof.
  intros. unfold put. rewrite nth_upd. rewrite app_length, repeat_length. destruct (Nat.eqb_spec j i) as [E|NE].
  - subst j. replace (i <? length l + (i + 1 - length l)) with true by (symmetry; apply Nat.ltb_lt; lia). reflexivity.
  - cbn [andb]. destruct (le_lt_dec (length l) j) as [L|L].
    + rewrite app_nth2 by auto. rewrite (nth_overflow l) by auto. destruct (nth_in_or_default (j - length l) (repeat 0%N (i + 1 - length l)) 0%N) as [IN|E]; auto. apply repeat_spec in IN. auto.
    + apply app_nth1. auto.
Qed.
Lemma lbit_put : forall l i x p, p < i * w \/ (i + 1) * w <= p -> lbit w (put l i x) p = lbit w l p.
Proof.
  intros l i x p H. unfold lbit. rewrite nth_put. destruct (Nat.eqb_spec (p / w) i) as [E|]; auto. exfalso. pose proof W1 as HW.
  pose proof (Nat.div_mod p w ltac:(lia)) as D. pose proof (Nat.mod_upper_bound p w ltac:(lia)) as M. rewrite E in D. nia.
Qed.

Lemma write_ok : forall l b idx x, inv l b -> exists b', b_write sr b idx x = Some b' /\ inv (put l idx (x mod 2 ^ N.of_nat w)%N) b'.
Proof.
  intros l b idx x I. pose proof W1 as HW. unfold b_write. destruct (load_ok l b idx I) as (b1 & E & I1 & R). rewrite E. cbn [obind]. pose proof I1 as [].
  rename I_buf0 into OK. pose proof (blen l b1 OK) as BL. pose proof OK as [O1 O2 O3 O4 O5].
  destruct (ref_set_ok (b_buf b1) (idx - b_begin b1) x O1 ltac:(lia)) as (v & EV & OV & SV & WV & _ & EL). rewrite EV. cbn [obind].
  eexists. split; [reflexivity|]. rewrite O2 in EL.
  assert (SZ : (if b_size b1 <=? idx then idx + 1 else b_size b1) = length (put l idx (x mod 2 ^ N.of_nat w)%N)).
  { rewrite put_length, I_size0. destruct (Nat.leb_spec (length l) idx); lia. }
  assert (GR : length l <= length (put l idx (x mod 2 ^ N.of_nat w)%N)) by (rewrite put_length; lia).
  constructor; cbn [b_buf b_bs b_begin b_file b_off b_size b_dirty]; auto.
  - constructor; cbn [b_buf b_bs]; auto; congruence.
  - intro i. rewrite nth_put. destruct (i =? idx); auto. apply N.mod_lt. apply N.pow_nonzero. discriminate.
  - intros j J. rewrite EL, nth_upd, elems_length, nth_put. rewrite BL. destruct (Nat.eqb_spec j (idx - b_begin b1)) as [E1|E1].
    + replace (b_begin b1 + j =? idx) with true by (symmetry; apply Nat.eqb_eq; lia).
      replace (j <? b_bs b1) with true by (symmetry; apply Nat.ltb_lt; lia). reflexivity.
    + replace (b_begin b1 + j =? idx) with false by (symmetry; apply Nat.eqb_neq; lia). cbn [andb]. auto.
  - intros p P.
    assert (LO : b_begin b1 * w <= idx * w) by (apply Nat.mul_le_mono_r; lia).
    assert (HI : (idx + 1) * w <= (b_begin b1 + b_bs b1) * w) by (apply Nat.mul_le_mono_r; lia).
    assert (SZL : length l * w <= length (put l idx (x mod 2 ^ N.of_nat w)%N) * w) by (apply Nat.mul_le_mono_r; auto).
    assert (IXL : (idx + 1) * w <= length (put l idx (x mod 2 ^ N.of_nat w)%N) * w) by (apply Nat.mul_le_mono_r; rewrite put_length; lia).
    destruct P as [P|[P|P]]; [|discriminate|].
    + rewrite lbit_put by lia. apply I_file0. left. lia.
    + rewrite lbit_put by lia. apply I_file0. tauto.
  - rewrite put_length. destruct (le_lt_dec (length l) (b_begin b1 + b_bs b1)) as [L|L].
    + right. right. split; auto. lia.
    + left. replace (Nat.max (length l) (idx + 1)) with (length l) by lia. destruct I_len0 as [|[|[_ ]]]; auto; lia.
  - rewrite put_length. lia.
  - pose proof (CAPM _ _ GR). lia.
Qed.

Lemma set_bs_core : forall l b n, b_off b = off -> b_size b = length l -> (forall i, (nth i l 0 < 2 ^ N.of_nat w)%N) -> iv_width (b_buf b) = w ->
  Forall is_byte (b_file b) -> (forall p, bbit (b_file b) (8 * off + p) = lbit w l p) -> b_dirty b = false ->
  (off + (length l * w + 7) / 8 <= length (b_file b) \/ length l = 0) -> length (b_file b) <= off + cap (length l) ->
  exists b', b_set_bs sr g tw b n = Some b' /\ inv l b' /\ b_dirty b' = false.
Proof.
  intros l b n OFF SZ LT WB FB FBIT ND LEN CAPL. pose proof W1 as HW. unfold b_set_bs, b_write_block. rewrite ND. cbn [obind]. unfold b_width. rewrite WB.
  remember (if n =? 0 then 8 else n) as n' eqn:EN. assert (N0 : 0 < n') by (subst n'; destruct (Nat.eqb_spec n 0); lia).
  remember (if (n' * 8) mod w =? 0 then n' * 8 / w else _) as bs eqn:EB.
  assert (BP : 0 < bs /\ (bs * w) mod 8 = 0).
  { subst bs. destruct (Nat.eqb_spec ((n' * 8) mod w) 0) as [Z|Z].
    - apply Nat.mod_divides in Z; [|lia]. destruct Z as [c Z]. rewrite Z, Nat.mul_comm, Nat.div_mul by lia. split; [destruct c; lia|].
      rewrite (Nat.mul_comm c), <- Z. apply Nat.mod_mul. discriminate.
    - remember (n' * 8 / w + 1 + 7) as e. assert (E8 : (e - e mod 8) = 8 * (e / 8)) by (clear; lia). rewrite E8. split; [remember (n' * 8 / w) as d; clear - Heqe; lia|].
      replace (8 * (e / 8) * w) with ((e / 8 * w) * 8) by lia. apply Nat.mod_mul. discriminate. }
  destruct BP as [B0 B8].
  destruct (new_ok sr g tw bs 0 w G ltac:(reflexivity) TW SR) as (v & EV & OV & WV & SV & PV & EL). rewrite EV. cbn [obind].
  replace (bs =? 0) with false by (symmetry; apply Nat.eqb_neq; lia).
  match goal with |- exists b', b_read_block sr ?bb 0 = Some b' /\ _ => destruct (read_block_ok l bb 0) as (b2 & E2 & I2 & D2 & _) end; auto.
  { constructor; auto. }
  exists b2. auto.
Qed.
Lemma set_bs_ok : forall l b n, inv l b -> exists b', b_set_bs sr g tw b n = Some b' /\ inv l b'.
Proof.
  intros l b n I. destruct (write_block_ok l b I) as (b1 & E1 & I1 & D1 & _ & _ & _). pose proof I1 as [].
  destruct (set_bs_core l b1 n) as (b2 & E2 & I2 & _); auto. { apply I_buf0. } { destruct I_len0 as [L|[L|[L _]]]; auto. congruence. }
  exists b2. split; auto. unfold b_set_bs in *. rewrite E1. assert (E : b_write_block b1 = Some b1) by (unfold b_write_block; rewrite D1; auto). rewrite E in E2. exact E2.
Qed.
Lemma lbit_nil : forall p, lbit w [] p = false.
Proof. intros. unfold lbit. destruct (p / w); apply tb_0. Qed.
Lemma reset_ok : forall l b, inv l b -> exists b', b_reset sr b = Some b' /\ inv [] b'.
Proof.
  intros l b []. unfold b_reset. destruct I_buf0 as [O1 O2 O3 O4 O5].
  match goal with |- exists b', b_read_block sr ?bb 0 = Some b' /\ _ => destruct (read_block_ok [] bb 0) as (b2 & E2 & I2 & D2 & _) end; auto.
  { constructor; auto. } { intros [|]; cbn; apply N.neq_0_lt_0, N.pow_nonzero; discriminate. } { constructor. } { intro p. cbn [b_file]. rewrite bbit_nil, lbit_nil. auto. } { cbn. lia. }
  exists b2. auto.
Qed.

Lemma put_push : forall l x, put l (length l) x = l ++ [x].
Proof.
  intros. apply list_nth_ext with 0%N. { rewrite put_length, app_length. cbn. lia. }
  intros j J. rewrite nth_put. rewrite put_length in J. destruct (Nat.eqb_spec j (length l)) as [E|E].
  - subst j. rewrite app_nth2, Nat.sub_diag by lia. auto.
  - rewrite app_nth1 by lia. auto.
Qed.
Lemma put_upd : forall l i x, i < length l -> put l i x = upd l i x.
Proof. intros. unfold put. replace (i + 1 - length l) with 0 by lia. cbn [repeat]. rewrite app_nil_r. auto. Qed.

Lemma step_ok : forall l b o, inv l b -> l_pre l o -> exists b', b_step sr g tw b o = Some (b', snd (l_step w l o)) /\ inv (fst (l_step w l o)) b'.
Proof.
  intros l b o I P. pose proof W1 as HW. destruct o as [i|i x|x|i x|i x|n|]; cbn [b_step l_step fst snd l_pre] in *.
  - destruct (read_ok l b i I P) as (b' & E & I'). rewrite E. cbn [obind]. eauto.
  - destruct (write_ok l b i x I) as (b' & E & I'). rewrite E. cbn [obind]. rewrite zmod_N. eauto.
  - unfold b_push. pose proof I as []. rewrite I_size0. destruct (write_ok l b (length l) x I) as (b' & E & I'). rewrite E. cbn [obind]. rewrite zmod_N, <- put_push. eauto.
  - destruct P as [P X]. unfold b_add. destruct (read_ok l b i I P) as (b1 & E1 & I1). rewrite E1. cbn [obind].
    destruct (write_ok l b1 i (wadd (nth i l 0%N) x) I1) as (b' & E & I'). rewrite E. cbn [obind]. rewrite put_upd in I' by auto.
    rewrite mod_wadd in I' by lia. eauto.
  - destruct P as [P X]. unfold b_sub. destruct (read_ok l b i I P) as (b1 & E1 & I1). rewrite E1. cbn [obind].
    destruct (write_ok l b1 i (wsub (nth i l 0%N) x) I1) as (b' & E & I'). rewrite E. cbn [obind]. rewrite put_upd in I' by auto.
    rewrite mod_wsub in I' by (auto; lia). eauto.
  - destruct (set_bs_ok l b n I) as (b' & E & I'). rewrite E. cbn [obind]. eauto.
  - destruct (reset_ok l b I) as (b' & E & I'). rewrite E. cbn [obind]. eauto.
Qed.
Lemma run_ok : forall ops l b, inv l b -> l_ok w l ops -> exists b', b_run sr g tw b ops = Some (b', snd (l_run w l ops)) /\ inv (fst (l_run w l ops)) b'.
Proof.
  induction ops as [|o r IH]; intros l b I P; cbn [b_run l_run].
  - exists b. auto.
  - destruct P as [P1 P2]. destruct (step_ok l b o I P1) as (b1 & E1 & I1). rewrite E1. cbn [obind]. destruct (l_step w l o) as [l1 out]. cbn [fst snd] in *.
    destruct (IH l1 b1 I1 P2) as (b2 & E2 & I2). rewrite E2. cbn [obind]. destruct (l_run w l1 r) as [l2 out2]. cbn [fst snd] in *. eauto.
Qed.
End Inv.
