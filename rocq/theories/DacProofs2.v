(** * Proofs about dac_vector: layout of the blocks and the counting pass *)
From Coq Require Import NArith List Bool Arith Lia.
From Verif Require Import Base Bits SpecBits RankSelect AbsVec WtBase RrrVector FnArr BitsProofs2 Dac DacProofs.
Import ListNotations.

(** a table with separate contents at even and odd places *)
Definition tab (mx : nat) (E O : nat -> nat) : list nat := farr mx (fun q => if Nat.even q then E (Nat.div2 q) else O (Nat.div2 q)).
Global Arguments tab : simpl never.
Lemma tab_length : forall mx E O, length (tab mx E O) = mx. Proof. intros. apply farr_length. Qed.
Lemma even_2 : forall j, Nat.even (2 * j) = true. Proof. intros. rewrite Nat.even_mul. reflexivity. Qed.
Lemma even_2S : forall j, Nat.even (2 * j + 1) = false. Proof. intros. rewrite Nat.even_add, even_2. reflexivity. Qed.
Lemma div2_2 : forall j, Nat.div2 (2 * j) = j. Proof. apply Nat.div2_double. Qed.
Lemma div2_2S : forall j, Nat.div2 (2 * j + 1) = j. Proof. intros. rewrite Nat.add_1_r. apply Nat.div2_succ_double. Qed.
Lemma tab_even : forall mx E O j, 2 * j < mx -> nth_error (tab mx E O) (2 * j) = Some (E j).
Proof. intros. unfold tab. rewrite farr_nth_error by auto. rewrite even_2, div2_2. auto. Qed.
Lemma tab_odd : forall mx E O j, 2 * j + 1 < mx -> nth_error (tab mx E O) (2 * j + 1) = Some (O j).
Proof. intros. unfold tab. rewrite farr_nth_error by auto. rewrite even_2S, div2_2S. auto. Qed.
Lemma tab_ext : forall mx E O E' O', (forall j, 2 * j < mx -> E j = E' j) -> (forall j, 2 * j + 1 < mx -> O j = O' j) -> tab mx E O = tab mx E' O'.
Proof.
  intros mx E O E' O' HE HO. unfold tab. apply farr_ext. intros q Hq. pose proof (Nat.div2_odd q) as D. rewrite <- Nat.negb_even in D.
  destruct (Nat.even q); cbn [negb Nat.b2n] in D; [apply HE|apply HO]; lia.
Qed.
Lemma tab_set_even : forall mx E O j x, 2 * j < mx -> aset (tab mx E O) (2 * j) x = Some (tab mx (fun q => if q =? j then x else E q) O).
Proof.
  intros. unfold tab. rewrite farr_aset by auto. f_equal. apply farr_ext. intros q Hq. pose proof (Nat.div2_odd q) as D. rewrite <- Nat.negb_even in D.
  destruct (Nat.even q); cbn [negb Nat.b2n] in D; destruct (Nat.eqb_spec q (2 * j)); try lia; destruct (Nat.eqb_spec (Nat.div2 q) j); auto; lia.
Qed.
Lemma tab_set_odd : forall mx E O j x, 2 * j + 1 < mx -> aset (tab mx E O) (2 * j + 1) x = Some (tab mx E (fun q => if q =? j then x else O q)).
Proof.
  intros. unfold tab. rewrite farr_aset by auto. f_equal. apply farr_ext. intros q Hq. pose proof (Nat.div2_odd q) as D. rewrite <- Nat.negb_even in D.
  destruct (Nat.even q); cbn [negb Nat.b2n] in D; destruct (Nat.eqb_spec q (2 * j + 1)); try lia; destruct (Nat.eqb_spec (Nat.div2 q) j); auto; lia.
Qed.
Lemma tab_firstn : forall mx m E O, m <= mx -> firstn m (tab mx E O) = tab m E O.
Proof.
  intros. unfold tab, farr. rewrite firstn_map. f_equal. replace mx with (m + (mx - m)) by lia. rewrite seq_app, firstn_app, seq_length, Nat.sub_diag.
  rewrite firstn_all2 by (rewrite seq_length; auto). cbn [firstn]. apply app_nil_r.
Qed.

Lemma skipn_tail : forall A (l : list A) i x t, skipn i l = x :: t -> skipn (S i) l = t.
Proof. induction l; intros i x t H. { destruct i; discriminate. } destruct i; cbn in H. { inversion H; reflexivity. } cbn [skipn]. eapply IHl; eauto. Qed.

Section dac.
Variables (b : nat) (c : list N).
Hypothesis Hb : 1 <= b <= 63.
Hypothesis Hc : Forall is_word c.
Notation n := (length c).

(** [dp x j]: block j of x exists *)
Definition dp (x : N) (j : nat) : bool := (j =? 0) || negb (shr x (b * j) =? 0)%N.
Definition D (j i : nat) : bool := dp (nth i c 0%N) j.
Definition R (j i : nat) : nat := rank_of (D j) i.
Definition ptr (j : nat) : nat := psum (fun l => R l n) j.
Definition P (j i : nat) : nat := ptr j + R j i.
Definition blk (x : N) (j : nat) : N := N.land (shr x (b * j)) (lo_set b).

Lemma word_nth : forall i, is_word (nth i c 0%N).
Proof. intros. destruct (nth_in_or_default i c 0%N) as [H| ->]; [|reflexivity]. rewrite Forall_forall in Hc. auto. Qed.
Lemma shr_S : forall x j, shr (shr x (b * j)) b = shr x (b * (j + 1)).
Proof. intros. rewrite shr_shr. f_equal. lia. Qed.
Lemma dp_S : forall x j, dp x (j + 1) = true -> dp x j = true.
Proof.
  unfold dp. intros x j H. destruct (Nat.eqb_spec j 0); auto. cbn [orb]. rewrite (proj2 (Nat.eqb_neq (j+1) 0)) in H by lia. cbn [orb] in H.
  rewrite <- shr_S in H. destruct (N.eqb_spec (shr x (b * j)) 0) as [E|E]; auto. rewrite E in H.
  replace (shr 0 b) with 0%N in H by (symmetry; apply N.shiftr_0_l). discriminate.
Qed.
Lemma dp_mono : forall x j j', j <= j' -> dp x j' = true -> dp x j = true.
Proof. induction 1; auto. intros. apply IHle. apply dp_S. rewrite Nat.add_1_r. auto. Qed.
Lemma dp_shift : forall x j, is_word x -> 1 <= j -> dp x j = true -> b * j < 64.
Proof.
  intros x j Hx Hj H. destruct (Nat.lt_ge_cases (b * j) 64); auto. exfalso. unfold dp in H. rewrite (proj2 (Nat.eqb_neq j 0)) in H by lia. cbn [orb] in H.
  replace (shr x (b * j)) with 0%N in H; [discriminate|]. symmetry. apply tb_ext. intros k. rewrite tb_shr, tb_0. apply tb_word_high; auto. lia.
Qed.
Lemma dp_lt64 : forall x j, is_word x -> dp x j = true -> j < 64.
Proof. intros x j Hx H. destruct (Nat.eq_dec j 0); [lia|]. pose proof (dp_shift x j Hx ltac:(lia) H). nia. Qed.
Lemma dp_nz : forall x j, 1 <= j -> dp x j = negb (shr x (b * j) =? 0)%N.
Proof. intros. unfold dp. rewrite (proj2 (Nat.eqb_neq j 0)) by lia. reflexivity. Qed.

Lemma count1_ok : forall fuel x j E O mx, is_word x -> 1 <= j -> 64 <= fuel + j -> 4 <= mx <= 128 -> Nat.even mx = true ->
  exists mx', dac_count1 b fuel (shr x (b * j)) (2 * j) (tab 128 E O) mx =
    Some (tab 128 (fun q => if (j <=? q) && dp x q then S (E q) else E q) O, mx') /\
    mx <= mx' <= 128 /\ Nat.even mx' = true /\ forall q, j <= q -> dp x q = true -> 2 * q + 2 <= mx'.
Proof.
  induction fuel as [|fuel IH]; intros x j E O mx Hx Hj Hf Hm He.
  - assert (Z : shr x (b * j) = 0%N). { destruct (N.eqb_spec (shr x (b * j)) 0); auto. assert (T : dp x j = true) by (rewrite dp_nz by auto; apply negb_true_iff, N.eqb_neq; auto). apply dp_lt64 in T; auto. lia. }
    assert (F : forall q, j <= q -> dp x q = false). { intros q Hq. destruct (dp x q) eqn:T; auto. apply (dp_mono x j q) in T; auto. rewrite dp_nz, Z in T by auto. discriminate. }
    cbn [dac_count1]. rewrite Z, N.eqb_refl. exists mx. split; [|repeat split; try lia; auto; intros q Hq T; rewrite F in T by auto; discriminate].
    f_equal. f_equal. apply tab_ext; auto. intros q _. destruct (Nat.leb_spec j q); cbn [andb]; auto. rewrite F; auto.
  - cbn [dac_count1]. destruct (N.eqb_spec (shr x (b * j)) 0) as [Z|Z].
    + assert (F : forall q, j <= q -> dp x q = false). { intros q Hq. destruct (dp x q) eqn:T; auto. apply (dp_mono x j q) in T; auto. rewrite dp_nz, Z in T by auto. discriminate. }
      exists mx. split; [|repeat split; try lia; auto; intros q Hq T; rewrite F in T by auto; discriminate].
      f_equal. f_equal. apply tab_ext; auto. intros q _. destruct (Nat.leb_spec j q); cbn [andb]; auto. rewrite F; auto.
    + assert (T : dp x j = true) by (rewrite dp_nz by auto; apply negb_true_iff, N.eqb_neq; auto). pose proof (dp_lt64 x j Hx T).
      rewrite tab_even by lia. cbn [obind]. rewrite tab_set_even by lia. cbn [obind]. rewrite shr_S.
      replace (2 * j + 2) with (2 * (j + 1)) by lia.
      destruct (IH x (j + 1) (fun q => if q =? j then S (E j) else E q) O (Nat.max mx (2 * (j + 1)))) as (mx' & E1 & E2 & E3 & E4); auto; try lia.
      { destruct (Nat.max_spec mx (2 * (j + 1))) as [[_ ->]|[_ ->]]; auto. apply even_2. }
      exists mx'. rewrite E1. split.
      * f_equal. f_equal. apply tab_ext; auto. intros q _. destruct (Nat.leb_spec (j + 1) q); destruct (Nat.leb_spec j q); try lia; destruct (Nat.eqb_spec q j); try lia; cbn [andb]; auto.
        subst q. rewrite T. auto.
      * split; [lia|]. split; auto. intros q Hq Tq. destruct (Nat.eq_dec q j); [subst; lia|]. apply E4; auto. lia.
Qed.

(** counts over the first [i] values; level 0 starts with n *)
Lemma count_ok : forall t i O mx, skipn i c = t -> 4 <= mx <= 128 -> Nat.even mx = true -> i <= n ->
  (forall q k, k < i -> 1 <= q -> D q k = true -> 2 * q + 2 <= mx) ->
  exists mx', dac_count b t (tab 128 (fun q => if q =? 0 then n else R q i) O) mx = Some (tab 128 (fun q => R q n) O, mx') /\
    4 <= mx' <= 128 /\ Nat.even mx' = true /\ forall q k, k < n -> 1 <= q -> D q k = true -> 2 * q + 2 <= mx'.
Proof.
  induction t as [|x t IH]; intros i O mx Hs Hm He Hi HD.
  - assert (i = n). { assert (L : length (skipn i c) = 0) by (rewrite Hs; auto). rewrite skipn_length in L. lia. } subst i.
    exists mx. cbn [dac_count]. split; [|split; [lia|split; auto]]. f_equal. f_equal. apply tab_ext; auto. intros q _.
    destruct (Nat.eqb_spec q 0); auto. subst q. unfold R. symmetry. apply rank_of_all_true. intros. reflexivity.
  - assert (Hx : nth i c 0%N = x). { rewrite <- (firstn_skipn i c), app_nth2 by (rewrite firstn_length; lia). rewrite firstn_length, Hs. replace (i - Nat.min i n) with 0 by lia. reflexivity. }
    assert (Hl : i < n). { assert (L : length (skipn i c) = S (length t)) by (rewrite Hs; auto). rewrite skipn_length in L. lia. }
    assert (Ht : skipn (i + 1) c = t) by (rewrite Nat.add_1_r; eapply skipn_tail; eauto).
    cbn [dac_count]. destruct (count1_ok 64 x 1 (fun q => if q =? 0 then n else R q i) O mx) as (mx' & E1 & E2 & E3 & E4); auto; try lia.
    { rewrite <- Hx. apply word_nth. }
    rewrite Nat.mul_1_r in E1. change (2 * 1) with 2 in E1. rewrite E1. cbn [obind fst snd].
    rewrite (tab_ext 128 _ O (fun q => if q =? 0 then n else R q (i + 1)) O); auto.
    2:{ intros q _. destruct (Nat.eqb_spec q 0); [subst; reflexivity|]. rewrite (proj2 (Nat.leb_le 1 q)) by lia. cbn [andb].
        rewrite Nat.add_1_r. unfold R. rewrite rank_of_S. replace (D q i) with (dp x q) by (unfold D; rewrite Hx; auto). destruct (dp x q); cbn [b2nat]; lia. }
    apply IH; auto; try lia. intros q k Hk Hq T. destruct (Nat.eq_dec k i).
    + subst k. apply E4; auto. unfold D in T. rewrite Hx in T. auto.
    + pose proof (HD q k ltac:(lia) Hq T). lia.
Qed.

(** levels *)
Lemma R_anti : forall j i, R (j + 1) i <= R j i.
Proof. intros. unfold R. induction i; [reflexivity|]. rewrite !rank_of_S. pose proof (dp_S (nth i c 0%N) j). unfold D in *. destruct (dp (nth i c 0%N) (j + 1)), (dp (nth i c 0%N) j); cbn [b2nat]; try lia; specialize (H eq_refl); discriminate. Qed.
Lemma R_pos : forall j i, i < n -> D j i = true -> R j i < R j n.
Proof. intros j i Hi T. pose proof (rank_of_mono (D j) (S i) n Hi) as M. rewrite rank_of_S, T in M. unfold R. cbn [b2nat] in M. lia. Qed.
Lemma R_zero : forall j, R j n = 0 -> forall i, i < n -> D j i = false.
Proof. intros j H i Hi. destruct (D j i) eqn:T; auto. pose proof (R_pos j i Hi T). lia. Qed.
(** number of non-empty levels *)
Fixpoint lev (m : nat) : nat := match m with 0 => 0 | S m' => lev m' + (if 0 <? R m' n then 1 else 0) end.
Lemma lev_spec : forall m, lev m <= m /\ (forall j, j < m -> (0 < R j n <-> j < lev m)).
Proof.
  induction m as [|m [A B]]; cbn [lev]; [split; [lia|intros; lia]|]. split; [destruct (0 <? R m n); lia|]. intros j Hj.
  destruct (Nat.ltb_spec 0 (R m n)) as [L|L].
  - assert (E : lev m = m). { destruct (Nat.eq_dec (lev m) m) as [|ne]; auto. exfalso. destruct m; [lia|].
      assert (0 < R m n) by (pose proof (R_anti m n); rewrite Nat.add_1_r in *; lia). apply (proj1 (B m ltac:(lia))) in H. lia. }
    destruct (Nat.eq_dec j m); [subst; lia|]. pose proof (B j ltac:(lia)). lia.
  - destruct (Nat.eq_dec j m); [subst; lia|]. pose proof (B j ltac:(lia)). lia.
Qed.
Lemma lev_last : forall m, (forall j, m <= j -> R j n = 0) -> forall j, 0 < R j n <-> j < lev m.
Proof.
  intros m H j. destruct (lev_spec m) as [A B]. destruct (Nat.lt_ge_cases j m); [auto|]. rewrite (H j) by auto. lia.
Qed.
Lemma prefix_ok : forall k m E O mx last, mx = 2 * (m + k) -> (m = 0 -> last = 0) -> (0 < m -> last = R (lev m - 1) n) ->
  (forall j, j < m -> E j = ptr j) -> (forall j, m <= j -> E j = R j n) -> 0 < R 0 n ->
  exists last', dac_prefix k (2 * m) (tab mx E O) (lev m) (ptr m) last = Some (tab mx ptr O, lev (m + k), ptr (m + k), last') /\
    (0 < m + k -> last' = R (lev (m + k) - 1) n).
Proof.
  induction k as [|k IH]; intros m E O mx last Hmx L0 L1 HE HE' Hp; cbn [dac_prefix].
  - rewrite Nat.add_0_r in *. exists last. split; [|auto]. f_equal. f_equal. f_equal. f_equal. apply tab_ext; auto. intros. apply HE. lia.
  - rewrite tab_even by lia. cbn [obind]. rewrite tab_set_even by lia. cbn [obind]. rewrite (HE' m) by lia.
    replace (2 * m + 2) with (2 * (m + 1)) by lia. replace (m + S k) with ((m + 1) + k) by lia.
    assert (EP : ptr m + R m n = ptr (m + 1)) by (rewrite Nat.add_1_r; reflexivity). rewrite EP.
    assert (LV : lev (m + 1) = lev m + (if 0 <? R m n then 1 else 0)) by (rewrite Nat.add_1_r; reflexivity).
    assert (G1 : forall j, j < m + 1 -> (if j =? m then ptr m else E j) = ptr j). { intros j Hj. destruct (Nat.eqb_spec j m); [subst; auto|apply HE; lia]. }
    assert (G2 : forall j, m + 1 <= j -> (if j =? m then ptr m else E j) = R j n). { intros j Hj. destruct (Nat.eqb_spec j m); [lia|apply HE'; lia]. }
    destruct (Nat.ltb_spec (ptr m) (ptr (m + 1))) as [L|L].
    + rewrite (proj2 (Nat.ltb_lt 0 (R m n))) in LV by lia. rewrite <- (Nat.add_1_r (lev m)), <- LV. apply IH; auto; try lia.
      intros _. assert (LE : lev (m + 1) - 1 = m); [|rewrite LE; auto].
      destruct (lev_spec (m + 1)) as [A B]. pose proof (proj1 (B m ltac:(lia)) ltac:(lia)). lia.
    + rewrite (proj2 (Nat.ltb_ge 0 (R m n))) in LV by lia. rewrite Nat.add_0_r in LV. rewrite <- LV. apply IH; auto; try lia.
      intros _. destruct (Nat.eq_dec m 0) as [Z|Z]; [subst m; lia|]. rewrite LV. apply L1. lia.
Qed.

(** places of the blocks *)
Lemma ptr_mono : forall a d, a <= d -> ptr a <= ptr d. Proof. intros. apply psum_mono. auto. Qed.
Lemma ptr_S : forall j, ptr (j + 1) = ptr j + R j n. Proof. intros. rewrite Nat.add_1_r. reflexivity. Qed.
Lemma P_lt : forall j i, i < n -> D j i = true -> P j i < ptr (j + 1).
Proof. intros. unfold P. rewrite ptr_S. pose proof (R_pos j i H H0). lia. Qed.
Lemma P_inj : forall j i j' i', i < n -> i' < n -> D j i = true -> D j' i' = true -> P j i = P j' i' -> j = j' /\ i = i'.
Proof.
  intros j i j' i' Hi Hi' T T' E. pose proof (P_lt j i Hi T). pose proof (P_lt j' i' Hi' T'). unfold P in *.
  assert (j = j'). { destruct (Nat.lt_trichotomy j j') as [L|[L|L]]; auto; exfalso.
    - pose proof (ptr_mono (j + 1) j' ltac:(lia)). lia. - pose proof (ptr_mono (j' + 1) j ltac:(lia)). lia. }
  subst j'. split; auto. unfold R in *.
  destruct (Nat.lt_trichotomy i i') as [L|[L|L]]; auto; exfalso.
  - pose proof (rank_of_mono (D j) (S i) i' L) as M. rewrite rank_of_S, T in M. cbn [b2nat] in M. lia.
  - pose proof (rank_of_mono (D j) (S i') i L) as M. rewrite rank_of_S, T' in M. cbn [b2nat] in M. lia.
Qed.

(** the filling pass: [done i j] blocks of values before i, and the blocks below j of value i, are written *)
Variable K : nat.
Hypothesis HK : forall j, 0 < R j n <-> j < K.
Hypothesis HK1 : 1 <= K.
Definition done (i j k q : nat) : bool := (k <? i) || (k =? i) && (q <? j).
Definition filled (i j : nat) (data : list N) (ov : list bool) : Prop :=
  length data = ptr K /\ length ov = ptr (K - 1) /\
  (forall k q, k < n -> D q k = true -> done i j k q = true -> nth (P q k) data 0%N = blk (nth k c 0%N) q) /\
  (forall k q, k < n -> D q k = true -> q + 1 < K -> nth (P q k) ov false = done i j k (q + 1) && D (q + 1) k).
Lemma D_K : forall j i, i < n -> D j i = true -> j < K.
Proof. intros j i Hi T. apply HK. pose proof (R_pos j i Hi T). lia. Qed.
Lemma D_0 : forall i, D 0 i = true. Proof. reflexivity. Qed.

Lemma fill1_ok : forall fuel j i mx data ov, i < n -> 1 <= j -> 64 <= fuel + j -> 2 * K <= mx -> D (j - 1) i = true -> filled i j data ov ->
  exists data' ov', dac_fill1 b fuel (shr (nth i c 0%N) (b * j)) (2 * j) (P (j - 1) i)
      (tab mx (fun q => ptr q + R q i + (if (q <? j) && D q i then 1 else 0)) (fun _ => 0)) data ov =
    Some (tab mx (fun q => ptr q + R q (i + 1)) (fun _ => 0), data', ov') /\ filled (i + 1) 0 data' ov'.
Proof.
  assert (END : forall i j data ov, i < n -> 1 <= j -> D j i = false -> filled i j data ov -> filled (i + 1) 0 data ov).
  { intros i j data ov Hi Hj F (A & B & C & E). repeat split; auto.
    - intros k q Hk T Dn. apply C; auto. unfold done in *. destruct (Nat.ltb_spec k i); auto. destruct (Nat.eqb_spec k i).
      + subst k. cbn [andb orb]. apply Nat.ltb_lt. destruct (Nat.lt_ge_cases q j); auto. apply (dp_mono _ j q) in T; auto. unfold D in F. congruence.
      + exfalso. destruct (Nat.ltb_spec k (i + 1)); [lia|]. cbn [orb] in Dn. destruct (Nat.eqb_spec k (i + 1)); cbn in Dn; discriminate.
    - intros k q Hk T Hq. rewrite E by auto. unfold done. destruct (Nat.ltb_spec k i); destruct (Nat.ltb_spec k (i + 1)); try lia; cbn [orb]; auto.
      + assert (k = i) by lia. subst k. rewrite Nat.eqb_refl. cbn [andb]. destruct (Nat.ltb_spec (q + 1) j); auto. cbn [andb].
        destruct (D (q + 1) i) eqn:T'; auto. apply (dp_mono _ j (q + 1)) in T'; auto. unfold D in F. congruence. }
  assert (TE : forall i j mx, 1 <= j -> D j i = false -> tab mx (fun q => ptr q + R q i + (if (q <? j) && D q i then 1 else 0)) (fun _ => 0) = tab mx (fun q => ptr q + R q (i + 1)) (fun _ => 0)).
  { intros i j mx Hj F. apply tab_ext; auto. intros q _. rewrite Nat.add_1_r. unfold R. rewrite rank_of_S. destruct (Nat.ltb_spec q j); cbn [andb]; [destruct (D q i); cbn [b2nat]; lia|].
    destruct (D q i) eqn:T; cbn [b2nat]; [|lia]. apply (dp_mono _ j q) in T; auto. unfold D in F. congruence. }
  induction fuel as [|fuel IH]; intros j i mx data ov Hi Hj Hf Hm T1 FI; cbn [dac_fill1];
    destruct (N.eqb_spec (shr (nth i c 0%N) (b * j)) 0) as [Z|Z].
  1,3: assert (F : D j i = false) by (unfold D; rewrite dp_nz, Z by auto; reflexivity); exists data, ov; split; [rewrite (TE i j); auto|eapply END; eauto].
  - exfalso. assert (T : D j i = true) by (unfold D; rewrite dp_nz by auto; apply negb_true_iff, N.eqb_neq; auto). apply dp_lt64 in T; [lia|apply word_nth].
  - assert (T : D j i = true) by (unfold D; rewrite dp_nz by auto; apply negb_true_iff, N.eqb_neq; auto).
    pose proof (D_K j i Hi T) as JK. destruct FI as (A & B & C & E).
    pose proof (P_lt (j - 1) i Hi T1) as PL1. replace (j - 1 + 1) with j in PL1 by lia. pose proof (ptr_mono j (K - 1) ltac:(lia)).
    pose proof (P_lt j i Hi T) as PL2. pose proof (ptr_mono (j + 1) K ltac:(lia)).
    rewrite aset_some by lia. cbn [obind]. rewrite tab_even by lia. cbn [obind]. rewrite tab_set_even by lia. cbn [obind].
    rewrite Nat.ltb_irrefl. cbn [andb]. rewrite Nat.add_0_r. change (ptr j + R j i) with (P j i).
    rewrite aset_some by lia. cbn [obind]. rewrite shr_S. replace (2 * j + 2) with (2 * (j + 1)) by lia.
    rewrite (tab_ext mx _ (fun _ => 0) (fun q => ptr q + R q i + (if (q <? j + 1) && D q i then 1 else 0)) (fun _ => 0)); auto.
    2:{ intros q _. destruct (Nat.eqb_spec q j).
        - subst q. rewrite (proj2 (Nat.ltb_lt j (j + 1))) by lia. rewrite T. cbn [andb]. unfold P. lia.
        - destruct (Nat.ltb_spec q j); destruct (Nat.ltb_spec q (j + 1)); try lia; auto. }
    specialize (IH (j + 1) i mx). replace (j + 1 - 1) with j in IH by lia.
    apply IH; auto; try lia.
    change (N.land (shr (nth i c 0%N) (b * j)) (lo_set b)) with (blk (nth i c 0%N) j).
    repeat split.
    + rewrite upd_length. auto.
    + rewrite upd_length. auto.
    + intros k q Hk Tk Dn. rewrite nth_upd by lia. destruct (Nat.eqb_spec (P q k) (P j i)) as [PE|PE].
      * apply P_inj in PE; auto. destruct PE; subst. rewrite (proj2 (Nat.ltb_lt (P j i) (length data))) by lia. reflexivity.
      * cbn [andb]. apply C; auto. unfold done in *. destruct (k <? i); auto. cbn [orb] in *. destruct (Nat.eqb_spec k i); [|discriminate].
        subst k. cbn [andb] in *. apply Nat.ltb_lt in Dn. apply Nat.ltb_lt. destruct (Nat.eq_dec q j); [subst; congruence|lia].
    + intros k q Hk Tk Hq. rewrite nth_upd by lia. destruct (Nat.eqb_spec (P q k) (P (j - 1) i)) as [PE|PE].
      * apply P_inj in PE; auto. destruct PE; subst. rewrite (proj2 (Nat.ltb_lt _ (length ov))) by lia. cbn [andb].
        replace (j - 1 + 1) with j by lia. rewrite T. unfold done. rewrite Nat.eqb_refl, (proj2 (Nat.ltb_lt j (j + 1))) by lia. rewrite orb_true_r. reflexivity.
      * cbn [andb]. rewrite E by auto. f_equal. unfold done. destruct (k <? i); auto. cbn [orb]. destruct (Nat.eqb_spec k i); auto. subst k. cbn [andb].
        destruct (Nat.ltb_spec (q + 1) j); destruct (Nat.ltb_spec (q + 1) (j + 1)); auto; try lia. exfalso. apply PE. f_equal. lia.
Qed.
Lemma fill_ok : forall t i mx data ov, skipn i c = t -> i <= n -> 2 * K <= mx -> filled i 0 data ov ->
  exists cn data' ov', dac_fill b t (tab mx (fun q => ptr q + R q i) (fun _ => 0)) data ov = Some (cn, data', ov') /\ filled n 0 data' ov'.
Proof.
  induction t as [|x t IH]; intros i mx data ov Hs Hi Hm FI; cbn [dac_fill].
  - assert (i = n). { assert (L : length (skipn i c) = 0) by (rewrite Hs; auto). rewrite skipn_length in L. lia. } subst i. eauto 6.
  - assert (Hx : nth i c 0%N = x). { rewrite <- (firstn_skipn i c), app_nth2 by (rewrite firstn_length; lia). rewrite firstn_length, Hs. replace (i - Nat.min i n) with 0 by lia. reflexivity. }
    assert (Hl : i < n). { assert (L : length (skipn i c) = S (length t)) by (rewrite Hs; auto). rewrite skipn_length in L. lia. }
    assert (Ht : skipn (i + 1) c = t) by (rewrite Nat.add_1_r; eapply skipn_tail; eauto).
    pose proof (tab_even mx (fun q => ptr q + R q i) (fun _ => 0) 0 ltac:(lia)) as E0. change (2 * 0) with 0 in E0. rewrite E0. cbn [obind].
    pose proof (tab_set_even mx (fun q => ptr q + R q i) (fun _ => 0) 0 (S (ptr 0 + R 0 i)) ltac:(lia)) as E1. change (2 * 0) with 0 in E1. rewrite E1. cbn [obind].
    change (ptr 0 + R 0 i) with (P 0 i). destruct FI as (A & B & C & E).
    pose proof (P_lt 0 i Hl (D_0 i)) as PL. pose proof (ptr_mono (0 + 1) K ltac:(lia)).
    rewrite aset_some by lia. cbn [obind].
    rewrite (tab_ext mx _ (fun _ => 0) (fun q => ptr q + R q i + (if (q <? 1) && D q i then 1 else 0)) (fun _ => 0)); auto.
    2:{ intros q _. destruct (Nat.eqb_spec q 0); [subst; rewrite D_0; change (0 <? 1) with true; cbn iota beta delta [andb]; unfold P; lia|].
        rewrite (proj2 (Nat.ltb_ge q 1)) by lia. cbn [andb]. lia. }
    destruct (fill1_ok 64 1 i mx (upd data (P 0 i) (N.land x (lo_set b))) ov) as (data' & ov' & F1 & F2); auto; try lia.
    { repeat split; auto.
      - rewrite upd_length. auto.
      - intros k q Hk Tk Dn. rewrite nth_upd by lia. destruct (Nat.eqb_spec (P q k) (P 0 i)) as [PE|PE].
        + apply P_inj in PE; auto. destruct PE; subst. rewrite (proj2 (Nat.ltb_lt (P 0 i) (length data))) by lia. unfold blk.
          rewrite Nat.mul_0_r. replace (shr (nth i c 0%N) 0) with (nth i c 0%N) by (symmetry; apply N.shiftr_0_r). reflexivity.
        + cbn [andb]. apply C; auto. unfold done in *. destruct (k <? i); auto. cbn [orb] in *. destruct (Nat.eqb_spec k i); [|discriminate].
          subst k. cbn [andb] in *. apply Nat.ltb_lt in Dn. assert (q = 0) by lia. subst q. congruence.
      - intros k q Hk Tk Hq. rewrite E by auto. unfold done. rewrite (proj2 (Nat.ltb_ge (q + 1) 0)) by lia. rewrite (proj2 (Nat.ltb_ge (q + 1) 1)) by lia. reflexivity. }
    change (P (1 - 1) i) with (P 0 i) in F1. change (2 * 1) with 2 in F1. rewrite Nat.mul_1_r, Hx in F1. rewrite F1. cbn [obind fst snd].
    apply IH; auto. lia.
Qed.
Lemma filled_init : filled 0 0 (repeat 0%N (ptr K)) (repeat false (ptr (K - 1))).
Proof.
  repeat split; try apply repeat_length.
  - intros k q Hk T Dn. unfold done in Dn. cbn in Dn. destruct (k =? 0); discriminate.
  - intros k q Hk T Hq. unfold done. rewrite (proj2 (Nat.ltb_ge (q + 1) 0)) by lia. rewrite andb_false_r. cbn [orb andb Nat.ltb Nat.leb]. rewrite nth_repeat. reflexivity.
Qed.

(** ranks and access on the filled structure *)
Variables (data : list N) (ov : list bool).
Hypothesis HF : filled n 0 data ov.
Lemma F_ov : forall j i, i < n -> D j i = true -> j + 1 < K -> nth (P j i) ov false = D (j + 1) i.
Proof. intros j i Hi T Hj. destruct HF as (_ & _ & _ & E). rewrite E by auto. unfold done. rewrite (proj2 (Nat.ltb_lt i n) Hi). reflexivity. Qed.
Lemma F_data : forall j i, i < n -> D j i = true -> nth (P j i) data 0%N = blk (nth i c 0%N) j.
Proof. intros j i Hi T. destruct HF as (_ & _ & E & _). apply E; auto. unfold done. rewrite (proj2 (Nat.ltb_lt i n) Hi). reflexivity. Qed.
Definition rk (p : nat) : nat := rank_of (fun q => nth q ov false) p.
Lemma rk_P : forall j i, i <= n -> j + 1 < K -> rk (P j i) = rk (ptr j) + R (j + 1) i.
Proof.
  induction i as [|i IH]; intros Hi Hj. { unfold P, R. rewrite !rank_of_0, !Nat.add_0_r. reflexivity. }
  specialize (IH ltac:(lia) Hj). unfold P, R in *. rewrite !rank_of_S. destruct (D j i) eqn:T; cbn [b2nat].
  - rewrite Nat.add_assoc, Nat.add_1_r. unfold rk in *. rewrite rank_of_S, IH.
    replace (nth (ptr j + rank_of (D j) i) ov false) with (D (j + 1) i) by (symmetry; apply F_ov; auto; lia). destruct (D (j + 1) i); cbn [b2nat]; lia.
  - destruct (D (j + 1) i) eqn:T'; [apply dp_S in T'; unfold D in T; congruence|]. cbn [b2nat]. rewrite !Nat.add_0_r. auto.
Qed.
Lemma ptr_lt : forall m, m < K - 1 -> ptr m < ptr (K - 1).
Proof. intros. pose proof (proj2 (HK m) ltac:(lia)). pose proof (ptr_S m). pose proof (ptr_mono (m + 1) (K - 1) ltac:(lia)). lia. Qed.
Lemma ranks_ok : forall fuel m mx, m <= K - 1 -> 2 * K <= mx -> K - m <= fuel ->
  dac_ranks fuel m ov (tab mx ptr (fun q => if q <? m then rk (ptr q) else 0)) = Some (tab mx ptr (fun q => if q <? K - 1 then rk (ptr q) else 0)).
Proof.
  induction fuel as [|fuel IH]; intros m mx Hm Hx Hf; [lia|]. cbn [dac_ranks]. rewrite tab_length.
  rewrite (proj2 (Nat.ltb_lt (2 * m) mx)) by lia. rewrite tab_even by lia. cbn [obind].
  assert (LO : length ov = ptr (K - 1)) by apply HF. rewrite LO.
  destruct (Nat.eq_dec m (K - 1)) as [->|Ne]. { rewrite Nat.ltb_irrefl. reflexivity. }
  pose proof (ptr_lt m ltac:(lia)). rewrite (proj2 (Nat.ltb_lt _ _)) by auto. rewrite ovrank_some by lia. cbn [obind].
  rewrite tab_set_odd by lia. cbn [obind].
  rewrite (tab_ext mx ptr _ ptr (fun q => if q <? m + 1 then rk (ptr q) else 0)); auto. 2:{ intros q _. destruct (Nat.eqb_spec q m).
    - subst. rewrite (proj2 (Nat.ltb_lt m (m + 1))) by lia. reflexivity.
    - destruct (Nat.ltb_spec q m); destruct (Nat.ltb_spec q (m + 1)); auto; lia. }
  apply IH; lia.
Qed.
Lemma val_full : forall x j, 1 <= j -> dp x j = false -> (x mod 2 ^ N.of_nat (b * j))%N = x.
Proof.
  intros x j Hj H. rewrite dp_nz in H by auto. apply negb_false_iff, N.eqb_eq in H. rewrite shr_div in H.
  apply N.mod_small. apply N.div_small_iff in H; auto. apply N.pow_nonzero. discriminate.
Qed.
Lemma val_step : forall x j, (N.lor (x mod 2 ^ N.of_nat (b * j)) (shl (blk x j) (b * j)) = x mod 2 ^ N.of_nat (b * (j + 1)))%N \/ 64 <= b * j \/ ~ is_word x.
Proof.
  intros x j. destruct (Nat.lt_ge_cases (b * j) 64) as [L|L]; auto. destruct (N.lt_ge_cases x W64) as [Hx|Hx]; [left|right; right; unfold is_word; lia].
  apply tb_ext. intros k. unfold blk. rewrite tb_lor, tb_shl, !tb_mod_pow2, tb_land, tb_shr, tb_lo_set.
  replace (b * (j + 1)) with (b * j + b) by lia.
  destruct (Nat.ltb_spec k (b * j)); destruct (Nat.ltb_spec k (b * j + b)); try lia; cbn [andb].
  - rewrite (proj2 (Nat.leb_gt (b * j) k)) by lia. cbn [andb]. rewrite andb_false_r, orb_false_r. reflexivity.
  - rewrite (proj2 (Nat.leb_le (b * j) k)) by lia. rewrite (proj2 (Nat.ltb_lt (k - b * j) b)) by lia. rewrite andb_true_r. cbn [orb andb].
    replace (k - b * j + b * j) with k by lia. destruct (Nat.ltb_spec k 64); auto. cbn [andb]. symmetry. apply tb_word_high; auto.
Qed.
Lemma go_ok : forall fuel lv i mx, i < n -> 1 <= lv <= K -> K < fuel + lv -> 2 * K <= mx -> D (lv - 1) i = true ->
  dac_go b fuel (mkdac data ov (tab mx ptr (fun q => if q <? K - 1 then rk (ptr q) else 0)) K) lv (b * lv) (2 * (lv - 1)) (P (lv - 1) i)
    ((nth i c 0%N) mod 2 ^ N.of_nat (b * lv))%N = Some (nth i c 0%N).
Proof.
  induction fuel as [|fuel IH]; intros lv i mx Hi Hl Hf Hm T; [lia|]. cbn [dac_go d_max d_ov d_lp d_data].
  assert (LO : length ov = ptr (K - 1)) by apply HF. assert (LD : length data = ptr K) by apply HF.
  destruct (Nat.ltb_spec lv K).
  - pose proof (P_lt (lv - 1) i Hi T) as PL. replace (lv - 1 + 1) with lv in PL by lia. pose proof (ptr_mono lv (K - 1) ltac:(lia)).
    rewrite (nth_error_nth' ov false) by lia. cbn [obind]. rewrite F_ov by (auto; lia). replace (lv - 1 + 1) with lv by lia.
    destruct (D lv i) eqn:T'.
    + replace (2 * (lv - 1) + 2) with (2 * lv) by lia. rewrite tab_even by lia. cbn [obind]. rewrite ovrank_some by lia. cbn [obind].
      rewrite tab_odd by lia. cbn [obind]. rewrite (proj2 (Nat.ltb_lt (lv - 1) (K - 1))) by lia.
      pose proof (rk_P (lv - 1) i ltac:(lia) ltac:(lia)) as RP. replace (lv - 1 + 1) with lv in RP by lia. fold (rk (P (lv - 1) i)).
      rewrite csub_ok by lia. cbn [obind]. replace (ptr lv + (rk (P (lv - 1) i) - rk (ptr (lv - 1)))) with (P lv i) by (unfold P at 1; lia).
      pose proof (P_lt lv i Hi T'). pose proof (ptr_mono (lv + 1) K ltac:(lia)).
      rewrite (nth_error_nth' data 0%N) by lia. cbn [obind]. rewrite F_data by auto.
      pose proof (dp_shift _ lv (word_nth i) ltac:(lia) T') as SH. unfold shl_c. rewrite (proj2 (Nat.ltb_lt _ _) SH). cbn [obind].
      destruct (val_step (nth i c 0%N) lv) as [VS|[VS|VS]]; [|lia|exfalso; apply VS; apply word_nth]. rewrite VS.
      replace (b * lv + b) with (b * (lv + 1)) by lia.
      specialize (IH (lv + 1) i mx Hi ltac:(lia) ltac:(lia) Hm). replace (lv + 1 - 1) with lv in IH by lia. apply IH. auto.
    + f_equal. apply val_full; auto. lia.
  - f_equal. apply val_full; [lia|]. assert (lv = K) by lia. subst lv. destruct (dp (nth i c 0%N) K) eqn:T'; auto.
    pose proof (D_K K i Hi T'). lia.
Qed.
End dac.

Lemma dac_m : forall b c, 1 <= b <= 63 -> Forall is_word c -> exists d, dac_make b c = Some d /\ dac_size d = Some (length c) /\
  forall i x, nth_error c i = Some x -> dac_get b d i = Some x.
Proof.
  intros b c Hb Hc. destruct c as [|x0 c0]. { eexists. split; [reflexivity|]. split; [reflexivity|]. intros i x H. destruct i; discriminate. }
  remember (x0 :: c0) as c eqn:Ec. assert (Hn : 0 < length c) by (subst; cbn; lia).
  assert (M : dac_make b c = let* lp0 := aset (repeat 0 128) 0 (length c) in
         let* r := dac_count b c lp0 4 in
         let lp1 := firstn (snd r) (fst r) in
         let* pr := dac_prefix ((length lp1 + 1) / 2) 0 lp1 0 0 0 in
         let '(lp2, ml, sum, last) := pr in
         let* f := dac_fill b c lp2 (repeat 0%N sum) (repeat false (sum - last)) in
         let '(_, data, ov) := f in
         let* lp3 := dac_ranks (S (length lp2)) 0 ov lp2 in
         Some (mkdac data ov lp3 ml)) by (subst c; reflexivity).
  rewrite M. clear M.
  assert (E0 : aset (repeat 0 128) 0 (length c) = Some (tab 128 (fun q => if q =? 0 then length c else R b c q 0) (fun _ => 0))).
  { replace (repeat 0 128) with (tab 128 (fun _ => 0) (fun _ => 0)). 2:{ unfold tab. rewrite farr_repeat. apply farr_ext. intros j _. destruct (Nat.even j); auto. }
    rewrite (tab_set_even 128 _ _ 0) by lia. f_equal. }
  rewrite E0. cbn [obind].
  destruct (count_ok b c Hb Hc c 0 (fun _ => 0) 4) as (mx & E1 & E2 & E3 & E4); auto; try lia.
  rewrite E1. cbn [obind fst snd]. rewrite tab_firstn by lia. rewrite tab_length.
  assert (X : mx = 2 * (mx / 2)). { apply Nat.even_spec in E3. destruct E3 as [h ->]. rewrite Nat.mul_comm, Nat.div_mul; lia. }
  replace ((mx + 1) / 2) with (mx / 2). 2:{ rewrite X at 2. rewrite (Nat.mul_comm 2), Nat.div_add_l by lia. change (1 / 2) with 0. lia. }
  set (h := mx / 2) in *.
  assert (R0 : R b c 0 (length c) = length c) by (apply rank_of_all_true; reflexivity).
  destruct (prefix_ok b c Hb h 0 (fun q => R b c q (length c)) (fun _ => 0) mx 0) as (last & P1 & P2); auto; try lia.
  cbn [lev] in P1. change (ptr b c 0) with 0 in P1. cbn [Nat.add] in *. change (2 * 0) with 0 in P1. rewrite P1. cbn [obind].
  set (K := lev b c h) in *.
  assert (HK : forall j, 0 < R b c j (length c) <-> j < K).
  { apply lev_last; auto. intros j Hj. destruct (Nat.eq_dec (R b c j (length c)) 0) as [|N0]; auto. exfalso.
    assert (Z : forall k, k <= length c -> rank_of (D b c j) k = 0).
    { induction k; intros Hk; auto. rewrite rank_of_S, IHk by lia. destruct (D b c j k) eqn:T; auto. pose proof (E4 j k ltac:(lia) ltac:(lia) T). lia. }
    apply N0. apply Z. lia. }
  assert (K1 : 1 <= K) by (pose proof (proj1 (HK 0) ltac:(lia)); lia).
  assert (Kh : K <= h). { destruct (lev_spec b c Hb h). auto. }
  assert (PK : ptr b c h = ptr b c K). { apply psum_zero; auto. intros j Hj. destruct (Nat.eq_dec (R b c j (length c)) 0); auto. pose proof (proj1 (HK j) ltac:(lia)). lia. }
  rewrite PK. assert (PK1 : ptr b c K - last = ptr b c (K - 1)). { rewrite P2 by lia. pose proof (ptr_S b c (K - 1)) as PS. replace (K - 1 + 1) with K in PS by lia. lia. }
  rewrite PK1.
  assert (TI : tab mx (ptr b c) (fun _ => 0) = tab mx (fun q => ptr b c q + R b c q 0) (fun _ => 0)).
  { apply tab_ext; auto. }
  rewrite TI.
  destruct (fill_ok b c Hb Hc K HK K1 c 0 mx (repeat 0%N (ptr b c K)) (repeat false (ptr b c (K - 1)))) as (cn & data & ov & F1 & F2); auto; try lia.
  { apply filled_init; auto. }
  rewrite F1. cbn [obind]. rewrite <- TI, tab_length.
  pose proof (ranks_ok b c Hb K HK K1 data ov F2 (S mx) 0 mx ltac:(lia) ltac:(lia) ltac:(lia)) as RO.
  assert (TJ : tab mx (ptr b c) (fun _ => 0) = tab mx (ptr b c) (fun q => if q <? 0 then rk ov (ptr b c q) else 0)) by (apply tab_ext; auto).
  rewrite TJ, RO. cbn [obind]. eexists. split; [reflexivity|]. split.
  - unfold dac_size. cbn [d_lp]. change 2 with (2 * 1). rewrite tab_even by lia. f_equal. change (ptr b c 1) with (0 + R b c 0 (length c)). lia.
  - intros i x Hx. assert (Hi : i < length c) by (apply nth_error_Some; congruence).
    assert (Ex : x = nth i c 0%N) by (symmetry; apply nth_error_nth; auto). subst x.
    unfold dac_get. cbn [d_data d_lp].
    assert (LD : length data = ptr b c K) by apply F2.
    assert (P0 : P b c 0 i = i). { unfold P. change (ptr b c 0) with 0. unfold R. rewrite rank_of_all_true; [lia|reflexivity]. }
    pose proof (P_lt b c Hb 0 i Hi eq_refl). pose proof (ptr_mono b c (0 + 1) K ltac:(lia)). rewrite P0 in *.
    rewrite (nth_error_nth' data 0%N) by lia. cbn [obind]. 
    pose proof (tab_even mx (ptr b c) (fun q => if q <? K - 1 then rk ov (ptr b c q) else 0) 0 ltac:(lia)) as TE0. change (2 * 0) with 0 in TE0. rewrite TE0. cbn [obind].
    pose proof (go_ok b c Hb Hc K HK K1 data ov F2 65 1 i mx Hi ltac:(lia)) as G. change (1 - 1) with 0 in G. rewrite Nat.mul_1_r, P0 in G. change (2 * 0) with 0 in G.
    pose proof (F_data b c K data ov F2 0 i Hi eq_refl) as FD. rewrite P0 in FD. rewrite FD.
    unfold blk. rewrite Nat.mul_0_r. replace (shr (nth i c 0%N) 0) with (nth i c 0%N) by (symmetry; apply N.shiftr_0_r). rewrite land_lo_set.
    change (ptr b c 0) with 0. cbn [Nat.add]. apply G; auto; try lia.
Qed.
