(** * Proofs about select_support_mcl *)
From Coq Require Import NArith List Bool Arith Lia.
From Verif Require Import Base Bits SpecBits RankSelect BitsProofs BitsProofs2 BitsProofs3 BitsProofs4 BitsMem
  IntVector SpecIntVector IntVectorProofs IntVectorProofs3 SpecRank RankSupport RankSupportProofs RankSupportProofs2 AbsVec SelectSupport
  SelectSupportProofs.
Import ListNotations.

(** ** arg_cnt *)
Lemma occ_ext : forall p f g k, (forall j, j <= k -> f j = g j) -> occ p f k = occ p g k.
Proof. intros p f g k E. destruct p; cbn [occ]; rewrite ?E by lia; auto. Qed.

Lemma rt_c_upd : forall p m w x, rt_c p (upd m w x) w = rt_c p m w.
Proof. intros. destruct p, w; cbn [rt_c]; auto; rewrite nth_upd_neq by lia; auto. Qed.

Lemma sst_arg_loop_ok : forall p m todo i, words_ok m -> (N.of_nat (64 * length m) < W64)%N -> i + todo <= length m ->
  sst_arg_loop p m todo i (N.of_nat (rank_of (occ p (mbit m)) (64 * i))) (b2n (rt_c p m i)) =
  Some (N.of_nat (rank_of (occ p (mbit m)) (64 * (i + todo))), b2n (rt_c p m (i + todo))).
Proof.
  intros p m todo. induction todo; intros i M LB L; cbn [sst_arg_loop].
  - rewrite Nat.add_0_r. auto.
  - rewrite ld_some by lia. cbn [obind]. rewrite rt_args_R by auto. set (h := occ p (mbit m)) in *.
    assert (A : rank_of h (64 * i) <= rank_of h (64 * i + 64)) by (apply rank_of_mono; lia). pose proof (rank_of_le h (64 * i + 64)).
    rewrite wadd_small by lia. replace (N.of_nat (rank_of h (64 * i)) + N.of_nat (rank_of h (64 * i + 64) - rank_of h (64 * i)))%N with (N.of_nat (rank_of h (64 * S i))).
    { rewrite IHtodo by (auto; lia). replace (S i + todo) with (i + S todo) by lia. auto. }
    replace (64 * S i) with (64 * i + 64) by lia. lia.
Qed.

Lemma sst_arg_cnt2_ok : forall p mask v, iv_ok v -> (N.of_nat (64 * length (iv_data v)) < W64)%N ->
  (forall x k, k < 64 -> is_word x -> is_word (mask x k)) ->
  (forall x k j, k < 64 -> j < k -> tb (mask x k) j = tb x j) ->
  (forall m x k w j, words_ok m -> w < length m -> k <= j -> j < 64 -> occ p (mbit (upd m w (mask x k))) (64 * w + j) = false) ->
  sst_arg_cnt2 p mask v = Some (N.of_nat (rank_of (occ p (mbit (iv_data v))) (iv_size v))).
Proof.
  intros p mask v V LB K1 K2 K3. destruct V as [A [B C]]. unfold sst_arg_cnt2, iv_empty.
  destruct (Nat.eqb_spec (iv_size v) 0) as [Z|Z]. { rewrite Z. auto. }
  set (m := iv_data v) in *. set (n := iv_size v / 64). set (o := iv_size v mod 64).
  assert (EN : iv_size v = 64 * n + o) by (unfold n, o; lia). assert (O : o < 64) by (unfold o; lia).
  rewrite (rt_c_0 p m). assert (E := sst_arg_loop_ok p m n 0 A LB). change (N.of_nat (rank_of (occ p (mbit m)) (64 * 0))) with 0%N in E.
  rewrite E by lia. cbn [obind]. change (0 + n) with n. destruct (Nat.eqb_spec o 0) as [Zo|Zo]; cbn [negb].
  - rewrite EN, Zo, Nat.add_0_r. auto.
  - rewrite ld_some by lia. cbn [obind]. set (x := nth n m 0%N). set (m' := upd m n (mask x o)).
    assert (X : is_word x) by (apply words_ok_nth; auto). assert (M' : words_ok m') by (apply words_ok_upd; auto).
    assert (NX : nth n m' 0%N = mask x o) by (apply nth_upd_eq; lia).
    rewrite <- NX. replace (rt_c p m n) with (rt_c p m' n) by apply rt_c_upd. rewrite rt_args_R by auto. cbn [fst]. f_equal.
    assert (BM : forall j, j < 64 * n + o -> mbit m' j = mbit m j).
    { intros j J. destruct (Nat.lt_ge_cases j (64 * n)) as [L|L].
      - unfold mbit, m'. rewrite nth_upd_neq; auto. lia.
      - replace j with (64 * n + (j - 64 * n)) by lia. rewrite !mbit_wo by lia. rewrite NX. apply K2; lia. }
    assert (E1 : forall e, e <= 64 * n + o -> rank_of (occ p (mbit m')) e = rank_of (occ p (mbit m)) e).
    { intros. apply rank_of_ext. intros. apply occ_ext. intros. apply BM. lia. }
    rewrite (rank_of_all_false (occ p (mbit m')) (64 * n + o) (64 * n + 64)); [|lia|].
    + rewrite !E1 by lia. rewrite EN.
      assert (rank_of (occ p (mbit m)) (64 * n) <= rank_of (occ p (mbit m)) (64 * n + o)) by (apply rank_of_mono; lia).
      pose proof (rank_of_le (occ p (mbit m)) (64 * n + o)). rewrite wadd_small by lia. lia.
    + intros. replace j with (64 * n + (j - 64 * n)) by lia. apply K3; auto; lia.
Qed.

Lemma arg_cnt_ok : forall p v, iv_ok v -> (N.of_nat (64 * length (iv_data v)) < W64)%N ->
  sst_arg_cnt p v = Some (N.of_nat (rank_of (occ p (mbit (iv_data v))) (iv_size v))).
Proof.
  intros p v V LB. assert (SZ : (N.of_nat (iv_size v) < W64)%N) by (destruct V as [_ [_ C]]; lia).
  assert (BITS : forall j, j < iv_size v -> nth j (iv_bits v) false = mbit (iv_data v) j) by (intros; apply iv_bit_mbit; auto).
  assert (LEN : length (iv_bits v) = iv_size v) by (unfold iv_bits; rewrite map_length, seq_length; auto).
  destruct p; cbn [sst_arg_cnt].
  - rewrite cnt_one_bits_ok by auto. cbn [obind]. f_equal. rewrite count_true_iv_bits.
    pose proof (rank_of_le (mbit (iv_data v)) (iv_size v)).
    rewrite wsub_small by (unfold is_word; lia). change (occ P0 (mbit (iv_data v))) with (fun k => negb (mbit (iv_data v) k)). rewrite rank_of_negb. lia.
  - rewrite cnt_one_bits_ok by auto. rewrite count_true_iv_bits. auto.
  - rewrite cnt_onezero_ok by auto. do 2 f_equal. unfold iv_bits. rewrite count_pat2_rank. apply rank_of_ext. intros [|j] J; cbn [prevbit occ]; auto.
    replace (0 <? S j) with true by lia. replace (S j - 1) with j by lia. cbn [andb]. destruct (mbit (iv_data v) j), (mbit (iv_data v) (S j)); auto.
  - rewrite cnt_zeroone_ok by auto. do 2 f_equal. unfold iv_bits. rewrite count_pat2_rank. apply rank_of_ext. intros [|j] J; cbn [prevbit occ]; auto.
    replace (0 <? S j) with true by lia. replace (S j - 1) with j by lia. cbn [andb]. destruct (mbit (iv_data v) j), (mbit (iv_data v) (S j)); auto.
  - apply sst_arg_cnt2_ok; auto.
    + intros. apply is_word_lor; auto. apply is_word_tb. intros. rewrite lo_unset_bit by lia. replace (k0 <? 64) with false by lia. apply andb_false_r.
    + intros. rewrite tb_lor, lo_unset_bit by lia. replace (k <=? j) with false by lia. apply orb_false_r.
    + intros. cbn [occ]. rewrite (mbit_wo _ w j) by lia. rewrite nth_upd_eq by auto. rewrite tb_lor, lo_unset_bit by lia.
      replace (k <=? j) with true by lia. replace (j <? 64) with true by lia. rewrite orb_true_r. apply andb_false_r.
  - apply sst_arg_cnt2_ok; auto.
    + intros. apply is_word_land_l; auto.
    + intros. rewrite tb_land, tb_lo_set. replace (j <? k) with true by lia. apply andb_true_r.
    + intros. cbn [occ]. rewrite (mbit_wo _ w j) by lia. rewrite nth_upd_eq by auto. rewrite tb_land, tb_lo_set.
      replace (j <? k) with false by lia. rewrite andb_false_r. apply andb_false_r.
Qed.

(** ** found_arg *)
Lemma found_ok : forall p v i, words_ok (iv_data v) -> i < 64 * length (iv_data v) -> sst_found p v i = Some (occ p (mbit (iv_data v)) i).
Proof.
  intros p v i M I. assert (G : forall j, j <= i -> bv_get v j = Some (mbit (iv_data v) j)) by (intros; apply bv_get_ok; auto; lia).
  destruct p; cbn [sst_found occ]; try (rewrite G by lia; auto; fail);
  (destruct (Nat.ltb_spec 0 i); [|auto]; rewrite !G by lia; cbn [obind andb]; destruct (mbit (iv_data v) (i - 1)); cbn [negb obind andb]; auto).
Qed.

(** ** the structure *)
Section MCL.
Variable p : pat.
Variable v : ivec.
Hypothesis V : iv_ok v.
Hypothesis LB : (N.of_nat (64 * length (iv_data v)) < W64)%N.
Let m := iv_data v.
Let h := occ p (mbit m).
Let n := iv_size v.
Let A := rank_of h n.

(** position of argument [j] (0-based) *)
Definition argp (j : nat) : nat := nth j (positions h n) 0.
Lemma argp_sel : forall j, j < A -> is_select h (j + 1) (argp j) /\ argp j < n.
Proof. intros. apply nth_positions. auto. Qed.
Lemma argp_is : forall j x, is_select h (j + 1) x -> x < n -> argp j = x.
Proof. intros. unfold argp. rewrite <- (select_positions h n (j + 1) x 0) by auto. f_equal. lia. Qed.
Lemma argp_lt : forall i j, i < j -> j < A -> argp i < argp j.
Proof. intros. destruct (argp_sel i) as [S1 _]; [lia|]. destruct (argp_sel j) as [S2 _]; [lia|]. eapply is_select_mono; eauto. lia. Qed.
Lemma argp_le : forall i j, i <= j -> j < A -> argp i <= argp j.
Proof. intros. destruct (Nat.eq_dec i j) as [->|]; auto. apply Nat.lt_le_incl. apply argp_lt; lia. Qed.
Lemma n_bound : (N.of_nat n < W64)%N.
Proof. destruct V as [_ [_ C]]. unfold n. lia. Qed.

Definition long_ok (s : mcl) (b : nat) : Prop :=
  exists L t, mc_long s = Some L /\ nth_error L b = Some t /\ av_size t = SBS /\
  forall j, j < SBS -> SBS * b + j < A -> nth j (av_l t) 0%N = N.of_nat (argp (SBS * b + j)).
Definition no_long (s : mcl) (b : nat) : Prop :=
  match mc_long s with None => True | Some L => nth_error L b = Some av_nil end.
Definition short_ok (s : mcl) (b : nat) : Prop :=
  no_long s b /\ b < av_size (mc_sb s) /\ nth b (av_l (mc_sb s)) 0%N = N.of_nat (argp (SBS * b)) /\
  exists t, nth_error (mc_mini s) b = Some t /\ av_size t = 64 /\
    forall k, k < 64 -> SBS * b + 64 * k < A -> nth k (av_l t) 0%N = N.of_nat (argp (SBS * b + 64 * k) - argp (SBS * b)).
Definition block_ok (s : mcl) (b : nat) : Prop := long_ok s b \/ short_ok s b.

Lemma mc_select_ok : forall s i, (forall b, SBS * b < A -> block_ok s b) -> 1 <= i <= A -> mc_select p v s i = Some (argp (i - 1)).
Proof.
  intros s i OK I. unfold mc_select. set (b := (i - 1) / SBS). set (o := (i - 1) mod SBS).
  assert (EI : i - 1 = SBS * b + o) by (unfold b, o, SBS; lia). assert (O : o < SBS) by (unfold o, SBS; lia).
  clearbody b o. assert (SB : SBS * b + o < A) by lia. assert (BA : SBS * b < A) by lia.
  pose proof n_bound as NBD.
  destruct (OK b BA) as [[L [t [H1 [H2 [H3 H4]]]]]|[H1 [H2 [H3 [t [H4 [H5 H6]]]]]]].
  - rewrite H1, H2. cbn [obind]. rewrite H3. replace (SBS =? 0) with false by reflexivity. cbn [negb].
    rewrite av_get_some by lia. cbn [obind]. rewrite H4 by auto. rewrite Nnat.Nat2N.id. do 2 f_equal. lia.
  - assert (SH : (let* a := av_get (mc_sb s) b in let* t := nth_error (mc_mini s) b in let* b0 := av_get t (o / 64) in
        if o mod 64 =? 0 then Some (N.to_nat (wadd a b0))
        else sst_scan p (iv_data v) (N.to_nat (wadd (wadd a b0) 1)) (i - 1 - b * SBS - o / 64 * 64)) = Some (argp (i - 1))).
    { set (k := o / 64). set (r := o mod 64). assert (EO : o = 64 * k + r) by (unfold k, r; lia).
      assert (R64 : r < 64) by (unfold r; lia). clearbody k r. assert (K : k < 64) by (unfold SBS in O; lia).
      rewrite av_get_some by auto. cbn [obind]. rewrite H4. cbn [obind]. rewrite av_get_some by lia. cbn [obind].
      rewrite H3, H6 by lia. pose proof (argp_le (SBS * b) (SBS * b + 64 * k)) as LE. destruct (argp_sel (SBS * b + 64 * k)) as [S1 S2]; [lia|].
      assert (AD : wadd (N.of_nat (argp (SBS * b))) (N.of_nat (argp (SBS * b + 64 * k) - argp (SBS * b))) = N.of_nat (argp (SBS * b + 64 * k))).
      { rewrite wadd_small by lia. lia. }
      rewrite AD. destruct (Nat.eqb_spec r 0) as [Z|Z].
      - rewrite Nnat.Nat2N.id. do 2 f_equal. lia.
      - rewrite wadd_small by lia. replace (N.to_nat (N.of_nat (argp (SBS * b + 64 * k)) + 1)) with (S (argp (SBS * b + 64 * k))) by lia.
        destruct (argp_sel (i - 1)) as [S3 S4]; [lia|].
        apply sst_scan_ok; auto. { destruct V; auto. } { lia. }
        + fold m. fold h. destruct (rank_select _ _ _ S1) as [_ R1]. rewrite R1.
          replace (SBS * b + 64 * k + 1 + (i - 1 - b * SBS - k * 64)) with (i - 1 + 1) by lia. auto.
        + destruct V as [_ [_ C]]. unfold n in *. lia. }
    unfold no_long in H1. destruct (mc_long s) as [L|].
    + rewrite H1. cbn [obind]. replace (av_size av_nil =? 0) with true by reflexivity. cbn [negb]. exact SH.
    + exact SH.
Qed.
End MCL.
