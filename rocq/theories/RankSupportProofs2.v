(** * Proofs about rank_support_v5 and rank_support_scan *)
From Coq Require Import NArith List Bool Arith Lia.
From Verif Require Import Base Bits SpecBits RankSelect BitsProofs BitsProofs2 BitsProofs4 BitsMem
  IntVector SpecIntVector IntVectorProofs IntVectorProofs3 SpecRank RankSupport RankSupportProofs.
Import ListNotations.

Lemma div32_ex : forall i, 1 <= i -> exists B r, (i - 1) / 32 = B /\ i = 32 * B + r + 1 /\ r < 32.
Proof. intros. exists ((i - 1) / 32), ((i - 1) mod 32). lia. Qed.
Lemma div32_is : forall i B r, i = 32 * B + r + 1 -> r < 32 -> (i - 1) / 32 = B.
Proof. intros. lia. Qed.

Section RS5.
Variable p : pat.
Variable m : mem.
Variable n : nat.   (* number of words *)
Hypothesis M : words_ok m.
Hypothesis NL : n <= length m.
Hypothesis NB : (N.of_nat (64 * n) < W64)%N.
Let h := occ p (mbit m).
Let R := rank_of h.

Definition v5_packed (b e : nat) (sl : N) : Prop :=
  forall k, k < 6 -> pk sl (60 - 12 * k) 11 = if (1 <=? k) && (32 * b + 6 * k <=? e) then N.of_nat (R (64 * (32 * b + 6 * k)) - R (64 * (32 * b))) else 0%N.

Let R_bound5 : forall x, R x <= x. Proof. intros. apply rank_of_le. Qed.
Let R_diff5 : forall a b, a <= b -> R a <= R b /\ R b - R a <= b - a.
Proof. intros. split; [apply rank_of_mono|apply rank_of_step]; auto. Qed.
Let R_word5 : forall w, rank_of (fun k => occ p (mbit m) (64 * w + k)) 64 = R (64 * (w + 1)) - R (64 * w).
Proof. intros. unfold R. replace (64 * (w + 1)) with (64 * w + 64) by lia. rewrite rank_of_add. unfold h. lia. Qed.

Lemma v5_packed_add : forall b e c sl, e = 32 * b + 6 * c -> 1 <= c <= 5 -> v5_packed b (e - 1) sl ->
  v5_packed b e (N.lor sl (shl (N.of_nat (R (64 * e) - R (64 * (32 * b)))) (60 - 12 * c))).
Proof.
  intros b e c sl E K P k Hk. rewrite pk_lor, P by auto.
  destruct (R_diff5 (64 * (32 * b)) (64 * e)) as [D1 D2]; [lia|].
  assert (SB : (N.of_nat (R (64 * e) - R (64 * (32 * b))) < 2 ^ N.of_nat 11)%N) by (change (2 ^ N.of_nat 11)%N with 2048%N; lia).
  destruct (Nat.eq_dec k c) as [->|NE].
  - rewrite pk_same by (auto; lia). replace (32 * b + 6 * c <=? e - 1) with false by lia. rewrite andb_false_r, N.lor_0_l.
    replace (32 * b + 6 * c <=? e) with true by lia. replace (1 <=? c) with true by lia. cbn [andb].
    do 4 f_equal. lia.
  - rewrite pk_other by (auto; lia). rewrite N.lor_0_r. replace (32 * b + 6 * k <=? e - 1) with (32 * b + 6 * k <=? e); auto.
    destruct (Nat.leb_spec (32 * b + 6 * k) e); lia.
Qed.
Lemma v5_packed_keep : forall b e sl, 32 * b <= e -> (e - 32 * b) mod 6 <> 0 -> v5_packed b (e - 1) sl -> v5_packed b e sl.
Proof.
  intros b e sl E K P k Hk. rewrite P by auto. replace (32 * b + 6 * k <=? e - 1) with (32 * b + 6 * k <=? e); auto.
  destruct (Nat.leb_spec (32 * b + 6 * k) e), (Nat.leb_spec (32 * b + 6 * k) (e - 1)); lia.
Qed.
Lemma v5_packed_0 : forall b e, e = 32 * b -> v5_packed b e 0.
Proof. intros b e E k Hk. rewrite pk_0. replace ((1 <=? k) && (32 * b + 6 * k <=? e)) with false by lia. auto. Qed.
Lemma v5_packed_end : forall b e e' sl, 32 * b + 30 <= e <= e' -> v5_packed b e sl -> v5_packed b e' sl.
Proof.
  intros b e e' sl E P k Hk. rewrite P by auto. replace (32 * b + 6 * k <=? e') with true by lia.
  replace (32 * b + 6 * k <=? e) with true by lia. auto.
Qed.

Definition v5_inv (i : nat) (s : rs5_st) : Prop :=
  let '(bb, j, sum, sl, cw) := s in let B := (i - 1) / 32 in
  length bb = 2 * (n / 32 + 1) /\ j = 2 * B /\ sum = N.of_nat (R (64 * i) - R (64 * (32 * B))) /\ cw = i - 32 * B /\
  (forall b, b <= B -> nth (2 * b) bb 0%N = N.of_nat (R (64 * (32 * b)))) /\
  (forall b, b < B -> v5_packed b (32 * b + 31) (nth (2 * b + 1) bb 0%N)) /\
  v5_packed B (i - 1) sl.

Lemma flush5_ok : forall bb B sl sum, length bb = 2 * (n / 32 + 1) -> S B <= n / 32 ->
  sum = N.of_nat (R (64 * (32 * S B)) - R (64 * (32 * B))) ->
  (forall b, b <= B -> nth (2 * b) bb 0%N = N.of_nat (R (64 * (32 * b)))) ->
  (forall b, b < B -> v5_packed b (32 * b + 31) (nth (2 * b + 1) bb 0%N)) -> v5_packed B (32 * B + 31) sl ->
  exists bb1 bb2, st bb (2 * B + 2 - 1) sl = Some bb1 /\ ld bb1 (2 * B + 2 - 2) = Some (N.of_nat (R (64 * (32 * B)))) /\
    st bb1 (2 * B + 2) (wadd (N.of_nat (R (64 * (32 * B)))) sum) = Some bb2 /\ length bb2 = length bb /\
    (forall b, b <= S B -> nth (2 * b) bb2 0%N = N.of_nat (R (64 * (32 * b)))) /\
    (forall b, b < S B -> v5_packed b (32 * b + 31) (nth (2 * b + 1) bb2 0%N)).
Proof.
  intros bb B sl sum L BN ES HE HO HP.
  assert (BB : (N.of_nat (64 * (32 * S B)) < W64)%N). { assert (32 * (n / 32) <= n) by (apply Nat.mul_div_le; lia). assert (32 * S B <= n) by lia. clear - NB H0. lia. }
  remember (n / 32) as nb eqn:Enb. clear Enb. 
  destruct (R_diff5 (64 * (32 * B)) (64 * (32 * S B))) as [D1 D2]; [lia|]. pose proof (R_bound5 (64 * (32 * S B))) as D3.
  assert (AD : wadd (N.of_nat (R (64 * (32 * B)))) sum = N.of_nat (R (64 * (32 * S B)))). { subst sum. clear - BB D1 D2 D3. rewrite wadd_small by lia. lia. }
  rewrite AD. clear D1 D2 D3 BB AD. clear NB NL M.
  rewrite st_some by lia. do 2 eexists. split; [reflexivity|].
  split. { rewrite ld_some by (rewrite upd_length; lia). rewrite nth_upd_neq by lia. replace (2 * B + 2 - 2) with (2 * B) by lia. rewrite HE; auto. }
  split. { apply st_some. rewrite upd_length. lia. }
  split. { rewrite !upd_length. auto. }
  split.
  - intros b Hb. destruct (Nat.eq_dec b (S B)) as [->|NE].
    + replace (2 * S B) with (2 * B + 2) by lia. rewrite nth_upd_eq by (rewrite upd_length; lia). auto.
    + rewrite !nth_upd_neq by lia. apply HE. lia.
  - intros b Hb. rewrite nth_upd_neq by lia. destruct (Nat.eq_dec b B) as [->|NE].
    + replace (2 * B + 2 - 1) with (2 * B + 1) by lia. rewrite nth_upd_eq by lia. auto.
    + rewrite nth_upd_neq by lia. apply HO. lia.
Qed.

Lemma v5_loop_ok : forall todo i s, 1 <= i -> i + todo = n -> v5_inv i s ->
  exists s', rs5_loop p m todo i s (b2n (rt_c p m i)) = Some s' /\ v5_inv n s'.
Proof.
  induction todo; intros i s I E H; cbn [rs5_loop].
  - replace n with i by lia. eauto.
  - destruct s as [[[[bb j] sum] sl] cw]. destruct H as [L [J [SU [CW [HE [HO HP]]]]]]. unfold rs5_step.
    assert (RW := R_word5 i). destruct (R_diff5 (64 * i) (64 * (i + 1))) as [D1 D2]; [lia|].
    destruct (div32_ex i I) as [B [r [EB [Ei Hr]]]]. rewrite EB in *.
    destruct (R_diff5 (64 * (32 * B)) (64 * i)) as [D3 D4]; [lia|].
    assert (IL : i < length m) by lia.
    assert (BI : (N.of_nat (64 * i + 64) < W64)%N) by lia.
    pose proof (R_bound5 (64 * (i + 1))) as D5.
    destruct (Nat.eqb_spec cw 32) as [Z|Z].
    + assert (r = 31) by lia. subst r cw.
      assert (BN : S B <= n / 32). { replace n with (32 * S B + S todo) by lia. clear. rewrite Nat.mul_comm, Nat.div_add_l by lia. lia. }
      destruct (flush5_ok bb B sl sum L) as [bb1 [bb2 [F1 [F2 [F3 [F4 [F5 F6]]]]]]]; auto.
      { rewrite SU. do 3 f_equal. lia. } { replace (32 * B + 31) with (i - 1) by lia. auto. }
      subst j. rewrite F1. cbn [obind]. rewrite F2. cbn [obind]. rewrite F3. cbn [obind].
      rewrite ld_some by auto. cbn [obind]. rewrite rt_args_ok by auto. apply IHtodo; [lia|lia|].
      cbn [v5_inv]. rewrite (div32_is (S i) (S B) 0) by lia. split; [congruence|]. split; [lia|]. split.
      { rewrite RW. replace (64 * S i) with (64 * (i + 1)) by lia. replace (64 * (32 * S B)) with (64 * i) by lia. apply wadd_small. lia. }
      split; [lia|]. split; auto. split; auto. apply v5_packed_0. lia.
    + assert (GO : forall sl', v5_packed B i sl' -> exists s' : rs5_st,
        (let* x := ld m i in let '(c, carry0) := rt_args p x (b2n (rt_c p m i)) in rs5_loop p m todo (S i) (bb, j, wadd sum c, sl', cw + 1) carry0) = Some s' /\ v5_inv n s').
      { intros sl' HP'. rewrite ld_some by auto. cbn [obind]. rewrite rt_args_ok by auto. apply IHtodo; [lia|lia|].
        cbn [v5_inv]. rewrite (div32_is (S i) B (S r)) by lia. split; auto. split; auto. split.
        { rewrite RW, SU. replace (64 * S i) with (64 * (i + 1)) by lia. rewrite wadd_small by lia. lia. }
        split; [lia|]. split; auto. split; auto. replace (S i - 1) with i by lia. auto. }
      clear IHtodo HE HO. assert (CR : cw = S r) by lia.
      destruct (Nat.eqb_spec (cw mod 6) 0) as [Z6|Z6]; cbn [obind]; apply GO; clear GO.
      * rewrite SU. apply v5_packed_add; auto.
        { assert (cw = 6 * (cw / 6)) by (clear - Z6; lia). lia. }
        { clear - Z6 CR Hr Z. lia. }
      * apply v5_packed_keep; auto. { lia. } { replace (i - 32 * B) with cw by lia. auto. }
Qed.

Definition v5_table (bb : mem) : Prop :=
  length bb = 2 * (n / 32 + 1) /\
  forall b, b <= n / 32 -> nth (2 * b) bb 0%N = N.of_nat (R (64 * (32 * b))) /\ v5_packed b (Nat.min n (32 * b + 31)) (nth (2 * b + 1) bb 0%N).

Lemma rs5_words_ok : forall todo w r, todo <= w -> w <= n -> (r + N.of_nat (R (64 * w) - R (64 * (w - todo))) < W64)%N ->
  rs5_words p m todo (64 * w) r = Some (r + N.of_nat (R (64 * w) - R (64 * (w - todo))))%N.
Proof.
  induction todo; intros w r H1 H2 H3; cbn [rs5_words].
  - f_equal. replace (w - 0) with w by lia. lia.
  - rewrite rt_full_ok by (auto; lia). cbn [obind]. replace ((64 * w - 1) / 64) with (w - 1) by lia. rewrite R_word5.
    replace (w - 1 + 1) with w by lia. destruct (R_diff5 (64 * (w - 1)) (64 * w)) as [D1 D2]; [lia|].
    destruct (R_diff5 (64 * (w - 1 - todo)) (64 * (w - 1))) as [D3 D4]; [lia|].
    replace (w - S todo) with (w - 1 - todo) in * by lia.
    rewrite wadd_small by lia. replace (64 * w - 64) with (64 * (w - 1)) by lia. rewrite IHtodo by lia.
    f_equal. lia.
Qed.

Lemma v5_query : forall bb (v : ivec) idx, v5_table bb -> iv_data v = m -> idx <= 64 * n -> idx / 64 < length m ->
  rs5_rank p v bb idx = Some (N.of_nat (R idx)).
Proof.
  intros bb v idx [L T] D I PW. unfold rs5_rank. set (B := idx / (64 * 32)). replace (idx / (64 * 16) / 2 * 2) with (2 * B) by (unfold B; lia).
  destruct (T B ltac:(unfold B; lia)) as [T1 T2].
  rewrite ld_some by (unfold B; lia). cbn [obind]. rewrite ld_some by (unfold B; lia). cbn [obind]. rewrite T1.
  set (k := idx mod (64 * 32) / (64 * 6)). assert (Hk : k < 6) by (unfold k; lia).
  cbv zeta. change 0x7FF%N with (lo_set 11). fold (pk (nth (2 * B + 1) bb 0%N) (60 - 12 * k) 11). fold k.
  set (W := idx / 64). assert (EW : W = 32 * B + 6 * k + (W mod 32) mod 6) by (unfold W, B, k; lia).
  assert (EI : idx = 64 * W + idx mod 64) by (unfold W; lia).
  assert (PK := T2 k Hk). replace (32 * B + 6 * k <=? Nat.min n (32 * B + 31)) with true in PK by lia. rewrite andb_true_r in PK. rewrite PK.
  destruct (R_diff5 (64 * (32 * B)) (64 * (32 * B + 6 * k))) as [D1 D2]; [lia|].
  pose proof (R_bound5 (64 * (32 * B + 6 * k))).
  assert (S1 : wadd (N.of_nat (R (64 * (32 * B)))) (if 1 <=? k then N.of_nat (R (64 * (32 * B + 6 * k)) - R (64 * (32 * B))) else 0%N) = N.of_nat (R (64 * (32 * B + 6 * k)))).
  { destruct (Nat.leb_spec 1 k).
    - rewrite wadd_small by lia. lia.
    - replace (64 * (32 * B + 6 * k)) with (64 * (32 * B)) in * by lia. rewrite wadd_small by lia. lia. }
  rewrite S1. rewrite D. rewrite rt_word_ok by auto. cbn [obind]. fold W.
  assert (RI : R idx = R (64 * W) + rank_of (fun j => occ p (mbit m) (64 * W + j)) (idx mod 64)).
  { unfold R. rewrite EI at 1. rewrite rank_of_add. auto. }
  set (rw := rank_of (fun j => occ p (mbit m) (64 * W + j)) (idx mod 64)) in *.
  pose proof (R_bound5 idx). destruct (R_diff5 (64 * (32 * B + 6 * k)) (64 * W)) as [D3 D4]; [lia|].
  assert (rw <= 64). { unfold rw. etransitivity; [apply rank_of_le|]. lia. }
  rewrite wadd_small by lia. replace (idx - idx mod 64) with (64 * W) by lia. replace (64 * W / 64) with W by lia.
  assert (EB : W - W mod 32 mod 6 = 32 * B + 6 * k) by lia.
  rewrite rs5_words_ok; [rewrite EB; f_equal; lia|lia|lia|rewrite EB; lia].
Qed.

Lemma v5_init : forall bb x, length bb = 2 * (n / 32 + 1) -> 1 <= n -> nth 0 bb 0%N = 0%N ->
  x = N.of_nat (R 64) -> v5_inv 1 (bb, 0, x, 0%N, 1).
Proof.
  intros. unfold v5_inv. change ((1 - 1) / 32) with 0. split; auto. split; auto. split.
  { subst. f_equal. change (64 * 1) with 64. change (R (64 * (32 * 0))) with 0. lia. }
  split; auto. split. { intros b Hb. replace b with 0 by lia. exact H1. } split; [lia|]. apply v5_packed_0. auto.
Qed.
End RS5.

Lemma rs5_build_ok : forall p g v, iv_ok v -> (N.of_nat (iv_capacity v) < W64)%N ->
  exists bb, rs5_build p g v = Some bb /\ v5_table p (iv_data v) ((iv_size v + 63) / 64) bb.
Proof.
  intros p g v [A [B C]] SZ. unfold rs5_build, iv_empty. set (n := (iv_size v + 63) / 64).
  assert (CP : iv_capacity v = 64 * n) by (unfold iv_capacity, n; lia). rewrite CP in SZ.
  destruct (Nat.eqb_spec (iv_size v) 0) as [Z|Z].
  { exists [0;0]%N. split; auto. replace n with 0 by (unfold n; lia). split; auto. intros b Hb. replace b with 0 by lia. split; [reflexivity|].
    intros k Hk. replace ((1 <=? k) && (32 * 0 + 6 * k <=? Nat.min 0 (32 * 0 + 31))) with false by lia. apply pk_0. }
  assert (NP : 1 <= n) by (unfold n; lia). assert (NL : n <= length (iv_data v)) by (unfold n; lia).
  rewrite CP. replace (64 * n / (64 * 32)) with (n / 32) by lia. replace (64 * n / 64) with n by lia.
  clearbody n. clear B C Z CP.
  rewrite st_some by (rewrite map_length, seq_length; lia). cbn [obind]. rewrite st_some by (rewrite upd_length, map_length, seq_length; lia). cbn [obind].
  rewrite ld_some by lia. cbn [obind]. rewrite (rt_c_0 p (iv_data v)). rewrite rt_args_ok by auto.
  set (bb0 := upd (upd (map g (seq 0 (2 * (n / 32 + 1)))) 1 0%N) 0 0%N).
  assert (L0 : length bb0 = 2 * (n / 32 + 1)) by (unfold bb0; rewrite !upd_length, map_length, seq_length; auto).
  lazymatch goal with |- context [rs5_loop _ _ _ _ ?s _] =>
    destruct (v5_loop_ok p (iv_data v) n A NL SZ (n - 1) 1 s) as [s' [E H]]; try lia end.
  { apply v5_init; auto. unfold bb0. apply nth_upd_eq. rewrite upd_length, map_length, seq_length. lia. }
  rewrite E. cbn [obind]. destruct s' as [[[[bb j] sum] sl] cw]. destruct H as [L [J [SU [CW [HE [HO HP]]]]]].
  destruct (div32_ex n NP) as [BB [r [EB [Ei Hr]]]]. rewrite EB in *. cbv zeta.
  destruct (Nat.eqb_spec cw 32) as [Z|Z].
  - assert (r = 31) by lia. subst r. rewrite Z in *. clear CW. change (32 mod 6 =? 0) with false. cbv iota.
    assert (DN : n / 32 = S BB) by lia.
    destruct (flush5_ok p (iv_data v) n NL SZ bb BB sl sum L) as [bb1 [bb2 [F1 [F2 [F3 [F4 [F5 F6]]]]]]]; auto; try lia.
    { rewrite SU. do 3 f_equal. lia. } { replace (32 * BB + 31) with (n - 1) by lia. auto. }
    subst j. rewrite F1. cbn [obind]. rewrite F2. cbn [obind]. rewrite F3. cbn [obind]. rewrite st_some by lia.
    eexists. split; [reflexivity|]. split; [rewrite upd_length; congruence|]. intros b Hb. rewrite nth_upd_neq by lia. split; [apply F5; lia|].
    destruct (Nat.eq_dec b (S BB)) as [->|NE].
    + replace (2 * S BB + 1) with (2 * BB + 2 + 1) by lia. rewrite nth_upd_eq by lia. eapply v5_packed_0; eauto; lia.
    + rewrite nth_upd_neq by lia. replace (Nat.min n (32 * b + 31)) with (32 * b + 31) by lia. apply F6. lia.
  - assert (DN : n / 32 = BB) by lia. rewrite st_some by lia. eexists. split; [reflexivity|]. split; [rewrite upd_length; auto|].
    intros b Hb. rewrite nth_upd_neq by lia. split; [apply HE; lia|]. subst j.
    destruct (Nat.eq_dec b BB) as [->|NE].
    + rewrite nth_upd_eq by lia. replace (Nat.min n (32 * BB + 31)) with n by lia.
      destruct (Nat.eqb_spec (cw mod 6) 0) as [Z6|Z6].
      * rewrite SU. eapply v5_packed_add; eauto; lia.
      * eapply v5_packed_keep; eauto; try lia.
    + rewrite nth_upd_neq by lia. replace (Nat.min n (32 * b + 31)) with (32 * b + 31) by lia. apply HO. lia.
Qed.

(** ** rank_support_scan *)
Section SCAN.
Variable p : pat.
Variable m : mem.
Hypothesis M : words_ok m.
Let h := occ p (mbit m).

Lemma rss_loop_ok : forall fuel w idx, (N.of_nat idx < W64)%N -> idx / 64 <= length m -> 64 * w <= idx -> idx / 64 - w < fuel ->
  rss_loop p m fuel (64 * w) idx (N.of_nat (rank_of h (64 * w))) = Some (N.of_nat (rank_of h (64 * (idx / 64)))).
Proof.
  induction fuel; intros w idx B L H F; [lia|]. cbn [rss_loop].
  destruct (Nat.leb_spec (64 * w + 64) idx) as [E|E].
  - rewrite rt_full_ok by (auto; lia). cbn [obind]. replace (64 * w / 64) with w by lia.
    assert (A := rank_of_add h (64 * w) 64). pose proof (rank_of_le h (64 * w + 64)).
    rewrite wadd_small by (fold h; lia). rewrite <- Nnat.Nat2N.inj_add. fold h.
    replace (rank_of h (64 * w) + rank_of (fun k => h (64 * w + k)) 64) with (rank_of h (64 * (S w))) by (replace (64 * S w) with (64 * w + 64) by lia; lia).
    replace (64 * w + 64) with (64 * S w) by lia. apply IHfuel; auto; lia.
  - do 3 f_equal. lia.
Qed.
Lemma rss_ok : forall (v : ivec) idx, iv_data v = m -> (N.of_nat idx < W64)%N -> idx / 64 < length m ->
  rss_rank p v idx = Some (N.of_nat (rank_of h idx)).
Proof.
  intros v idx D B L. unfold rss_rank. rewrite D. assert (E := rss_loop_ok (S idx) 0 idx B).
  change (64 * 0) with 0 in E. change (N.of_nat (rank_of h 0)) with 0%N in E. rewrite E by lia. cbn [obind].
  rewrite rt_word_ok by auto. cbn [obind]. f_equal.
  assert (A := rank_of_add h (64 * (idx / 64)) (idx mod 64)). replace (64 * (idx / 64) + idx mod 64) with idx in A by lia.
  pose proof (rank_of_le h idx). fold h. rewrite wadd_small by lia. lia.
Qed.
End SCAN.

(** ** API level *)
Lemma occ_iv_bit : forall p v k, k < iv_size v -> occ p (iv_bit v) k = occ p (mbit (iv_data v)) k.
Proof. intros p v k K. assert (E : forall j, j <= k -> iv_bit v j = mbit (iv_data v) j) by (intros; apply iv_bit_mbit; lia).
  destruct p; cbn [occ]; rewrite ?E by lia; auto. Qed.
Lemma rank_spec_mbit : forall p v i, i <= iv_size v -> rank_of (occ p (mbit (iv_data v))) i = rank_spec p v i.
Proof. intros. unfold rank_spec. apply rank_of_ext. intros. symmetry. apply occ_iv_bit. lia. Qed.

Definition bv_ok (v : ivec) : Prop := iv_ok v /\ iv_width v = 1 /\ (N.of_nat (iv_capacity v) < W64)%N.

Lemma A_rank_v : forall p g v, iv_ok v -> (N.of_nat (iv_capacity v) < W64)%N ->
  exists bb, rsv_build p g v = Some bb /\ forall i, i <= iv_size v -> rsv_rank p v bb i = Some (N.of_nat (rank_spec p v i)).
Proof.
  intros p g v V S. destruct (rsv_build_ok p g v V S) as [bb [E T]]. exists bb. split; auto. intros i I.
  rewrite <- rank_spec_mbit by auto. destruct V as [A [B C]].
  apply (v_query p (iv_data v) ((iv_size v + 63) / 64)); auto; unfold iv_capacity in *; lia.
Qed.
Lemma A_rank_v5 : forall p g v, iv_ok v -> padding_ok v -> (N.of_nat (iv_capacity v) < W64)%N ->
  exists bb, rs5_build p g v = Some bb /\ forall i, i <= iv_size v -> rs5_rank p v bb i = Some (N.of_nat (rank_spec p v i)).
Proof.
  intros p g v V PD S. destruct (rs5_build_ok p g v V S) as [bb [E T]]. exists bb. split; auto. intros i I.
  rewrite <- rank_spec_mbit by auto. destruct V as [A [B C]]. unfold padding_ok in PD.
  apply (v5_query p (iv_data v) ((iv_size v + 63) / 64)); auto; unfold iv_capacity in *; lia.
Qed.
(** without the padding word: all positions but one *)
Lemma A_rank_v5_inner : forall p g v, iv_ok v -> (N.of_nat (iv_capacity v) < W64)%N ->
  exists bb, rs5_build p g v = Some bb /\ forall i, i < iv_size v -> rs5_rank p v bb i = Some (N.of_nat (rank_spec p v i)).
Proof.
  intros p g v V S. destruct (rs5_build_ok p g v V S) as [bb [E T]]. exists bb. split; auto. intros i I.
  rewrite <- rank_spec_mbit by lia. destruct V as [A [B C]].
  apply (v5_query p (iv_data v) ((iv_size v + 63) / 64)); auto; unfold iv_capacity in *; lia.
Qed.
Lemma A_rank_scan : forall p v i, iv_ok v -> (N.of_nat (iv_capacity v) < W64)%N -> i <= iv_size v -> i < iv_size v \/ padding_ok v ->
  rss_rank p v i = Some (N.of_nat (rank_spec p v i)).
Proof.
  intros p v i V S I D. rewrite <- rank_spec_mbit by auto. destruct V as [A [B C]]. unfold padding_ok in D.
  apply rss_ok; auto; unfold iv_capacity in *; lia.
Qed.
