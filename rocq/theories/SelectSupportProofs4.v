(** * Proofs about select_support_mcl: init_fast *)
From Coq Require Import NArith List Bool Arith Lia.
From Verif Require Import Base Bits SpecBits RankSelect BitsProofs BitsProofs2 BitsProofs3 BitsProofs4 BitsMem
  IntVector SpecIntVector IntVectorProofs IntVectorProofs3 SpecRank RankSupport RankSupportProofs RankSupportProofs2 AbsVec SelectSupport
  SelectSupportProofs SelectSupportProofs2 SelectSupportProofs3.
Import ListNotations.

Lemma rank_lt_le : forall h x y, h x = true -> rank_of h x < rank_of h y -> x < y.
Proof. intros h x y H L. apply Nat.nle_gt. intro. pose proof (rank_of_mono h y x H0). lia. Qed.
Lemma rank_lt_S : forall h x y, h x = true -> x < y -> rank_of h x < rank_of h y.
Proof. intros h x y H L. pose proof (rank_of_mono h (S x) y L). rewrite rank_of_S, H in H0. cbn [b2nat] in H0. lia. Qed.

Section FAST.
Variable p : pat.
Variable v : ivec.
Hypothesis V : iv_ok v.
Hypothesis LB : (N.of_nat (64 * length (iv_data v)) < W64)%N.
Hypothesis P01' : p = P0 \/ p = P1.
Let m := iv_data v.
Let h := occ p (mbit m).
Let n := iv_size v.
Let A := rank_of h n.
Let nsb := (A + SBS - 1) / SBS.
Let P := argp p v.
Let R := rank_of h.

Lemma f_found : forall i, i < 64 * length m -> sst_found p v i = Some (h i).
Proof. intros. destruct V as [V1 _]. apply found_ok; auto. Qed.
Lemma f_n : n <= 64 * length m.
Proof. destruct V as [_ [_ C]]. auto. Qed.

(** pos_of_last_arg_in_the_block lies at or behind every argument of the block *)
Lemma fast_last_ok : forall b fuel ii j pos, n - ii < fuel -> pos < ii -> R ii = R (S pos) -> R ii = SBS * b + j + 1 ->
  exists r, mc_fast_last p v fuel ii j pos = Some r /\ pos <= r /\ (r = pos \/ r < n) /\
    forall x, h x = true -> x < n -> R x < SBS * (b + 1) -> x <= r.
Proof.
  intros b. induction fuel; intros ii j pos F PI RI RJ; [lia|]. cbn [mc_fast_last]. fold n.
  destruct (Nat.ltb_spec ii n); cbn [andb]; [destruct (Nat.ltb_spec j SBS)|].
  - rewrite f_found by (pose proof f_n; lia). cbn [obind]. assert (RS := rank_of_S h ii). fold R in RS. destruct (h ii) eqn:Hi; cbn [b2nat] in RS.
    + destruct (IHfuel (S ii) (S j) ii) as [r [E1 [E2 [E3 E4]]]]; try lia.
      exists r. split; auto. split; [lia|]. split; auto. right. destruct E3; lia.
    + destruct (IHfuel (S ii) j pos) as [r [E1 [E2 [E3 E4]]]]; try lia.
      exists r. split; auto.
  - exists pos. split; auto. split; auto. split; auto. intros x X1 X2 X3.
    assert (x < S pos); [|lia]. apply (rank_lt_le h); auto. fold R. rewrite <- RI, RJ. clear - X3 H0. unfold SBS in *. lia.
  - exists pos. split; auto. split; auto. split; auto. intros x X1 X2 X3.
    assert (x < S pos); [|lia]. apply (rank_lt_le h); auto. fold R. rewrite <- RI. apply rank_lt_S; auto. lia.
Qed.

(** copying the arguments of a long block *)
Lemma fast_long_ok : forall b last fuel j k t, S last - j < fuel -> last < 64 * length m -> R j = SBS * b + k -> av_size t = SBS ->
  (N.of_nat last < 2 ^ N.of_nat (av_w t))%N ->
  exists t', mc_fast_long p v fuel j k last t = Some t' /\ av_size t' = SBS /\
    (forall i, i < k -> nth i (av_l t') 0%N = nth i (av_l t) 0%N) /\
    (forall i x, k <= i < SBS -> is_select h (SBS * b + i + 1) x -> x <= last -> nth i (av_l t') 0%N = N.of_nat x).
Proof.
  intros b last. induction fuel; intros j k t F LM RJ TS TW; [lia|]. cbn [mc_fast_long].
  destruct (Nat.ltb_spec k SBS); cbn [andb]; [destruct (Nat.leb_spec j last)|].
  - rewrite f_found by lia. cbn [obind]. assert (RS := rank_of_S h j). fold R in RS. destruct (h j) eqn:Hi; cbn [b2nat] in RS.
    + rewrite av_set_some by lia. cbn [obind].
      destruct (IHfuel (S j) (S k) (mkav (av_w t) (upd (av_l t) k (N.of_nat j)))) as [t' [E1 [E2 [E3 E4]]]]; auto; try lia.
      { unfold av_size in *. cbn [av_l]. rewrite upd_length. auto. }
      exists t'. split; auto. split; auto. cbn [av_l] in E3. split.
      * intros i I. rewrite E3 by lia. apply nth_upd_neq. lia.
      * intros i x I1 I2 I3. destruct (Nat.eq_dec i k) as [->|]; [|apply E4; auto; lia].
        rewrite E3 by lia. rewrite nth_upd_eq by (unfold av_size in TS; lia). f_equal.
        apply (is_select_unique h (SBS * b + k + 1)); auto. rewrite <- RJ. apply select_rank. auto.
    + destruct (IHfuel (S j) k t) as [t' [E1 [E2 [E3 E4]]]]; auto; try lia.
      exists t'. auto.
  - exists t. split; auto. split; auto. split; auto. intros i x I1 [I2 I3] I4. exfalso.
    assert (LT : rank_of h x < rank_of h j) by (apply rank_lt_S; auto; lia). fold R in LT, I3. lia.
  - exists t. split; auto. split; auto. split; auto. intros. lia.
Qed.

Lemma fast_tail_ok : forall b todo i k t, i + todo = n \/ todo = 0 /\ n <= i -> R i = SBS * b + k -> av_size t = SBS -> A < SBS * (b + 1) ->
  (N.of_nat (n - 1) < 2 ^ N.of_nat (av_w t))%N ->
  exists t', mc_fast_tail p v todo i k t = Some t' /\ av_size t' = SBS /\
    (forall j, j < k -> nth j (av_l t') 0%N = nth j (av_l t) 0%N) /\
    (forall j x, k <= j < SBS -> is_select h (SBS * b + j + 1) x -> x < n -> nth j (av_l t') 0%N = N.of_nat x).
Proof.
  intros b. induction todo; intros i k t F RJ TS AB TW; cbn [mc_fast_tail].
  - exists t. split; auto. split; auto. split; auto. intros j x I1 [I2 I3] I4. exfalso.
    assert (LT : rank_of h x < rank_of h i) by (apply rank_lt_S; auto; lia). fold R in LT, I3. lia.
  - destruct F as [F|F]; [|lia]. rewrite f_found by (pose proof f_n; lia). cbn [obind]. assert (RS := rank_of_S h i). fold R in RS.
    destruct (h i) eqn:Hi; cbn [b2nat] in RS.
    + assert (RA : R (S i) <= A) by (apply rank_of_mono; lia). assert (KS : k < SBS) by (clear - RA RS RJ AB; unfold SBS in *; lia).
      rewrite av_set_some by lia. cbn [obind].
      destruct (IHtodo (S i) (S k) (mkav (av_w t) (upd (av_l t) k (N.of_nat i)))) as [t' [E1 [E2 [E3 E4]]]]; auto; try lia.
      { unfold av_size in *. cbn [av_l]. rewrite upd_length. auto. }
      exists t'. split; auto. split; auto. cbn [av_l] in E3. split.
      * intros j J. rewrite E3 by lia. apply nth_upd_neq. lia.
      * intros j x I1 I2 I3. destruct (Nat.eq_dec j k) as [->|]; [|apply E4; auto; lia].
        rewrite E3 by lia. rewrite nth_upd_eq by (unfold av_size in TS; lia). f_equal.
        apply (is_select_unique h (SBS * b + k + 1)); auto. rewrite <- RJ. apply select_rank. auto.
    + destruct (IHtodo (S i) k t) as [t' [E1 [E2 [E3 E4]]]]; auto; try lia.
      exists t'. auto.
Qed.

(** the samples of the current superblock *)
Definition samples (a : ap_t) (b c : nat) : Prop := forall k, k < c -> is_select h (SBS * b + 64 * k + 1) (a (64 * k)) /\ a (64 * k) < 64 * length m.

Lemma samples_P : forall a b c k, samples a b c -> k < c -> SBS * b + 64 * k < A -> a (64 * k) = P (SBS * b + 64 * k).
Proof.
  intros a b c k SA K L. destruct (SA k K) as [S1 S2]. symmetry. unfold P. apply argp_is; auto.
  apply (is_select_lt _ _ _ (iv_size v) S1). fold m h n A. lia.
Qed.
Lemma samples_mono : forall a b c i k, samples a b c -> i <= k -> k < c -> a (64 * i) <= a (64 * k).
Proof.
  intros a b c i k SA I K. destruct (Nat.eq_dec i k) as [->|]; auto. destruct (SA i) as [S1 _]; [lia|]. destruct (SA k) as [S2 _]; [lia|].
  apply Nat.lt_le_incl. eapply is_select_mono; eauto. lia.
Qed.

Lemma fast_block_ok : forall a b s, arr p v (nsb + 1) s -> b < nsb -> samples a b 64 -> no_long s b ->
  exists s', mc_fast_block p v nsb a b s = Some s' /\ arr p v (nsb + 1) s' /\ block_ok p v s' b /\
    (forall b', b' <> b -> b' < nsb -> block_ok p v s b' -> block_ok p v s' b') /\
    (forall b', b' <> b -> b' < nsb + 1 -> no_long s b' -> no_long s' b').
Proof.
  intros a b s AR B SA NL. unfold mc_fast_block.
  assert (BA : SBS * b < A) by (apply (nsb_blk p v LB); auto).
  assert (A0 : a 0 = P (SBS * b)). { replace 0 with (64 * 0) by lia. rewrite (samples_P a b 64 0) by (auto; lia). f_equal. lia. }
  destruct (argp_sel p v (SBS * b)) as [S1 S2]; [fold m h n A; lia|]. fold P in S1, S2. fold n in S2. fold m in S1. fold h in S1.
  destruct (set_sb p v V LB (nsb + 1) s b (a 0) AR B) as [sbv [E1 [E2 [E3 [E4 E5]]]]]; [fold n; lia|]. rewrite E1. cbn [obind].
  assert (K63 : 63 < 64) by (clear; lia). destruct (SA 63 K63) as [SL1 SL2]. set (p0 := a (64 * 63)) in *. 
  assert (MN : forall k, k < 64 -> a 0 <= a (64 * k) <= p0).
  { intros k K. split. { replace (a 0) with (a (64 * 0)) by (f_equal; lia). eapply samples_mono; eauto. lia. } unfold p0. eapply samples_mono; eauto. lia. }
  destruct (rank_select _ _ _ SL1) as [SR1 SR2]. fold R in SR1, SR2.
  destruct (fast_last_ok b (S (iv_size v)) (S p0) (64 * 63) p0) as [last [L1 [L2 [L3 L4]]]]; auto; try (fold n; lia).
  fold p0. rewrite L1. cbn [obind]. 
  assert (LM : last < 64 * length m) by (pose proof f_n; lia). 
  assert (L0 : a 0 <= last). { specialize (MN 0). lia. }
  assert (LW : (N.of_nat last < W64)%N) by (unfold m in LM; lia).
  destruct (N.ltb (mc_logn4 v) (N.of_nat (last - a 0))).
  - destruct (fast_long_ok b last (S (S last)) (a 0) 0 (av_new SBS 0 (hiw (N.of_nat last)))) as [t [T1 [T2 [_ T3]]]]; auto.
    { clear. lia. } { rewrite A0. unfold R. destruct (rank_select _ _ _ S1) as [Q _]. rewrite Q. clear. lia. }
    { cbn [av_new av_w]. apply hiw_fits; auto. lia. }
    rewrite T1. cbn [obind]. pose proof (alloc_length p v (nsb + 1) s AR) as AL.
    rewrite aset_some by (rewrite AL; clear - B; lia). cbn [obind].
    eexists. split; [reflexivity|]. destruct (put_long p v V LB (nsb + 1) s sbv b t AR) as [Q1 [Q2 [Q3 Q4]]]; auto.
    { fold m h n A nsb. clear. lia. } { clear - B. lia. }
    split; auto. split; [|split; auto]. apply Q4; auto.
    intros j J1 J2. destruct (argp_sel p v (SBS * b + j)) as [J3 J4]; auto. fold m in J3. fold h in J3.
    apply T3; auto. { clear - J1. lia. } apply L4; auto. { destruct J3; auto. } destruct J3 as [_ J3]. fold R in J3. rewrite <- Nat.add_1_r in *. clear - J3 J1. unfold SBS in *. lia.
  - destruct (copy_mini_ok a 64 0 (av_new 64 0 (hiw (N.of_nat (last - a 0))))) as [t [T1 [T2 [T3 _]]]].
    { rewrite av_size_new. clear. lia. }
    { intros k K. cbn [av_new av_w]. apply hiw_fits. { clear - LW. lia. } specialize (MN k). clear - MN L2 K. lia. }
    rewrite T1. cbn [obind]. rewrite aset_some by (destruct AR as [_ [_ [AR _]]]; rewrite AR; auto). cbn [obind].
    eexists. split; [reflexivity|]. destruct (put_mini p v V LB (nsb + 1) s sbv b t AR) as [Q1 [Q2 [Q3 Q4]]]; auto.
    split; auto. split; [|split; auto]. apply Q4; auto. { rewrite E4, A0. auto. }
    intros k K1 K2. rewrite T3 by (clear - K1; lia). fold P. rewrite <- A0. do 2 f_equal. eapply samples_P; eauto.
Qed.

Let nw := iv_capacity v / 64.
Lemma nw_le : nw <= length m.
Proof. pose proof f_n. unfold nw, iv_capacity. fold n. lia. Qed.
Lemma R_top : A <= R (64 * nw) /\ R (64 * nw) <= A + 63.
Proof.
  assert (n <= 64 * nw /\ 64 * nw <= n + 63) by (unfold nw, iv_capacity; fold n; lia). split. { apply rank_of_mono. lia. }
  pose proof (rank_of_step h n (64 * nw)). fold R A in H0. unfold A, R in *. lia.
Qed.
Lemma f_args : forall w, fst (rt_args p (nth w m 0%N) 0) = N.of_nat (R (64 * w + 64) - R (64 * w)).
Proof.
  intros. destruct V as [V1 _]. pose proof (rt_args_R p m w V1) as E. fold h in E. unfold R.
  replace (fst (rt_args p (nth w m 0%N) 0)) with (fst (rt_args p (nth w m 0%N) (b2n (rt_c p m w)))) by (destruct P01' as [->| ->]; reflexivity).
  rewrite E. reflexivity.
Qed.
Lemma f_ith : forall w i q, q < 64 -> is_select h (R (64 * w) + i) (64 * w + q) -> sst_ith p (nth w m 0%N) i 0 = Some q.
Proof.
  intros w i q Q S0. destruct V as [V1 _]. rewrite <- (sst_ith_ok p m w i q V1 Q S0). destruct P01' as [->| ->]; reflexivity.
Qed.

(** number of the next argument to be sampled *)
Definition fcnt (sbc k64 : nat) : nat := SBS * sbc + 64 * k64.
Definition finv (w : nat) (a : ap_t) (k64 sbc : nat) (s : mcl) : Prop :=
  arr p v (nsb + 1) s /\ k64 < 64 /\ R (64 * w) <= fcnt sbc k64 /\ (0 < fcnt sbc k64 -> fcnt sbc k64 < R (64 * w) + 64) /\
  samples a sbc k64 /\ (forall b, b < sbc -> b < nsb -> block_ok p v s b) /\ (forall b, sbc <= b -> b < nsb + 1 -> no_long s b).

Lemma fast_loop_ok : forall todo w a k64 sbc s, w + todo = nw -> finv w a k64 sbc s ->
  exists a' k' sbc' s', mc_fast_loop p v nsb todo w a (N.of_nat (R (64 * w))) (N.of_nat (fcnt sbc k64 + 1)) k64 sbc s = Some (a', k', sbc', s') /\
    finv nw a' k' sbc' s'.
Proof.
  induction todo; intros w a k64 sbc s W I; cbn [mc_fast_loop].
  - exists a, k64, sbc, s. split; auto. replace nw with w by (clear - W; lia). auto.
  - pose proof nw_le as NW. fold m. rewrite ld_some by (clear - NW W; lia). cbn [obind]. rewrite f_args.
    assert (RM : R (64 * w) <= R (64 * w + 64)) by (apply rank_of_mono; lia).
    assert (RS : R (64 * w + 64) - R (64 * w) <= 64). { pose proof (rank_of_step h (64 * w) (64 * w + 64)). fold R in H. clear - H. unfold R in *. lia. }
    assert (RL : R (64 * w + 64) <= 64 * length m) by (pose proof (rank_of_le h (64 * w + 64)); fold R in H; clear - H NW W; unfold R in *; lia).
    rewrite wadd_small by (fold m in LB; clear - RM RL LB; lia).
    replace (N.of_nat (R (64 * w)) + N.of_nat (R (64 * w + 64) - R (64 * w)))%N with (N.of_nat (R (64 * S w))) by
      (replace (64 * S w) with (64 * w + 64) by (clear; lia); clear - RM; lia).
    replace (64 * w + 64) with (64 * S w) in * by (clear; lia).
    destruct I as [AR [K [C1 [C2 [SA [DN NL]]]]]]. set (C := fcnt sbc k64) in *.
    destruct (N.leb_spec (N.of_nat (C + 1)) (N.of_nat (R (64 * S w)))) as [CR|CR].
    + destruct (select_exists h (64 * S w) (C + 1)) as [x [X1 X2]]. { fold R. clear - CR. lia. }
      assert (X3 : 64 * w <= x). { apply Nat.nlt_ge. intro LT. pose proof (is_select_le_rank _ _ _ (64 * w) X2 LT) as Q. fold R in Q. clear - Q C1. lia. }
      replace (N.to_nat (N.of_nat (C + 1) - N.of_nat (R (64 * w)))) with (C + 1 - R (64 * w)) by (clear; lia).
      rewrite (f_ith w (C + 1 - R (64 * w)) (x - 64 * w)).
      2: { clear - X1 X3. lia. }
      2: { replace (R (64 * w) + (C + 1 - R (64 * w))) with (C + 1) by (clear - C1; lia). replace (64 * w + (x - 64 * w)) with x by (clear - X3; lia). auto. }
      cbn [obind]. replace (64 * w + (x - 64 * w)) with x by (clear - X3; lia).
      assert (XM : x < 64 * length m) by (clear - X1 W NW; lia).
      assert (SA' : samples (ap_set a (64 * k64) x) sbc (S k64)).
      { intros k KK. unfold ap_set. destruct (Nat.eqb_spec (64 * k) (64 * k64)) as [E|E].
        - replace k with k64 by (clear - E; lia). auto.
        - apply SA. clear - KK E. lia. }
      assert (CR' : C + 1 <= R (64 * S w)) by (clear - CR; lia).
      assert (RT : R (64 * S w) <= A + 63). { destruct R_top as [_ T]. assert (R (64 * S w) <= R (64 * nw)) by (apply rank_of_mono; clear - W; lia). clear - T H. lia. }
      destruct (Nat.eqb_spec (S k64) 64) as [K64|K64].
      * assert (SB : sbc < nsb). { apply (nsb_blk p v LB). fold m h n A. clear - CR' RT K64. unfold C, fcnt in CR'. lia. }
        rewrite K64 in SA'.
        destruct (fast_block_ok (ap_set a (64 * k64) x) sbc s AR SB SA') as [s' [Q1 [Q2 [Q3 [Q4 Q5]]]]]. { apply NL; auto. clear - SB. lia. }
        rewrite Q1. cbn [obind].
        assert (FC : fcnt (S sbc) 0 = C + 64) by (clear - K64; unfold C, fcnt, SBS; lia).
        replace (N.of_nat (C + 1) + 64)%N with (N.of_nat (fcnt (S sbc) 0 + 1)) by (rewrite FC; clear; lia).
        apply IHtodo; [clear - W; lia|]. split; auto. split; [clear; lia|]. rewrite FC. split; [clear - C1 RS; lia|]. split; [clear - CR'; lia|].
        split. { intros k KK. exfalso. apply (Nat.nlt_0_r _ KK). } split.
        -- intros b B1 B2. destruct (Nat.eq_dec b sbc) as [->|NE]; auto. apply Q4; auto. apply DN; auto. clear - B1 NE. lia.
        -- intros b B1 B2. apply Q5; auto. { clear - B1. lia. } apply NL; auto. clear - B1. lia.
      * assert (FC : fcnt sbc (S k64) = C + 64) by (clear; unfold C, fcnt; lia).
        replace (N.of_nat (C + 1) + 64)%N with (N.of_nat (fcnt sbc (S k64) + 1)) by (rewrite FC; clear; lia).
        apply IHtodo; [clear - W; lia|]. split; auto. split; [clear - K K64; lia|]. rewrite FC. split; [clear - C1 RS; lia|]. split; [clear - CR'; lia|]. auto.
    + apply IHtodo; [clear - W; lia|]. split; auto. split; auto. fold C. split; [clear - CR; lia|]. split; auto. intros Z. specialize (C2 Z). clear - C2 RM. lia.
Qed.

Lemma init_fast_ok : forall a, exists s, mc_init_fast p a v = Some s /\ forall b, SBS * b < A -> block_ok p v s b.
Proof.
  intros a. unfold mc_init_fast. rewrite arg_cnt_ok by auto. cbn [obind]. rewrite Nnat.Nat2N.id. fold m. fold h. fold n. fold A.
  destruct (Nat.eqb_spec A 0) as [Z|Z]. { eexists. split; [reflexivity|]. intros b B. lia. }
  fold nsb. fold nw. destruct (fast_loop_ok nw 0 a 0 0 (mkmcl (av_new nsb 0 (mc_logn v)) None (repeat av_nil nsb) A)) as [a' [k [sbc [s [E I]]]]]; auto.
  { split; [apply init_arr|]. split; [clear; lia|]. split; [apply Nat.le_0_l|]. split; [intros H; exfalso; unfold fcnt in H; lia|].
    split. { intros k KK. exfalso. apply (Nat.nlt_0_r _ KK). } split; [intros b B; exfalso; apply (Nat.nlt_0_r _ B)|]. intros. unfold no_long. cbn [mc_long]. auto. }
  change (N.of_nat (R (64 * 0))) with 0%N in E. change (N.of_nat (fcnt 0 0 + 1)) with 1%N in E. rewrite E. cbn [obind].
  destruct I as [AR [K [C1 [C2 [SA [DN NL]]]]]]. destruct R_top as [T1 T2].
  destruct (Nat.ltb_spec 0 k) as [K0|K0].
  - assert (CC : fcnt sbc k < R (64 * nw) + 64) by (apply C2; clear - K0; unfold fcnt; lia). unfold fcnt in CC, C1.
    assert (SB : sbc < nsb + 1).
    { apply Nat.nle_gt. intro LE. assert (Q : ~ (SBS * (sbc - 1) < A)). { intro Q. apply (nsb_blk p v LB (sbc - 1)) in Q. fold m in Q. fold h in Q. fold n in Q. fold A in Q. fold nsb in Q. clear - LE Q. lia. }
      clear - CC T2 Q LE K0. unfold SBS in *. lia. }
    destruct (SA 0 K0) as [S1 S2]. replace (64 * 0) with 0 in * by reflexivity. replace (SBS * sbc + 0 + 1) with (SBS * sbc + 1) in S1 by (clear; lia).
    destruct (fast_tail_ok sbc (n - a' 0) (a' 0) 0 (av_new SBS 0 (hiw (N.of_nat (n - 1))))) as [t [Q1 [Q2 [_ Q3]]]].
    { clear. lia. } { unfold R. destruct (rank_select _ _ _ S1) as [Q _]. rewrite Q. clear. lia. } { apply av_size_new. }
    { clear - T1 C1 K. unfold SBS in *. lia. } { cbn [av_new av_w]. apply hiw_fits; [|apply N.le_refl]. pose proof f_n. fold m in LB. clear - LB H. lia. }
    rewrite Q1. cbn [obind]. pose proof (alloc_length p v (nsb + 1) s AR) as AL. rewrite aset_some by (rewrite AL; exact SB). cbn [obind].
    eexists. split; [reflexivity|]. destruct AR as [AR1 [AR2 AR3]].
    destruct (put_long p v V LB (nsb + 1) s (mc_sb s) sbc t) as [U1 [U2 [U3 U4]]]; auto. { split; auto. } { fold m h n A nsb. clear. lia. }
    intros b B. destruct (Nat.eq_dec b sbc) as [->|NE].
    + apply U4; auto. intros j J1 J2. destruct (argp_sel p v (SBS * sbc + j)) as [J3 J4]; auto. apply Q3; auto. clear - J1. lia.
    + assert (BN : b < nsb) by (apply (nsb_blk p v LB); auto). apply U2; auto. apply DN; auto. clear - B T1 C1 K NE. unfold SBS in *. lia.
  - exists s. split; auto. intros b B. assert (BN : b < nsb) by (apply (nsb_blk p v LB); auto). apply DN; auto. unfold fcnt in C1. clear - B C1 T1 K0. unfold SBS in *. lia.
Qed.
End FAST.

Lemma build_ok : forall p v a, iv_ok v -> (N.of_nat (64 * length (iv_data v)) < W64)%N ->
  exists s, mc_build p a v = Some s /\ forall b, SBS * b < rank_of (occ p (mbit (iv_data v))) (iv_size v) -> block_ok p v s b.
Proof.
  intros p v a V LB. unfold mc_build. destruct p; try (apply init_slow_ok; auto; fail);
  (destruct (N.of_nat (iv_size v) <? 100000)%N; [apply init_slow_ok|apply init_fast_ok]; auto).
Qed.

(** ** API level *)
Lemma sel_mbit : forall p v i pos, pos < iv_size v -> (select_spec p v i pos <-> is_select (occ p (mbit (iv_data v))) i pos).
Proof.
  intros p v i pos L. unfold select_spec. split; apply is_select_ext; intros; rewrite occ_iv_bit by lia; auto.
Qed.
Lemma A_select_mcl : forall p a v, iv_ok v -> (N.of_nat (64 * length (iv_data v)) < W64)%N ->
  exists s, mc_build p a v = Some s /\
    forall i, 1 <= i <= rank_spec p v (iv_size v) ->
      exists pos, mc_select p v s i = Some pos /\ pos < iv_size v /\ select_spec p v i pos.
Proof.
  intros p a v V LB. destruct (build_ok p v a V LB) as [s [E B]]. exists s. split; auto.
  intros i I. rewrite <- rank_spec_mbit in I by auto. exists (argp p v (i - 1)). split; [apply mc_select_ok; auto|].
  destruct (argp_sel p v (i - 1)) as [S1 S2]; [lia|]. split; auto. apply sel_mbit; auto. replace (i - 1 + 1) with i in S1 by lia. auto.
Qed.
Lemma A_select_mcl_fast : forall p a v, p = P0 \/ p = P1 -> iv_ok v -> (N.of_nat (64 * length (iv_data v)) < W64)%N ->
  exists s, mc_init_fast p a v = Some s /\
    forall i, 1 <= i <= rank_spec p v (iv_size v) ->
      exists pos, mc_select p v s i = Some pos /\ pos < iv_size v /\ select_spec p v i pos.
Proof.
  intros p a v HP V LB. destruct (init_fast_ok p v V LB HP a) as [s [E B]]. exists s. split; auto.
  intros i I. rewrite <- rank_spec_mbit in I by auto. exists (argp p v (i - 1)). split; [apply mc_select_ok; auto|].
  destruct (argp_sel p v (i - 1)) as [S1 S2]; [lia|]. split; auto. apply sel_mbit; auto. replace (i - 1 + 1) with i in S1 by lia. auto.
Qed.
Lemma A_select_scan : forall p v i, iv_ok v -> (N.of_nat (64 * length (iv_data v)) < W64)%N -> 1 <= i <= rank_spec p v (iv_size v) ->
  exists pos, ss_scan_select p v i = Some pos /\ pos < iv_size v /\ select_spec p v i pos.
Proof.
  intros p v i V LB I. rewrite <- rank_spec_mbit in I by auto. destruct (select_exists _ _ _ I) as [q [Q1 Q2]].
  exists q. destruct V as [V1 [_ V3]]. split; [|split; auto; apply sel_mbit; auto].
  unfold ss_scan_select. apply sst_scan_ok; auto; lia.
Qed.
Lemma A_rank_select : forall p g a v, iv_ok v -> (N.of_nat (64 * length (iv_data v)) < W64)%N ->
  exists bb s, rsv_build p g v = Some bb /\ mc_build p a v = Some s /\
    (forall i pos, 1 <= i <= rank_spec p v (iv_size v) -> mc_select p v s i = Some pos ->
      pos < iv_size v /\ occ p (iv_bit v) pos = true /\ rsv_rank p v bb pos = Some (N.of_nat (i - 1))) /\
    (forall k pos r, k <= pos -> pos < iv_size v -> occ p (iv_bit v) pos = true ->
      (forall j, k <= j < pos -> occ p (iv_bit v) j = false) -> rsv_rank p v bb k = Some (N.of_nat r) -> mc_select p v s (r + 1) = Some pos).
Proof.
  intros p g a v V LB. assert (CP : (N.of_nat (iv_capacity v) < W64)%N) by (destruct V as [_ [_ V3]]; unfold iv_capacity; lia).
  destruct (A_rank_v p g v V CP) as [bb [E1 R]]. destruct (A_select_mcl p a v V LB) as [s [E2 S0]].
  exists bb, s. split; auto. split; auto. split.
  - intros i pos I S1. destruct (S0 i I) as [pos' [S2 [S3 S4]]]. assert (pos' = pos) by congruence. subst pos'. split; auto.
    destruct S4 as [S4 S5]. split; auto. rewrite R by lia. unfold rank_spec. do 2 f_equal. lia.
  - intros k pos r K L O NO RK. rewrite R in RK by lia. apply some_inj in RK. apply Nnat.Nat2N.inj in RK. subst r.
    assert (RP : rank_spec p v pos = rank_spec p v k) by (unfold rank_spec; apply rank_of_all_false; auto).
    assert (SL : select_spec p v (rank_spec p v k + 1) pos). { rewrite <- RP. apply select_rank. auto. }
    destruct (S0 (rank_spec p v k + 1)) as [q [Q1 [Q2 Q3]]]. { split; [lia|]. unfold rank_spec at 2. eapply is_select_le_rank; eauto. }
    rewrite Q1. f_equal. eapply is_select_unique; eauto.
Qed.
