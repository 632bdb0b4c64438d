(** * Proofs about select_support_mcl: the two constructions *)
From Coq Require Import NArith List Bool Arith Lia.
From Verif Require Import Base Bits SpecBits RankSelect BitsProofs BitsProofs2 BitsProofs3 BitsProofs4 BitsMem
  IntVector SpecIntVector IntVectorProofs IntVectorProofs3 SpecRank RankSupport RankSupportProofs RankSupportProofs2 AbsVec SelectSupport
  SelectSupportProofs SelectSupportProofs2.
Import ListNotations.

Lemma hiw_fits : forall x y, (x < W64)%N -> (y <= x)%N -> (y < 2 ^ N.of_nat (hiw x))%N.
Proof.
  intros x y X L. unfold hiw. rewrite hi_correct by auto. rewrite Nnat.Nat2N.inj_add, Nnat.N2Nat.id. change (N.of_nat 1) with 1%N.
  destruct (N.eq_dec x 0) as [->|Z]. { change (N.log2 0) with 0%N. change (2 ^ (0 + 1))%N with 2%N. lia. }
  pose proof (N.log2_spec x). rewrite <- N.add_1_r in H. lia.
Qed.
Lemma hiw_bound : forall x, (x < W64)%N -> 1 <= hiw x <= 64.
Proof. intros. unfold hiw. pose proof (hi_lt64 x H). lia. Qed.

(** copy loops *)
Lemma copy_long_ok : forall (a : ap_t) todo j t, j + todo <= av_size t ->
  (forall k, j <= k < j + todo -> (N.of_nat (a k) < 2 ^ N.of_nat (av_w t))%N) ->
  exists t', mc_copy_long a todo j t = Some t' /\ av_size t' = av_size t /\
    (forall k, j <= k < j + todo -> nth k (av_l t') 0%N = N.of_nat (a k)) /\
    (forall k, k < j -> nth k (av_l t') 0%N = nth k (av_l t) 0%N).
Proof.
  induction todo; intros j t L B; cbn [mc_copy_long].
  - exists t. repeat split; auto. intros. lia.
  - rewrite av_set_some by (try apply B; lia). cbn [obind].
    destruct (IHtodo (S j) (mkav (av_w t) (upd (av_l t) j (N.of_nat (a j))))) as [t' [E [S1 [S2 S3]]]].
    { unfold av_size in *. cbn [av_l]. rewrite upd_length. lia. } { intros. apply B. lia. }
    exists t'. split; auto. split. { rewrite S1. unfold av_size. cbn [av_l]. apply upd_length. } cbn [av_l] in S3. split.
    + intros k K. destruct (Nat.eq_dec k j) as [->|]; [|apply S2; lia]. rewrite S3 by lia. apply nth_upd_eq. unfold av_size in L. lia.
    + intros k K. rewrite S3 by lia. apply nth_upd_neq. lia.
Qed.
Lemma copy_mini_ok : forall (a : ap_t) todo j t, j + todo <= av_size t ->
  (forall k, j <= k < j + todo -> (N.of_nat (a (64 * k)%nat - a 0%nat) < 2 ^ N.of_nat (av_w t))%N) ->
  exists t', mc_copy_mini a todo j t = Some t' /\ av_size t' = av_size t /\
    (forall k, j <= k < j + todo -> nth k (av_l t') 0%N = N.of_nat (a (64 * k) - a 0)) /\
    (forall k, k < j -> nth k (av_l t') 0%N = nth k (av_l t) 0%N).
Proof.
  induction todo; intros j t L B; cbn [mc_copy_mini].
  - exists t. repeat split; auto. intros. lia.
  - rewrite av_set_some by (try apply B; lia). cbn [obind].
    destruct (IHtodo (S j) (mkav (av_w t) (upd (av_l t) j (N.of_nat (a (64 * j) - a 0))))) as [t' [E [S1 [S2 S3]]]].
    { unfold av_size in *. cbn [av_l]. rewrite upd_length. lia. } { intros. apply B. lia. }
    exists t'. split; auto. split. { rewrite S1. unfold av_size. cbn [av_l]. apply upd_length. } cbn [av_l] in S3. split.
    + intros k K. destruct (Nat.eq_dec k j) as [->|]; [|apply S2; lia]. rewrite S3 by lia. apply nth_upd_eq. unfold av_size in L. lia.
    + intros k K. rewrite S3 by lia. apply nth_upd_neq. lia.
Qed.
Lemma nth_error_repeat_some : forall A (x : A) n i, i < n -> nth_error (repeat x n) i = Some x.
Proof. intros A x n. induction n; intros [|i] H; cbn; auto; try lia. apply IHn. lia. Qed.

Section BUILD.
Variable p : pat.
Variable v : ivec.
Hypothesis V : iv_ok v.
Hypothesis LB : (N.of_nat (64 * length (iv_data v)) < W64)%N.
Let m := iv_data v.
Let h := occ p (mbit m).
Let n := iv_size v.
Let A := rank_of h n.
Let nsb := (A + SBS - 1) / SBS.
Let P := argp p v.

Lemma nsb_blk : forall b, b < nsb <-> SBS * b < A.
Proof. intros. unfold nsb, SBS. lia. Qed.
Let n_b : (N.of_nat n < W64)%N. Proof. destruct V as [_ [_ C]]. unfold n. lia. Qed.

(** array sizes; [nl]: length of m_longsuperblock once allocated *)
Definition arr (nl : nat) (s : mcl) : Prop :=
  av_size (mc_sb s) = nsb /\ av_w (mc_sb s) = mc_logn v /\ length (mc_mini s) = nsb /\ mc_args s = A /\
  match mc_long s with None => True | Some L => length L = nl end.

Lemma alloc_length : forall nl s, arr nl s -> length (mc_alloc (mc_long s) nl) = nl.
Proof. intros nl s [_ [_ [_ [_ H]]]]. unfold mc_alloc. destruct (mc_long s); auto. apply repeat_length. Qed.

(** replacing the long block [b] keeps the others *)
Lemma put_long : forall nl s sbv b t, arr nl s -> nsb <= nl -> b < nl -> av_size sbv = nsb -> av_w sbv = mc_logn v ->
  (forall b', b' <> b -> nth b' (av_l sbv) 0%N = nth b' (av_l (mc_sb s)) 0%N) ->
  let s' := mkmcl sbv (Some (upd (mc_alloc (mc_long s) nl) b t)) (mc_mini s) (mc_args s) in
  arr nl s' /\ (forall b', b' <> b -> b' < nsb -> block_ok p v s b' -> block_ok p v s' b') /\
  (forall b', b' <> b -> b' < nl -> no_long s b' -> no_long s' b') /\
  (av_size t = SBS -> (forall j, j < SBS -> SBS * b + j < A -> nth j (av_l t) 0%N = N.of_nat (P (SBS * b + j))) -> block_ok p v s' b).
Proof.
  intros nl s sbv b t AR NL BN SS SW SE s'. pose proof (alloc_length nl s AR) as AL.
  assert (NLK : forall b', b' <> b -> b' < nl -> no_long s b' -> no_long s' b').
  { intros b' NE B H. unfold no_long, s' in *. cbn [mc_long]. rewrite nth_error_upd_neq by auto. unfold mc_alloc.
    destruct (mc_long s); auto. apply nth_error_repeat_some. auto. }
  split; [|split; [|split]]; auto.
  - destruct AR as [A1 [A2 [A3 [A4 A5]]]]. unfold arr, s'. cbn [mc_sb mc_mini mc_long mc_args]. rewrite upd_length. auto.
  - intros b' NE B [[L [t' [H1 [H2 [H3 H4]]]]]|[H1 [H2 [H3 H4]]]].
    + left. unfold long_ok, s'. cbn [mc_long]. do 2 eexists. split; [reflexivity|]. split; [|split; [exact H3|exact H4]].
      rewrite nth_error_upd_neq by auto. unfold mc_alloc. rewrite H1. auto.
    + right. split; [apply NLK; auto; lia|]. unfold s'. cbn [mc_sb mc_mini]. split; [lia|]. split; [rewrite SE; auto|]. auto.
  - intros T1 T2. left. unfold long_ok, s'. cbn [mc_long]. do 2 eexists. split; [reflexivity|]. split; [apply nth_error_upd_eq; lia|]. split; auto.
Qed.
(** replacing the mini block [b] keeps the others *)
Lemma put_mini : forall nl s sbv b t, arr nl s -> b < nsb -> av_size sbv = nsb -> av_w sbv = mc_logn v ->
  (forall b', b' <> b -> nth b' (av_l sbv) 0%N = nth b' (av_l (mc_sb s)) 0%N) ->
  let s' := mkmcl sbv (mc_long s) (upd (mc_mini s) b t) (mc_args s) in
  arr nl s' /\ (forall b', b' <> b -> b' < nsb -> block_ok p v s b' -> block_ok p v s' b') /\
  (forall b', no_long s b' -> no_long s' b') /\
  (no_long s b -> nth b (av_l sbv) 0%N = N.of_nat (P (SBS * b)) -> av_size t = 64 ->
   (forall k, k < 64 -> SBS * b + 64 * k < A -> nth k (av_l t) 0%N = N.of_nat (P (SBS * b + 64 * k) - P (SBS * b))) -> block_ok p v s' b).
Proof.
  intros nl s sbv b t AR BN SS SW SE s'. split; [|split; [|split]]; auto.
  - destruct AR as [A1 [A2 [A3 [A4 A5]]]]. unfold arr, s'. cbn [mc_sb mc_mini mc_long mc_args]. rewrite upd_length. auto.
  - intros b' NE B [[L [t' [H1 [H2 [H3 H4]]]]]|[H1 [H2 [H3 H4]]]].
    + left. exists L, t'. auto.
    + right. split; auto. unfold s'. cbn [mc_sb mc_mini]. split; [lia|]. split; [rewrite SE; auto|]. rewrite nth_error_upd_neq by auto. auto.
  - intros T0 T1 T2 T3. right. split; auto. unfold s'. cbn [mc_sb mc_mini]. split; [lia|]. split; auto.
    exists t. split; auto. apply nth_error_upd_eq. destruct AR as [A1 [A2 [A3 [A4 A5]]]]. lia.
Qed.

(** m_superblock[sb] = position *)
Lemma set_sb : forall nl s b x, arr nl s -> b < nsb -> x < n -> exists sbv, av_set (mc_sb s) b (N.of_nat x) = Some sbv /\
  av_size sbv = nsb /\ av_w sbv = mc_logn v /\ nth b (av_l sbv) 0%N = N.of_nat x /\
  forall b', b' <> b -> nth b' (av_l sbv) 0%N = nth b' (av_l (mc_sb s)) 0%N.
Proof.
  intros nl s b x [A1 [A2 [A3 [A4 A5]]]] B X. rewrite av_set_some; [|lia|].
  - eexists. split; [reflexivity|]. unfold av_size in *. cbn [av_l av_w]. rewrite upd_length. split; auto. split; auto.
    split; [apply nth_upd_eq; lia|]. intros. apply nth_upd_neq. auto.
  - rewrite A2. unfold mc_logn. destruct V as [_ [_ C]]. apply hiw_fits; unfold iv_capacity; fold n; lia.
Qed.

(** ** init_slow *)
Lemma slow_block_ok : forall a cnt b s, arr nsb s -> b < nsb -> SBS * b < cnt -> cnt <= SBS * (b + 1) -> cnt <= A ->
  (cnt = SBS * (b + 1) \/ cnt = A) -> (forall x, SBS * b <= x < cnt -> a (x - SBS * b) = P x) -> no_long s b ->
  exists s', mc_slow_block (mc_logn4 v) a nsb cnt b s = Some s' /\ arr nsb s' /\ block_ok p v s' b /\
    (forall b', b' <> b -> b' < nsb -> block_ok p v s b' -> block_ok p v s' b') /\
    (forall b', b' <> b -> b' < nsb -> no_long s b' -> no_long s' b').
Proof.
  intros a cnt b s AR B C1 C2 C3 C4 AP NL. unfold mc_slow_block.
  set (last := (cnt - 1) mod SBS). assert (EL : last = cnt - 1 - SBS * b) by (unfold last, SBS in *; lia). clearbody last.
  assert (A0 : a 0 = P (SBS * b)) by (rewrite <- AP by lia; f_equal; lia).
  assert (AL : a last = P (cnt - 1)) by (rewrite <- AP by lia; f_equal; lia).
  destruct (argp_sel p v (SBS * b)) as [S1 S2]; [fold m h n A; lia|]. fold P in S1, S2. fold n in S2.
  destruct (argp_sel p v (cnt - 1)) as [S3 S4]; [fold m h n A; lia|]. fold P in S3, S4. fold n in S4.
  assert (LE : forall x, SBS * b <= x < cnt -> P (SBS * b) <= P x <= P (cnt - 1)).
  { intros x X. split; apply argp_le; auto; fold m h n A; lia. }
  destruct (set_sb nsb s b (a 0) AR B) as [sbv [E1 [E2 [E3 [E4 E5]]]]]; [rewrite A0; lia|]. rewrite E1. cbn [obind].
  destruct (N.ltb (mc_logn4 v) (N.of_nat (a last - a 0))).
  - destruct (copy_long_ok a (last + 1) 0 (av_new SBS 0 (hiw (N.of_nat (a last))))) as [t [T1 [T2 [T3 _]]]].
    { rewrite av_size_new. unfold SBS in *. lia. }
    { intros k K. cbn [av_new av_w]. apply hiw_fits. { rewrite AL. lia. } replace (a k) with (P (SBS * b + k)) by (rewrite <- AP by lia; f_equal; lia).
      rewrite AL. destruct (LE (SBS * b + k)); lia. }
    rewrite T1. cbn [obind]. rewrite aset_some by (rewrite (alloc_length nsb s AR); auto). cbn [obind].
    eexists. split; [reflexivity|]. destruct (put_long nsb s sbv b t AR) as [Q1 [Q2 [Q3 Q4]]]; auto.
    split; auto. split; [|split; auto]. apply Q4. { rewrite T2. apply av_size_new. }
    intros j J1 J2. rewrite T3 by lia. rewrite <- AP by lia. do 2 f_equal. lia.
  - destruct (copy_mini_ok a (last / 64 + 1) 0 (av_new 64 0 (hiw (N.of_nat (a last - a 0))))) as [t [T1 [T2 [T3 _]]]].
    { rewrite av_size_new. unfold SBS in *. lia. }
    { intros k K. cbn [av_new av_w]. apply hiw_fits. { rewrite AL. lia. } replace (a (64 * k)) with (P (SBS * b + 64 * k)) by (rewrite <- AP by lia; f_equal; lia).
      rewrite AL. destruct (LE (SBS * b + 64 * k)); lia. }
    rewrite T1. cbn [obind]. rewrite aset_some by (destruct AR as [_ [_ [AR _]]]; lia). cbn [obind].
    eexists. split; [reflexivity|]. destruct (put_mini nsb s sbv b t AR) as [Q1 [Q2 [Q3 Q4]]]; auto.
    split; auto. split; [|split; auto]. apply Q4; auto. { rewrite E4, A0. auto. }
    intros k K1 K2. assert (KL : k <= last / 64 /\ SBS * b + 64 * k < cnt) by (clear - K1 K2 C1 C2 C3 C4 EL; unfold SBS in *; lia).
    rewrite T3 by lia. rewrite A0. rewrite <- (AP (SBS * b + 64 * k)) by lia. do 2 f_equal. f_equal. lia.
Qed.

Lemma argp_next : forall i, i < n -> h i = true -> P (rank_of h i) = i.
Proof. intros. unfold P. apply argp_is; auto. apply select_rank. auto. Qed.

Lemma slow_loop_ok : forall todo i a cnt sbc s, i + todo = n -> cnt = rank_of h i -> arr nsb s ->
  (forall x, x < cnt -> cnt < x + SBS -> a (x mod SBS) = P x) ->
  (cnt < A -> sbc = cnt / SBS /\ forall b, sbc <= b -> b < nsb -> no_long s b) ->
  (forall b, b < sbc -> b < nsb -> block_ok p v s b) -> (cnt = A -> forall b, b < nsb -> block_ok p v s b) ->
  exists s', mc_slow_loop p v (mc_logn4 v) nsb todo i a cnt sbc s = Some s' /\ forall b, b < nsb -> block_ok p v s' b.
Proof.
  induction todo; intros i a cnt sbc s I C AR AP NB DN FIN; cbn [mc_slow_loop].
  - exists s. split; auto. apply FIN. rewrite C. unfold A. f_equal. lia.
  - destruct V as [V1 [V2 V3]]. fold m in V1, V3. fold n in V3. rewrite found_ok by (auto; fold m; lia). cbn [obind]. fold m. fold h.
    assert (RS := rank_of_S h i). assert (RA : rank_of h (S i) <= A) by (apply rank_of_mono; lia).
    destruct (h i) eqn:Hi; cbn [b2nat] in RS.
    + assert (CA : cnt < A) by lia. destruct (NB CA) as [NB1 NB2]. assert (PN := argp_next i). rewrite <- C in PN. specialize (PN ltac:(lia) Hi).
      assert (AP' : forall x, x < S cnt -> cnt < x + SBS -> ap_set a (cnt mod SBS) i (x mod SBS) = P x).
      { intros x X1 X2. unfold ap_set. destruct (Nat.eqb_spec (x mod SBS) (cnt mod SBS)) as [E|E].
        - replace x with cnt; auto. unfold SBS in *. lia.
        - apply AP; auto. assert (x <> cnt) by congruence. lia. }
      assert (AR4 : mc_args s = A) by (destruct AR as [_ [_ [_ [AR4 _]]]]; auto).
      destruct ((S cnt mod SBS =? 0) || (S cnt =? mc_args s)) eqn:FL.
      * destruct (slow_block_ok (ap_set a (cnt mod SBS) i) (S cnt) sbc s AR) as [s' [Q1 [Q2 [Q3 [Q4 Q5]]]]]; auto.
        { apply nsb_blk. clear - NB1 CA. unfold SBS in *. lia. } { clear - NB1. unfold SBS in *. lia. } { clear - NB1. unfold SBS in *. lia. }
        { clear - FL AR4 NB1. rewrite AR4 in FL. apply orb_true_iff in FL. destruct FL as [FL|FL]; [left|right; apply Nat.eqb_eq in FL; exact FL].
          apply Nat.eqb_eq in FL. unfold SBS in *. lia. }
        { intros x X. rewrite <- AP' by (clear - X NB1; unfold SBS in *; lia). f_equal. clear - X NB1. unfold SBS in *. lia. }
        { apply NB2; auto. apply nsb_blk. clear - NB1 CA. unfold SBS in *. lia. }
        rewrite Q1. cbn [obind]. apply IHtodo; auto.
        -- clear - I. lia.
        -- clear - RS C. lia.
        -- intros. apply AP'; clear - H H0; lia.
        -- intros LT. split. { clear - LT FL AR4 NB1. rewrite AR4 in FL. apply orb_true_iff in FL. destruct FL as [FL|FL]; apply Nat.eqb_eq in FL; unfold SBS in *; lia. }
           intros. apply Q5; auto. { clear - H. lia. } apply NB2; auto. clear - H. lia.
        -- intros b B1 B2. destruct (Nat.eq_dec b sbc) as [->|]; auto. apply Q4; auto. apply DN; auto. clear - B1 n0. lia.
        -- intros EA b B2. destruct (Nat.eq_dec b sbc) as [->|]; auto. apply Q4; auto. apply DN; auto.
           apply nsb_blk in B2. clear - B2 EA NB1 n0. unfold SBS in *. lia.
      * apply IHtodo; auto.
        -- clear - I. lia.
        -- clear - RS C. lia.
        -- intros. apply AP'; clear - H H0; lia.
        -- intros LT. split; auto. clear - LT FL AR4 NB1. rewrite AR4 in FL. apply orb_false_iff in FL. destruct FL as [FL _]; apply Nat.eqb_neq in FL; unfold SBS in *; lia.
        -- intros E. exfalso. clear - E FL AR4. rewrite AR4 in FL. apply orb_false_iff in FL. destruct FL as [_ FL]; apply Nat.eqb_neq in FL. auto.
    + apply IHtodo; auto. { clear - I. lia. } { clear - RS C. lia. }
Qed.

Lemma init_arr : forall nl, arr nl (mkmcl (av_new nsb 0 (mc_logn v)) None (repeat av_nil nsb) A).
Proof. intros nl. unfold arr. cbn [mc_sb mc_mini mc_args mc_long]. rewrite av_size_new, repeat_length. auto. Qed.
Lemma A_nsb : A = 0 -> nsb = 0.
Proof. unfold nsb. intros ->. reflexivity. Qed.

Lemma init_slow_ok : forall a, exists s, mc_init_slow p a v = Some s /\ forall b, SBS * b < A -> block_ok p v s b.
Proof.
  intros a. unfold mc_init_slow. rewrite arg_cnt_ok by auto. cbn [obind]. rewrite Nnat.Nat2N.id. fold m. fold h. fold n. fold A.
  destruct (Nat.eqb_spec A 0) as [Z|Z]. { eexists. split; [reflexivity|]. intros b B. lia. }
  fold nsb. destruct (slow_loop_ok n 0 a 0 0 (mkmcl (av_new nsb 0 (mc_logn v)) None (repeat av_nil nsb) A)) as [s [E1 E2]]; auto.
  - apply init_arr.
  - intros x X. exfalso. apply (Nat.nlt_0_r _ X).
  - intros _. split; [reflexivity|]. intros. unfold no_long. cbn [mc_long]. auto.
  - intros b B. exfalso. apply (Nat.nlt_0_r _ B).
  - intros E. exfalso. auto.
  - exists s. split; auto. intros b B. apply E2. apply nsb_blk. auto.
Qed.
End BUILD.
