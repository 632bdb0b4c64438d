(** * Proofs about sd_vector: select_0_support_sd *)
From Coq Require Import NArith List Bool Arith Lia.
From Verif Require Import Base Bits SpecBits RankSelect BitsProofs BitsProofs2 IntVector AbsVec SelectSupportProofs3 SdVector SdVectorProofs.
Import ListNotations.

Lemma count_true_rank : forall f c, count_true (map f (seq 0 c)) = rank_of f c.
Proof. intros. apply count_true_map. Qed.

Section S0.
Variable B : nat -> bool.
Variable n : nat.
Hypothesis BN : forall k, B k = true -> k < n.
Variable d : sdv.
Variable K : nat.
Let L := 2 ^ sd_wl d.
Let m := rank_of B n.
Let R := rank_of B.
Let sx := sx B n.
Let H := H d.
Hypothesis REP : sd_rep B n d K.
Hypothesis HW : N.lt (N.of_nat (length (sd_high d))) W64.
Definition r1 (k : nat) : nat := rank_of H k.
(** position of the represented vector reached after [k] bits of m_high *)
Definition Epos (k : nat) : nat := if (0 <? r1 k) && H (k - 1) then sx (r1 k - 1) + 1 else (k - r1 k) * L.

Lemma hix_inc : forall i j, i < j -> j < m -> hix B n d i + i < hix B n d j + j.
Proof. intros. pose proof (hix_le B n BN d i j). fold m in H2. lia. Qed.
(** after [k] bits: exactly the elements with index below [r1 k] have been seen *)
Lemma r1_spec : forall k j, j < m -> (j < r1 k <-> hix B n d j + j < k).
Proof.
  intros k j J. assert (RS : forall c, c <= m -> (forall j, j < c -> hix B n d j + j < k) -> (forall j, c <= j -> j < m -> k <= hix B n d j + j) -> r1 k = c).
  { intros c C1 C2 C3. apply (rank_sorted H m (fun j => hix B n d j + j)); auto. { intros. apply hix_inc; auto. } intros q. apply (H_true B n d K REP). }
  (* the split point *)
  assert (EX : forall c0, c0 <= m -> exists c, c <= c0 /\ (forall j, j < c -> hix B n d j + j < k) /\ (forall j, c <= j -> j < c0 -> k <= hix B n d j + j)).
  { induction c0; intros C0. { exists 0. split; auto. split; intros; lia. }
    destruct IHc0 as [c [D1 [D2 D3]]]; [lia|]. destruct (Nat.lt_ge_cases (hix B n d c0 + c0) k) as [Q|Q].
    - exists (S c0). split; auto. split; [|intros; lia]. intros i I. destruct (Nat.eq_dec i c0) as [->|]; auto. pose proof (hix_inc i c0). lia.
    - exists c. split; [lia|]. split; auto. intros i I1 I2. destruct (Nat.eq_dec i c0) as [->|]; auto. apply D3; lia. }
  destruct (EX m ltac:(lia)) as [c [D1 [D2 D3]]]. rewrite (RS c); auto. split; intros Q; auto. destruct (Nat.lt_ge_cases j c); auto. specialize (D3 j). lia.
Qed.
Lemma r1_le_m : forall k, r1 k <= m.
Proof.
  intros k. destruct (Nat.le_gt_cases (r1 k) m); auto. exfalso. destruct (nth_positions H k m 0 ltac:(fold (r1 k); lia)) as [S1 S2]. set (q := nth m (positions H k) 0) in *. clearbody q.
  destruct S1 as [S1 S3]. apply (H_true B n d K REP) in S1. destruct S1 as [j [J1 J2]].
  assert (~ j < r1 q) by (rewrite r1_spec by auto; lia). unfold r1 in *. fold m in J1. lia.
Qed.
Lemma r1_S : forall k, r1 (S k) = r1 k + b2nat (H k).
Proof. intros. unfold r1. apply rank_of_S. Qed.
Lemma r1_at : forall k, H k = true -> r1 k < m /\ hix B n d (r1 k) + r1 k = k.
Proof.
  intros k HK. pose proof (r1_S k) as RS. rewrite HK in RS. cbn [b2nat] in RS. pose proof (r1_le_m (S k)). split; [lia|].
  assert (r1 k < r1 (S k)) by lia. apply r1_spec in H1; [|lia]. assert (~ r1 k < r1 k) by lia. rewrite r1_spec in H2 by lia. lia.
Qed.
Lemma L_pos' : 1 <= L.
Proof. apply (L_pos B n BN d). Qed.
Lemma R_Epos : forall k, R (Epos k) = r1 k.
Proof.
  intros k. unfold Epos. destruct ((0 <? r1 k) && H (k - 1)) eqn:E.
  - apply andb_true_iff in E. destruct E as [E1 E2]. pose proof (r1_le_m k).
    destruct (sx_sel B n (r1 k - 1)) as [[S1 S2] _]; [fold m; lia|]. fold sx in S1, S2. unfold R. rewrite Nat.add_1_r, rank_of_S, S1. cbn [b2nat]. lia.
  - assert (HE : k = 0 \/ H (k - 1) = false). { destruct (Nat.eq_dec k 0) as [|Z]; auto. right. destruct (H (k - 1)) eqn:HK; auto. rewrite andb_true_r in E.
      exfalso. pose proof (r1_S (k - 1)) as RS. rewrite HK in RS. replace (S (k - 1)) with k in RS by lia. cbn [b2nat] in RS. apply Nat.ltb_ge in E. lia. }
    clear E. pose proof (rank_of_le H k) as RL. fold (r1 k) in RL.
    assert (G : forall j, j < m -> (j < R ((k - r1 k) * L) <-> j < r1 k)).
    { intros j J. pose proof (hix_lt_iff B n BN d j (k - r1 k) J) as HLI. fold L R in HLI. rewrite <- HLI. clear HLI. rewrite r1_spec by auto. pose proof (r1_spec k j J) as RJ. split; intros Q.
      - destruct (Nat.lt_ge_cases j (r1 k)) as [Q1|Q1]; [tauto|]. exfalso. assert (RC : ~ r1 k < r1 k) by lia. rewrite r1_spec in RC by lia. pose proof (hix_le B n BN d (r1 k) j Q1 J). lia.
      - destruct HE as [->|HE]; [lia|]. (* every element before k lies in an earlier bucket *)
        assert (J2 : j < r1 k) by tauto. destruct (Nat.eq_dec (hix B n d (r1 k - 1) + (r1 k - 1)) (k - 1)) as [EQ|NE].
        + exfalso. assert (HT : H (k - 1) = true). { apply (H_true B n d K REP). exists (r1 k - 1). pose proof (r1_le_m k). fold m. lia. } congruence.
        + pose proof (r1_le_m k). assert (T1 : r1 k - 1 < r1 k) by lia. apply r1_spec in T1; [|lia]. pose proof (hix_le B n BN d j (r1 k - 1)) as HL. fold m in HL. lia. }
    pose proof (R_le_m B n BN d ((k - r1 k) * L)) as RM. fold m in RM. fold R in RM. pose proof (r1_le_m k) as R1M.
    destruct (Nat.lt_trichotomy (R ((k - r1 k) * L)) (r1 k)) as [Q|[Q|Q]]; auto; exfalso.
    + specialize (G (R ((k - r1 k) * L)) ltac:(lia)). lia.
    + specialize (G (r1 k) ltac:(lia)). lia.
Qed.
Definition Zk (k : nat) : nat := Epos k - r1 k.
Lemma r1_le_E : forall k, r1 k <= Epos k.
Proof. intros. rewrite <- R_Epos. apply rank_of_le. Qed.
(** the model's zero counts *)
Lemma zeros_ok : forall k, s0_zeros d k (r1 k) (H (k - 1)) = Some (Zk k).
Proof.
  intros k. unfold s0_zeros. unfold Zk, Epos. fold L. destruct ((0 <? r1 k) && H (k - 1)) eqn:E; auto. apply andb_true_iff in E. destruct E as [E1 E2].
  assert (KN : k <> 0). { intro; subst. cbn in E1. discriminate. }
  pose proof (r1_S (k - 1)) as RS. rewrite E2 in RS. replace (S (k - 1)) with k in RS by lia. cbn [b2nat] in RS.
  destruct (r1_at (k - 1) E2) as [A1 A2]. replace (r1 k - 1) with (r1 (k - 1)) by lia.
  pose proof (low_some B n BN d K REP (r1 (k - 1)) A1) as LS. unfold low_at in LS. cbn [obind] in LS. destruct (av_get (sd_low d) (r1 (k - 1))) as [x|]; [|discriminate].
  cbn [obind] in *. apply some_inj in LS. rewrite LS. f_equal. f_equal. f_equal.
  pose proof (mod_split (sx (r1 (k - 1))) L L_pos') as [MS _]. unfold hix in A2. fold sx in A2. fold L in A2. fold sx L. rewrite MS at 2. f_equal. f_equal. clear - A2 RS KN. revert A2. generalize (sx (r1 (k - 1)) / L). lia.
Qed.
(** the answer *)
Lemma answer : forall i q k, is_select (fun k => negb (B k)) i q -> Zk k < i -> i <= Zk (S k) -> q = i - 1 + r1 k.
Proof.
  intros i q k [S1 S2] Z1 Z2. assert (QB : B q = false) by (destruct (B q); auto). rewrite rank_of_negb in S2. pose proof (rank_of_le B q) as RQ.
  pose proof (r1_le_E k). pose proof (r1_le_E (S k)). unfold Zk in *. pose proof (R_Epos k) as E1. pose proof (R_Epos (S k)) as E2. unfold R in *.
  assert (LO : Epos k <= q).
  { apply Nat.nlt_ge. intro C. pose proof (rank_of_step B (S q) (Epos k) ltac:(lia)) as ST. rewrite rank_of_S, QB in ST. cbn [b2nat] in ST. lia. }
  assert (HI : q < Epos (S k)).
  { apply Nat.nle_gt. intro C. pose proof (rank_of_step B (Epos (S k)) q C). pose proof (rank_of_mono B (Epos (S k)) q C). lia. }
  assert (G1 : r1 k <= rank_of B q) by (rewrite <- E1; apply rank_of_mono; auto).
  assert (G2 : rank_of B q <= r1 k); [|lia].
  destruct (H k) eqn:HK.
  - assert (EK : Epos (S k) = sx (r1 k) + 1). { unfold Epos. replace (S k - 1) with k by lia. rewrite r1_S, HK. cbn [b2nat]. replace (0 <? r1 k + 1) with true by lia. cbn [andb]. f_equal. f_equal. lia. }
    destruct (r1_at k HK) as [A1 A2]. destruct (sx_sel B n (r1 k) A1) as [[SS1 SS2] _]. fold sx in SS1, SS2.
    assert (q <> sx (r1 k)) by (intro; subst q; congruence). assert (LE : rank_of B q <= rank_of B (sx (r1 k))) by (apply rank_of_mono; lia). lia.
  - rewrite r1_S, HK in E2. cbn [b2nat] in E2. rewrite Nat.add_0_r in E2. rewrite <- E2. apply rank_of_mono. lia.
Qed.
Lemma Z_end : forall k, m + K <= k -> n - m <= Zk k /\ r1 k = m.
Proof.
  intros k KK. assert (NK : n / L < K) by (destruct REP as [_ [NK _]]; exact NK).
  assert (HF : forall q, m + K <= q + 1 -> H q = false).
  { intros q Q. destruct (H q) eqn:E; auto. destruct (r1_at q E) as [A1 A2]. destruct (sx_sel B n (r1 q) A1) as [_ SN].
    assert (hix B n d (r1 q) <= n / L). { unfold hix. fold L. apply Nat.div_le_mono; [pose proof L_pos'; lia|lia]. } lia. }
  assert (RM : r1 k = m).
  { apply Nat.le_antisymm; [apply r1_le_m|]. destruct (Nat.eq_dec m 0) as [->|MZ]; [lia|]. assert (m - 1 < r1 k); [|lia]. apply r1_spec; [lia|].
    destruct (one_sel B n BN d K REP (m - 1)) as [_ OS]; fold m; [lia|]. fold m in OS. lia. }
  split; auto. unfold Zk, Epos. rewrite RM. rewrite HF by lia. rewrite andb_false_r.
  assert (n < K * L) by (apply div_lt_iff; auto; apply L_pos'). assert (K * L <= (k - m) * L) by (apply Nat.mul_le_mono_r; lia). lia.
Qed.

(** words, bytes and bits *)
Definition wbits (j c : nat) : list bool := map (fun k => H (j + k)) (seq 0 c).
Lemma hget64_eq : forall j, hget64 d j = wbits j 64.
Proof. reflexivity. Qed.
Lemma wbits_nth : forall j c k, k < c -> nth k (wbits j c) false = H (j + k).
Proof. intros. unfold wbits. rewrite (nth_indep _ false (H (j + 0))) by (rewrite map_length, seq_length; auto). rewrite (map_nth (fun k => H (j + k)) (seq 0 c) 0). rewrite seq_nth by auto. auto. Qed.
Lemma wbits_cnt : forall j c, r1 j + count_true (wbits j c) = r1 (j + c).
Proof. intros. unfold wbits. rewrite count_true_rank. unfold r1. symmetry. apply rank_of_add. Qed.
Lemma wbits_firstn : forall j c a, a <= c -> firstn a (wbits j c) = wbits j a.
Proof. intros. unfold wbits. rewrite firstn_map. f_equal. replace c with (a + (c - a)) by lia. rewrite seq_app, firstn_app, seq_length. replace (a - a) with 0 by lia. cbn [firstn]. rewrite app_nil_r. rewrite firstn_all2; auto. rewrite seq_length. auto. Qed.
Lemma wbits_skipn : forall j c a, a <= c -> skipn a (wbits j c) = wbits (j + a) (c - a).
Proof.
  intros. unfold wbits. rewrite skipn_map. replace c with (a + (c - a)) at 1 by lia. rewrite seq_app, skipn_app, seq_length. rewrite skipn_all2 by (rewrite seq_length; auto).
  replace (a - a) with 0 by lia. cbn [skipn app]. rewrite Nat.add_0_l. clear. generalize (c - a). intros e. rewrite <- (map_map (fun k => a + k) (fun k => H (j + k))) with (l := seq 0 e) at 1 || idtac.
  revert a. induction e; intros a; auto. replace (S e) with (e + 1) by lia. rewrite !seq_app, !map_app, IHe. f_equal. cbn. f_equal. f_equal. lia.
Qed.

Section Q.
Variables i q : nat.
Hypothesis SEL : is_select (fun k => negb (B k)) i q.
Hypothesis QN : q < n.
Lemma i_le : 1 <= i <= n - m.
Proof. split. { apply (is_select_pos _ _ _ SEL). } pose proof (is_select_le_rank _ _ _ n SEL QN) as H0. rewrite rank_of_negb in H0. exact H0. Qed.
Lemma bits_ok : forall e c fuel j, e <= c -> j mod 64 + c <= 64 -> e < fuel -> Zk j < i -> i <= Zk (j + e) -> s0_bits d fuel i j (r1 j) (wbits j c) = Some q.
Proof.
  induction e; intros c fuel j EC JC F Z1 Z2. { rewrite Nat.add_0_r in Z2. lia. }
  destruct fuel as [|f]; [lia|]. cbn [s0_bits]. rewrite wbits_nth by lia. rewrite Nat.add_0_r. rewrite wbits_skipn by lia.
  pose proof (answer i q j SEL Z1) as ANS. pose proof (r1_le_E (S j)) as RE. fold L. unfold Zk in ANS.
  assert (CONT : ~ (i <= Zk (S j)) -> s0_bits d f i (j + 1) (r1 (S j)) (if (j + 1) mod 64 =? 0 then hget64 d (j + 1) else wbits (j + 1) (c - 1)) = Some q).
  { intros NC. destruct (Nat.eq_dec e 0) as [->|CZ]. { rewrite Nat.add_1_r in Z2. lia. } replace ((j + 1) mod 64 =? 0) with false by (clear - CZ JC EC; symmetry; apply Nat.eqb_neq; lia).
    replace (S j) with (j + 1) in * by lia. apply IHe; try (clear - JC F CZ EC; lia). { lia. } replace (j + 1 + e) with (j + S e) by lia. auto. }
  destruct (H j) eqn:HJ; cbn [negb].
  - destruct (r1_at j HJ) as [A1 A2]. pose proof (low_some B n BN d K REP (r1 j) A1) as LS. unfold low_at in LS. cbn [obind] in LS. destruct (av_get (sd_low d) (r1 j)) as [x|]; [|discriminate].
    cbn [obind] in *. apply some_inj in LS. rewrite LS. fold sx L. pose proof (mod_split (sx (r1 j)) L L_pos') as [MS _]. unfold hix in A2. fold sx L in A2.
    replace (j + 1 - 1 - r1 j) with (sx (r1 j) / L) by (clear - A2; revert A2; generalize (sx (r1 j) / L); lia). rewrite <- MS. clear MS A2.
    assert (EK : Epos (S j) = sx (r1 j) + 1). { unfold Epos. replace (S j - 1) with j by lia. rewrite r1_S, HJ. cbn [b2nat]. replace (0 <? r1 j + 1) with true by lia. cbn [andb]. f_equal. f_equal. lia. }
    pose proof (r1_S j) as RS. rewrite HJ in RS. cbn [b2nat] in RS. unfold Zk in CONT. rewrite EK, RS in *.
    destruct (Nat.leb_spec i (sx (r1 j) + 1 - (r1 j + 1))) as [C|C].
    + f_equal. specialize (ANS C). lia.
    + apply CONT. lia.
  - assert (EK : Epos (S j) = (j + 1 - r1 j) * L). { unfold Epos. replace (S j - 1) with j by lia. rewrite HJ, andb_false_r. rewrite r1_S, HJ. cbn [b2nat]. f_equal. lia. }
    pose proof (r1_S j) as RS. rewrite HJ in RS. cbn [b2nat] in RS. rewrite Nat.add_0_r in RS. unfold Zk in CONT. rewrite EK, RS in *.
    destruct (Nat.leb_spec i ((j + 1 - r1 j) * L - r1 j)) as [C|C].
    + f_equal. specialize (ANS C). lia.
    + apply CONT. lia.
Qed.
Lemma bytes_ok : forall c fuel j, j mod 64 + 8 * c = 64 -> c < fuel -> Zk j < i -> i <= Zk (j + 8 * c) ->
  exists j' c', s0_bytes d fuel i j (r1 j) (wbits j (8 * c)) = Some (j', r1 j', wbits j' (8 * c')) /\ 1 <= c' /\ j' mod 64 + 8 * c' = 64 /\ Zk j' < i /\ i <= Zk (j' + 8).
Proof.
  induction c; intros fuel j JC F Z1 Z2. { rewrite Nat.mul_0_r, Nat.add_0_r in Z2. lia. }
  destruct fuel as [|f]; [lia|]. cbn [s0_bytes]. rewrite wbits_firstn by lia. rewrite wbits_cnt. rewrite wbits_nth by lia. replace (j + 7) with (j + 8 - 1) by lia. rewrite zeros_ok. cbn [obind].
  destruct (Nat.ltb_spec (Zk (j + 8)) i) as [C|C].
  - rewrite wbits_skipn by lia. destruct (Nat.eq_dec c 0) as [->|CZ]. { replace (j + 8 * 1) with (j + 8) in Z2 by lia. lia. }
    replace (8 * S c - 8) with (8 * c) by lia. apply IHc; auto; try (clear - JC F CZ; lia). replace (j + 8 + 8 * c) with (j + 8 * S c) by lia. auto.
  - exists j, (S c). repeat split; auto; lia.
Qed.
Lemma words_ok' : forall fuel a, Zk (64 * a) < i -> m + K <= 64 * (a + fuel) -> 1 <= fuel ->
  exists a', s0_words d fuel i (64 * a) (r1 (64 * a)) (wbits (64 * a) 64) = Some (64 * a', r1 (64 * a'), wbits (64 * a') 64) /\ Zk (64 * a') < i /\ i <= Zk (64 * a' + 64).
Proof.
  induction fuel; intros a Z1 F F1; [lia|]. cbn [s0_words]. rewrite wbits_cnt. rewrite wbits_nth by lia. replace (64 * a + 63) with (64 * a + 64 - 1) by lia. rewrite zeros_ok. cbn [obind].
  destruct (Nat.ltb_spec (Zk (64 * a + 64)) i) as [C|C].
  - rewrite hget64_eq. replace (64 * a + 64) with (64 * S a) in * by lia. apply IHfuel; auto; try lia.
    destruct (Nat.le_gt_cases (m + K) (64 * S a)) as [D|D]; [|lia]. destruct (Z_end _ D). pose proof i_le. lia.
  - exists a. auto.
Qed.
(** query part: any start word with fewer than i zeros before it *)
Lemma query_ok : forall a, 64 * a < m + K -> Zk (64 * a) < i ->
  (let* t := s0_words d (S (length (sd_high d))) i (64 * a) (r1 (64 * a)) (hget64 d (64 * a)) in
   let '(j, rank1, w) := t in let* t := s0_bytes d 9 i j rank1 w in let '(j, rank1, w) := t in s0_bits d 65 i j rank1 w) = Some q.
Proof.
  intros a A Z1. rewrite hget64_eq. destruct (words_ok' (S (length (sd_high d))) a) as [a' [E1 [E2 E3]]]; auto; try lia. { rewrite (high_len B n d K REP). fold m. lia. }
  rewrite E1. cbn [obind]. destruct (bytes_ok 8 9 (64 * a')) as [j' [c' [F1 [F2 [F3 [F4 F5]]]]]]; auto; try lia.
  change (8 * 8) with 64 in F1. rewrite F1. cbn [obind]. apply (bits_ok 8); auto; lia.
Qed.
End Q.
(** ** the constructor: every started block of 64*bs zeros points to a word with fewer zeros before it *)
Let step := 64 * L.
Let zeros := n - m.
Let cnt := zeros / step + 1.
Definition ptr_ok (t : nat) (p r : avec) : Prop :=
  exists a, nth t (av_l p) 0%N = N.of_nat a /\ nth t (av_l r) 0%N = N.of_nat (r1 (64 * a)) /\ 64 * a < m + K /\ Zk (64 * a) < 1 + t * step.
Definition tabs (t : nat) (p r : avec) : Prop :=
  av_size p = cnt /\ av_size r = cnt /\ av_w p = hiw (N.of_nat ((m + K) / 64)) /\ av_w r = hiw (N.of_nat (m + K)) /\ forall t', t' < t -> ptr_ok t' p r.
Lemma step_pos : 1 <= step.
Proof. unfold step. pose proof L_pos'. lia. Qed.
Lemma mark_ok : forall fuel a t p r, zeros < t * step + fuel -> 1 <= fuel -> tabs t p r -> 64 * a < m + K -> Zk (64 * a) < 1 + t * step \/ zeros < 1 + t * step ->
  exists t' p' r', s0_mark fuel step (Zk (64 * a + 64)) zeros (64 * a) (r1 (64 * a)) (1 + t * step) p r = Some (1 + t' * step, p', r') /\
    tabs t' p' r' /\ (Zk (64 * a + 64) < 1 + t' * step \/ zeros < 1 + t' * step).
Proof.
  induction fuel; intros a t p r F F1 T AK Z; [lia|]. cbn [s0_mark]. pose proof step_pos as SP.
  destruct ((1 + t * step <=? Zk (64 * a + 64)) && (1 + t * step <=? zeros)) eqn:C.
  - apply andb_true_iff in C. destruct C as [C1 C2]. apply Nat.leb_le in C1, C2. destruct T as [T1 [T2 [T3 [T4 T5]]]].
    replace ((1 + t * step - 1) / step) with t. 2: { replace (1 + t * step - 1) with (t * step) by lia. symmetry. apply Nat.div_mul. lia. }
    assert (TC : t < cnt). { unfold cnt. assert (t <= zeros / step). { apply Nat.div_le_lower_bound; lia. } lia. }
    replace (64 * a / 64) with a. 2: { rewrite Nat.mul_comm. symmetry. apply Nat.div_mul. lia. }
    assert (HL : length (sd_high d) = m + K) by apply (high_len B n d K REP). pose proof HW as HW2. rewrite HL in HW2.
    assert (AW : N.lt (N.of_nat a) (2 ^ N.of_nat (av_w p))). { rewrite T3. apply hiw_fits; [lia|]. assert (a <= (m + K) / 64) by (apply Nat.div_le_lower_bound; lia). lia. }
    assert (RW : N.lt (N.of_nat (r1 (64 * a))) (2 ^ N.of_nat (av_w r))). { rewrite T4. apply hiw_fits; [lia|]. pose proof (r1_le_m (64 * a)). lia. }
    rewrite av_set_some by (auto; lia). cbn [obind]. rewrite av_set_some by (auto; lia). cbn [obind].
    replace (1 + t * step + step) with (1 + S t * step) by lia. destruct (Nat.eq_dec fuel 0) as [->|FZ].
    { exfalso. lia. }
    apply IHfuel; auto; try lia.
    unfold tabs. unfold av_size in *. cbn [av_l av_w]. rewrite !upd_length. split; auto. split; auto. split; auto. split; auto. intros t' T'.
    destruct (Nat.eq_dec t' t) as [->|NE].
    + exists a. cbn [av_l]. rewrite !nth_upd_eq by lia. repeat split; auto. lia.
    + destruct (T5 t' ltac:(lia)) as [a' [X1 [X2 X3]]]. exists a'. cbn [av_l]. rewrite !nth_upd_neq by auto. auto.
  - exists t, p, r. split; auto. split; auto. apply andb_false_iff in C. destruct C as [C|C]; apply Nat.leb_gt in C; auto.
Qed.
Lemma loop_ok : forall todo a t p r, 64 * (a + todo) < m + K + 64 -> m + K <= 64 * (a + todo) -> tabs t p r -> Zk (64 * a) < 1 + t * step \/ zeros < 1 + t * step ->
  exists t' p' r', s0_loop d zeros todo a (r1 (64 * a)) (1 + t * step) p r = Some (p', r') /\ tabs t' p' r' /\ zeros < 1 + t' * step.
Proof.
  induction todo; intros a t p r T1 T2 T Z; cbn [s0_loop].
  - exists t, p, r. split; auto. split; auto. destruct Z as [Z|Z]; auto. destruct (Z_end (64 * a) ltac:(lia)) as [Q _]. unfold zeros. lia.
  - rewrite hget64_eq. rewrite wbits_cnt. rewrite wbits_nth by lia. replace (64 * a + 63) with (64 * a + 64 - 1) by lia. rewrite zeros_ok. cbn [obind]. fold L. fold step.
    destruct (mark_ok (S zeros) a t p r) as [t' [p' [r' [E1 [E2 E3]]]]]; auto; try lia. rewrite E1. cbn [obind].
    replace (64 * a + 64) with (64 * S a) in * by lia. apply IHtodo; auto; lia.
Qed.
Lemma s0_build_ok : exists s t, s0_build d = Some s /\ tabs t (s0_pointer s) (s0_rank1 s) /\ zeros <= t * step.
Proof.
  assert (SZ : sd_size d = n) by (destruct REP as [E _]; exact E). assert (HL : length (sd_high d) = m + K) by apply (high_len B n d K REP).
  unfold s0_build. rewrite SZ, (sd_rank1_ok B n BN d K REP) by auto. cbn [obind]. fold m. fold zeros. rewrite HL. fold L. fold step. fold cnt.
  destruct (loop_ok ((m + K + 63) / 64) 0 0 (av_new cnt 0 (hiw (N.of_nat ((m + K) / 64)))) (av_new cnt 0 (hiw (N.of_nat (m + K))))) as [t' [p' [r' [E1 [E2 E3]]]]]; try lia.
  - unfold tabs. rewrite !av_size_new. repeat split; auto. intros. lia.
  - left. assert (Z0 : Zk (64 * 0) = 0) by reflexivity. rewrite Z0. lia.
  - replace (1 + 0 * step) with 1 in E1 by lia. replace (r1 (64 * 0)) with 0 in E1 by reflexivity. rewrite E1. cbn [obind]. eexists. exists t'. split; [reflexivity|]. cbn [s0_pointer s0_rank1]. split; auto. lia.
Qed.
Lemma s0_ok : exists s, s0_build d = Some s /\ forall i q, is_select (fun k => negb (B k)) i q -> q < n -> s0_select d s i = Some q.
Proof.
  destruct s0_build_ok as [s [t [E1 [E2 E3]]]]. exists s. split; auto. intros i q SEL QN. destruct E2 as [A1 [A2 [A3 [A4 A5]]]].
  pose proof (i_le i q SEL QN) as IL. fold zeros in IL. pose proof step_pos as SP.
  assert (TT : (i - 1) / step < t) by (apply Nat.div_lt_upper_bound; lia).
  assert (TC : (i - 1) / step < cnt). { unfold cnt. pose proof (Nat.div_le_mono (i - 1) zeros step). lia. }
  destruct (A5 _ TT) as [a [X1 [X2 [X3 X4]]]]. unfold s0_select. fold L. fold step. rewrite !av_get_some by lia. cbn [obind]. rewrite X1, X2, !Nat2N.id. cbn [obind].
  replace (a * 64) with (64 * a) by lia.
  assert (RD : exists y, (if 0 <? r1 (64 * a) then let* h := high_at d (64 * a - 1) in s0_zeros d (64 * a) (r1 (64 * a)) h else Some 0) = Some y).
  { destruct (Nat.ltb_spec 0 (r1 (64 * a))) as [C|C]; eauto. rewrite (high_some B n d K REP) by (fold m; lia). cbn [obind]. fold H. rewrite zeros_ok. eauto. }
  destruct RD as [y RD]. rewrite RD. cbn [obind]. apply query_ok; auto.
  assert ((i - 1) / step * step <= i - 1). { rewrite Nat.mul_comm. apply Nat.mul_div_le. lia. } lia.
Qed.
End S0.
