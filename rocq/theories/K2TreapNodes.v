(** * k2_treap: the values become differences; nodes and their children *)
From Coq Require Import List Arith Bool Lia NArith Permutation.
From Verif Require Import Base SpecBits RankSelect AbsVec FnArr WtBase WtProofs K2Treap K2Proofs K2Build K2TreapProofs K2TreapLevels.
Import ListNotations.

(** ** The differences *)
Section Diff.
Variables (W : nat) (bp : list bool) (raw : list nat).
Hypothesis WP : 0 < W.
Notation on p := (ones (firstn p bp)).
Hypothesis HB : forall p, nth_error bp p = Some true -> p / W < 1 + on p < length raw /\ nth (1 + on p) raw 0 <= nth (p / W) raw 0.
Lemma on_S : forall p x, nth_error bp p = Some x -> on (p + 1) = on p + if x then 1 else 0.
Proof.
  intros p x E. destruct (nth_error_split _ _ E) as (l1 & l2 & EB & L). rewrite EB. replace (p + 1) with (length l1 + 1) by lia. rewrite firstn_app_2, <- L, firstn_app, Nat.sub_diag, firstn_all. cbn [firstn]. rewrite !ones_app. unfold ones. destruct x; cbn; lia.
Qed.
Lemma on_mono : forall a b, a <= b -> on a <= on b.
Proof. intros a b H. replace b with (a + (b - a)) by lia. generalize (b - a). intros d. rewrite <- (firstn_skipn a (firstn (a + d) bp)), firstn_firstn, Nat.min_l by lia. rewrite ones_app. lia. Qed.
Definition dinv (b : nat) (vals : list nat) : Prop :=
  length vals = length raw /\ (forall r, r < 1 + on b -> nth r vals 0 = nth r raw 0) /\
  forall p, b <= p -> nth_error bp p = Some true -> nth (1 + on p) vals 0 = nth (p / W) raw 0 - nth (1 + on p) raw 0.
Lemma diff_inner_ok : forall c r vals, W * r + c <= length bp -> c <= W -> dinv (W * r + c) vals ->
  exists vals', diff_inner c (W * r + c) r (1 + on (W * r + c)) bp vals = Some (W * r, 1 + on (W * r), vals') /\ dinv (W * r) vals'.
Proof.
  induction c as [|c IH]; intros r vals L CW DI; cbn [diff_inner].
  - rewrite Nat.add_0_r in *. eauto.
  - rewrite (csub_some _ _ (W * r + c)) by lia. cbn [obind]. destruct (nth_error bp (W * r + c)) as [x|] eqn:E; [|apply nth_error_None in E; lia]. cbn [obind]. pose proof (on_S _ _ E) as O. replace (W * r + c + 1) with (W * r + S c) in O by lia. destruct DI as (D1 & D2 & D3). destruct x.
    + destruct (HB _ E) as [H1 H2]. assert (Q : (W * r + c) / W = r). { rewrite Nat.mul_comm, Nat.div_add_l by lia. rewrite (Nat.div_small c) by lia. lia. } rewrite Q in *. rewrite (csub_some _ _ (1 + on (W * r + c))) by lia. cbn [obind].
      rewrite (nth_error_nth' vals 0) by lia. cbn [obind]. rewrite (nth_error_nth' vals 0) by lia. cbn [obind]. rewrite !D2 by lia. rewrite (csub_some _ _ (nth r raw 0 - nth (1 + on (W * r + c)) raw 0)) by lia. cbn [obind]. rewrite aset_some by lia. cbn [obind]. apply IH; [lia|lia|]. split; [rewrite upd_length; auto|]. split.
      * intros r' R. rewrite nth_upd by lia. destruct (Nat.eqb_spec r' (1 + on (W * r + c))); [lia|]. cbn [andb]. apply D2. lia.
      * intros p P EP. rewrite nth_upd by lia. destruct (Nat.eq_dec p (W * r + c)) as [-> |NP].
        { rewrite Nat.eqb_refl. destruct (Nat.ltb_spec (1 + on (W * r + c)) (length vals)); [|lia]. cbn [andb]. rewrite Q. auto. }
        pose proof (on_mono (W * r + S c) p ltac:(lia)). destruct (Nat.eqb_spec (1 + on p) (1 + on (W * r + c))); [lia|]. cbn [andb]. apply D3; auto. lia.
    + rewrite O, Nat.add_0_r. apply IH; [lia|lia|]. rewrite O, Nat.add_0_r in D2. split; auto. split; auto. intros p P EP. destruct (Nat.eq_dec p (W * r + c)) as [-> |NP]; [congruence|]. apply D3; auto. lia.
Qed.
End Diff.
Lemma diff_loop_ok : forall k bp raw, 1 < k -> (forall p, nth_error bp p = Some true -> p / (k * k) < 1 + ones (firstn p bp) < length raw /\ nth (1 + ones (firstn p bp)) raw 0 <= nth (p / (k * k)) raw 0) ->
  forall r fuel vals, k * k * r <= length bp -> r <= fuel -> dinv (k * k) bp raw (k * k * r) vals ->
  exists vals', diff_loop k fuel (k * k * r) r (1 + ones (firstn (k * k * r) bp)) bp vals = Some vals' /\ dinv (k * k) bp raw 0 vals'.
Proof.
  intros k bp raw K HB. assert (WP : 0 < k * k) by nia. induction r as [|r IH]; intros fuel vals L F DI.
  - rewrite Nat.mul_0_r in *. destruct fuel; cbn [diff_loop Nat.eqb]; eauto.
  - destruct fuel as [|fuel]; [lia|]. cbn [diff_loop]. destruct (Nat.eqb_spec (k * k * S r) 0); [nia|]. rewrite (csub_some _ _ r) by lia. cbn [obind]. replace (k * k * S r) with (k * k * r + k * k) in * by lia.
    destruct (diff_inner_ok (k * k) bp raw WP HB (k * k) r vals L ltac:(lia) DI) as (vals' & E & DI'). rewrite E. cbn [obind]. apply IH; auto; lia.
Qed.

Section N.
Variable k : nat.
Hypothesis K : 1 < k.
Variable part : (pt -> bool) -> list pt -> list pt * list pt.
Hypothesis PS : forall f l, Permutation l (fst (part f l) ++ snd (part f l)) /\ (forall e, In e (fst (part f l)) -> f e = true) /\ (forall e, In e (snd (part f l)) -> f e = false).
Variables (t : nat) (v : list pt).
Hypothesis NE : v <> [].
Hypothesis BND : forall e, In e v -> ptx e < k ^ t /\ pty e < k ^ t.
Hypothesis DST : NoDup (map fst v).
Notation Lj := (Lj k part t v). Notation A := (A k part t v). Notation bl := (bl k part t v). Notation vl := (vl k part t v).
Notation kidsof := (kidsof k part). Notation nbits := (nbits k part). Notation cellsof := (cellsof k part).
Notation W := (k * k).
Definition bpF : list bool := flat_map bl (seq 0 t).
Definition raw : list nat := flat_map vl (seq 0 (S t)).
Lemma A_S : forall j, A (S j) = A j + length (Lj j). Proof. reflexivity. Qed.
Lemma A_mono : forall a b, a <= b -> A a <= A b. Proof. intros. apply psum_mono. auto. Qed.
Lemma bls_len : forall j, length (flat_map bl (seq 0 j)) = W * A j.
Proof. induction j as [|j IH]. { cbn. lia. } rewrite flat_snoc, app_length, IH, bl_len, A_S. lia. Qed.
Lemma bls_ones : forall j, ones (flat_map bl (seq 0 j)) + 1 = A (S j).
Proof. induction j as [|j IH]; auto. rewrite flat_snoc, ones_app, bl_ones, (A_S (S j)). lia. Qed.
Lemma vls_len : forall j, length (flat_map vl (seq 0 j)) = A j.
Proof. induction j as [|j IH]; auto. rewrite flat_snoc, app_length, IH, A_S. unfold K2TreapLevels.vl. rewrite map_length. auto. Qed.
Lemma raw_nth : forall j L1 S L2, j <= t -> Lj j = L1 ++ S :: L2 -> nth_error raw (A j + length L1) = Some (ptw (fst (tm S))).
Proof.
  intros j L1 S L2 J E. unfold raw. replace (Datatypes.S t) with (Datatypes.S j + (t - j)) by lia. rewrite seq_app, flat_map_app. assert (length L1 < length (Lj j)) by (rewrite E, app_length; cbn; lia).
  rewrite nth_error_app1 by (rewrite vls_len, A_S; lia). rewrite flat_snoc. rewrite nth_error_app2 by (rewrite vls_len; lia). rewrite vls_len. replace (A j + length L1 - A j) with (length L1) by lia. unfold K2TreapLevels.vl. rewrite E, map_app. rewrite nth_error_app2 by (rewrite map_length; lia). rewrite map_length, Nat.sub_diag. auto.
Qed.
Lemma kids_ones : forall j L, ones (flat_map (nbits (t - j)) L) = length (flat_map (kidsof (t - j)) L).
Proof. intros j L. induction L as [|S L IH]; auto. cbn [flat_map]. rewrite ones_app, app_length, IH. f_equal. apply ones_map. Qed.
Definition preF (j : nat) (L1 : list (list pt)) : list bool := flat_map bl (seq 0 j) ++ flat_map (nbits (t - j)) L1.
Lemma preF_len : forall j L1, length (preF j L1) = W * (A j + length L1).
Proof. intros. unfold preF. rewrite app_length, bls_len. rewrite (fm_len _ W). lia. intros. unfold K2TreapLevels.nbits. rewrite map_length. apply cells_len. Qed.
Lemma preF_ones : forall j L1, ones (preF j L1) + 1 = A (S j) + length (flat_map (kidsof (t - j)) L1).
Proof. intros. unfold preF. rewrite ones_app, kids_ones. pose proof (bls_ones j). lia. Qed.
Lemma place : forall j L1 S L2, j < t -> Lj j = L1 ++ S :: L2 -> exists post, bpF = preF j L1 ++ nbits (t - j) S ++ post.
Proof.
  intros j L1 S L2 J E. unfold bpF, preF. assert (ES : seq 0 t = seq 0 (Datatypes.S j + (t - Datatypes.S j))) by (f_equal; lia). rewrite ES. rewrite seq_app, flat_map_app, flat_snoc. unfold K2TreapLevels.bl at 2. rewrite E, flat_map_app. cbn [flat_map]. rewrite <- !app_assoc. eexists. rewrite <- ?app_assoc. reflexivity.
Qed.
Lemma next_split : forall j L1 S L2, Lj j = L1 ++ S :: L2 -> Lj (Datatypes.S j) = flat_map (kidsof (t - j)) L1 ++ kidsof (t - j) S ++ flat_map (kidsof (t - j)) L2.
Proof. intros. cbn [K2TreapLevels.Lj]. rewrite H, flat_map_app. auto. Qed.
Lemma Lgood : forall j S, j <= t -> In S (Lj j) -> good k (t - j) S.
Proof. intros j S J I. destruct (Lj_good k K part PS t v NE BND DST (k ^ t, 0, 0) eq_refl j J) as [G _]. auto. Qed.
(* every position of bp belongs to a node *)
Lemma pos_node : forall p, p < length bpF -> exists j L1 S L2 it, j < t /\ Lj j = L1 ++ S :: L2 /\ it < W /\ p = W * (A j + length L1) + it.
Proof.
  intros p P. unfold bpF in P. rewrite bls_len in P. assert (WP : W <> 0) by nia. pose proof (Nat.div_mod p W WP) as DM. pose proof (Nat.mod_upper_bound p W WP) as MB. assert (Q : p / W < A t) by (apply Nat.div_lt_upper_bound; auto).
  assert (X : exists j, j < t /\ A j <= p / W < A (S j)). { assert (G : forall n q, q < A n -> exists j, j < n /\ A j <= q < A (S j)); [|apply (G t); auto]. clear. intros n q. induction n as [|n IH]; intros Q; [cbn in Q; lia|]. destruct (Nat.lt_ge_cases q (A n)). { destruct (IH H) as (j & J1 & J2). exists j. lia. } exists n. lia. }
  destruct X as (j & J & R). rewrite A_S in R. destruct (nth_error (Lj j) (p / W - A j)) as [S|] eqn:E. 2: { apply nth_error_None in E. lia. } destruct (nth_error_split _ _ E) as (L1 & L2 & E1 & LL). exists j, L1, S, L2, (p mod W). repeat split; auto. rewrite LL. replace (A j + (p / W - A j)) with (p / W) by lia. auto.
Qed.
Lemma bit_at : forall j L1 S L2 it, j < t -> Lj j = L1 ++ S :: L2 -> it < W -> nth_error bpF (W * (A j + length L1) + it) = option_map nonempty (nth_error (cellsof (t - j) S) it).
Proof.
  intros j L1 S L2 it J E I. destruct (place j L1 S L2 J E) as [post PL]. rewrite PL. rewrite nth_error_app2 by (rewrite preF_len; lia). rewrite preF_len. replace (W * (A j + length L1) + it - W * (A j + length L1)) with it by lia. rewrite nth_error_app1. { unfold K2TreapLevels.nbits. apply nth_error_map. } unfold K2TreapLevels.nbits. rewrite map_length. unfold K2TreapLevels.cellsof. rewrite cells_len. auto.
Qed.
Lemma rank_at : forall j L1 S L2 C1 c C2, j < t -> Lj j = L1 ++ S :: L2 -> cellsof (t - j) S = C1 ++ c :: C2 ->
  1 + ones (firstn (W * (A j + length L1) + length C1) bpF) = A (Datatypes.S j) + length (flat_map (kidsof (t - j)) L1) + length (filter nonempty C1).
Proof.
  intros j L1 S L2 C1 c C2 J E EC. destruct (place j L1 S L2 J E) as [post PL]. rewrite PL. rewrite <- (preF_len j L1). rewrite firstn_app_2, ones_app. unfold K2TreapLevels.nbits. rewrite EC, map_app, <- app_assoc. rewrite <- (map_length nonempty C1) at 1. rewrite firstn_app, Nat.sub_diag, firstn_all. cbn [firstn]. rewrite app_nil_r, ones_map. pose proof (preF_ones j L1). lia.
Qed.
Lemma wmax_kid : forall l S c, good k (Datatypes.S l) S -> In c (kidsof (Datatypes.S l) S) -> ptw (fst (tm c)) <= ptw (fst (tm S)).
Proof.
  intros l S c G C. assert (SN : S <> []) by apply G. pose proof (kid_good k K part PS l S c G C) as GC. assert (CN : c <> []) by apply GC. destruct (tm_ok S SN) as (_ & _ & M). apply plt_w. apply M. eapply (kids_in k K part PS); eauto. destruct (tm_ok c CN) as (_ & P & _). eapply Permutation_in; [apply Permutation_sym; exact P|]. left. auto.
Qed.
(* the child at a bit *)
Lemma child_at : forall j L1 S L2 C1 c C2, j < t -> Lj j = L1 ++ S :: L2 -> cellsof (t - j) S = C1 ++ c :: C2 -> nonempty c = true ->
  exists M2, Lj (Datatypes.S j) = (flat_map (kidsof (t - j)) L1 ++ filter nonempty C1) ++ c :: M2 /\ In c (kidsof (t - j) S).
Proof.
  intros j L1 S L2 C1 c C2 J E EC CN. pose proof (next_split j L1 S L2 E) as NS. assert (KE : kidsof (t - j) S = filter nonempty C1 ++ c :: filter nonempty C2). { unfold K2TreapLevels.kidsof. rewrite EC, filter_app. cbn [filter]. rewrite CN. auto. }
  rewrite KE in NS. rewrite NS. eexists. split. { rewrite <- !app_assoc. cbn [app]. reflexivity. } rewrite KE. apply in_or_app. right. left. auto.
Qed.
Lemma raw_len : length raw = A (S t). Proof. apply vls_len. Qed.
Lemma HBF : forall p, nth_error bpF p = Some true -> p / W < 1 + ones (firstn p bpF) < length raw /\ nth (1 + ones (firstn p bpF)) raw 0 <= nth (p / W) raw 0.
Proof.
  intros p E. assert (PL : p < length bpF) by (apply nth_error_Some; congruence). destruct (pos_node p PL) as (j & L1 & S & L2 & it & J & EL & IT & ->). rewrite (bit_at j L1 S L2 it J EL IT) in E. destruct (nth_error (cellsof (t - j) S) it) as [c|] eqn:EC; [|discriminate]. cbn in E. assert (CN : nonempty c = true) by congruence.
  destruct (nth_error_split _ _ EC) as (C1 & C2 & ECS & LC). subst it. rewrite (rank_at j L1 S L2 C1 c C2 J EL ECS). destruct (child_at j L1 S L2 C1 c C2 J EL ECS CN) as (M2 & EN & IK).
  assert (Q : (W * (A j + length L1) + length C1) / W = A j + length L1). { rewrite Nat.mul_comm, Nat.div_add_l by nia. rewrite (Nat.div_small (length C1)) by lia. lia. } rewrite Q.
  assert (LL : length L1 < length (Lj j)) by (rewrite EL, app_length; cbn; lia). rewrite raw_len. pose proof (A_mono (Datatypes.S (Datatypes.S j)) (Datatypes.S t) ltac:(lia)) as AM. rewrite A_S in AM. rewrite EN, !app_length in AM. cbn [length] in AM. rewrite A_S. rewrite A_S in AM. split; [lia|].
  pose proof (raw_nth (Datatypes.S j) _ _ _ ltac:(lia) EN) as R1. rewrite app_length in R1. rewrite A_S in R1. pose proof (raw_nth j _ _ _ ltac:(lia) EL) as R2.
  replace (A j + length (Lj j) + length (flat_map (kidsof (t - j)) L1) + length (filter nonempty C1)) with (A j + length (Lj j) + (length (flat_map (kidsof (t - j)) L1) + length (filter nonempty C1))) by lia. rewrite (nth_error_nth _ _ 0 R1), (nth_error_nth _ _ 0 R2). replace (t - j) with (Datatypes.S (t - j - 1)) in IK by lia. apply (wmax_kid (t - j - 1)); auto. replace (Datatypes.S (t - j - 1)) with (t - j) by lia. apply Lgood; [lia|]. rewrite EL. apply in_or_app. right. left. auto.
Qed.
Lemma diff_ok : exists D, diff_loop k (length bpF) (length bpF) (A t) (length raw) bpF raw = Some D /\ length D = length raw /\ nth_error D 0 = nth_error raw 0 /\
  forall p, nth_error bpF p = Some true -> nth (1 + ones (firstn p bpF)) D 0 = nth (p / W) raw 0 - nth (1 + ones (firstn p bpF)) raw 0.
Proof.
  assert (LB : length bpF = W * A t) by apply bls_len. destruct (diff_loop_ok k bpF raw K HBF (A t) (length bpF) raw) as (D & E & D1 & D2 & D3).
  - lia.
  - rewrite LB. assert (W1 : 1 <= W) by nia. revert W1. clear. generalize W (A t). intros. nia.
  - split; auto. split; auto. intros p P Q. assert (p < length bpF) by (apply nth_error_Some; congruence). lia.
  - exists D. rewrite <- LB in E at 2. rewrite firstn_all2 in E by lia. rewrite <- LB in E. pose proof (bls_ones t) as BO. fold bpF in BO. rewrite raw_len in *. replace (1 + ones bpF) with (A (S t)) in E by lia. split; auto. split; auto.
    assert (RP : 0 < length raw). { rewrite raw_len. pose proof (A_mono 1 (S t) ltac:(lia)). cbn in H. lia. } rewrite raw_len in RP. split. { rewrite !(nth_error_nth' _ 0) by (rewrite ?D1, ?raw_len; lia). f_equal. apply D2. cbn. lia. } intros p P. apply D3; auto. lia.
Qed.
End N.
