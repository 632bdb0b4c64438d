(** * k2_treap: the root, the children of a node, counting and the iterators *)
From Coq Require Import List Arith Bool Lia NArith Permutation Sorted.
From Verif Require Import Base SpecBits RankSelect AbsVec FnArr WtBase WtProofs K2Treap K2Proofs K2Build K2TreapProofs K2TreapLevels K2TreapNodes.
Import ListNotations.

Lemma pge_trans : forall a b c, plt a b = false -> plt b c = false -> plt a c = false.
Proof. intros a b c H1 H2. apply plt_false in H1. apply plt_false in H2. apply plt_false. destruct H1 as [H1| ->], H2 as [H2|H2]; auto. - left. eapply plt_trans; eauto. - left. rewrite <- H2. auto. Qed.
Lemma plt_asym : forall a b, plt a b = true -> plt b a = false. Proof. intros. apply plt_false. auto. Qed.
Section Q.
Variable k : nat.
Hypothesis K : 1 < k.
Variable part : (pt -> bool) -> list pt -> list pt * list pt.
Hypothesis PS : forall f l, Permutation l (fst (part f l) ++ snd (part f l)) /\ (forall e, In e (fst (part f l)) -> f e = true) /\ (forall e, In e (snd (part f l)) -> f e = false).
Variables (t : nat) (v : list pt).
Hypothesis NE : v <> [].
Hypothesis BND : forall e, In e v -> ptx e < k ^ t /\ pty e < k ^ t.
Hypothesis DST : NoDup (map fst v).
Notation Lj := (Lj k part t v). Notation A := (A k part t v). Notation bpF := (bpF k part t v). Notation raw := (raw k part t v).
Notation kidsof := (kidsof k part). Notation nbits := (nbits k part). Notation cellsof := (cellsof k part).
Notation W := (k * k).
Variable T : treap.
Hypothesis Tt : t_t T = t.
Hypothesis Tb : t_bp T = bpF.
Hypothesis Tc : t_coord T = farr t (fun x => flat_map (cof k (x + 1)) (Lj (t - x - 1))).
Hypothesis Tl : t_lidx T = farr (1 + t) (fun x => A (t - x)).
Hypothesis TmL : length (t_max T) = length raw.
Hypothesis Tm0 : nth_error (t_max T) 0 = nth_error raw 0.
Hypothesis TmD : forall p, nth_error bpF p = Some true -> nth (1 + ones (firstn p bpF)) (t_max T) 0 = nth (p / W) raw 0 - nth (1 + ones (firstn p bpF)) raw 0.
Notation mx S := (fst (tm S)).
Definition rep (j m : nat) (S : list pt) : node :=
  mknode (t - j) (ptx (mx S) / k ^ (t - j) * k ^ (t - j)) (pty (mx S) / k ^ (t - j) * k ^ (t - j)) ((A j + m) * W) (mx S).
Fixpoint reps (j m : nat) (Ls : list (list pt)) : list node := match Ls with [] => [] | S0 :: Ls' => rep j m S0 :: reps j (m + 1) Ls' end.
Notation Lg := (Lgood k K part PS t v NE BND DST).
Lemma mx_in : forall S, S <> [] -> In (mx S) S.
Proof. intros S H. destruct (tm_ok S H) as (_ & P & _). eapply Permutation_in; [apply Permutation_sym; exact P|]. left. auto. Qed.
Lemma kp : forall l, 0 < k ^ l. Proof. intros. clear - K. assert (k ^ l <> 0) by (apply Nat.pow_nonzero; lia). lia. Qed.
Lemma recompose : forall a l, a / k ^ l * k ^ l + a mod k ^ l = a.
Proof. intros. pose proof (kp l). pose proof (Nat.div_mod a (k ^ l)). lia. Qed.

Lemma corner_dig : forall l1 a b d, a / k ^ Datatypes.S l1 = b / k ^ Datatypes.S l1 -> b / k ^ l1 mod k = d -> a / k ^ Datatypes.S l1 * k ^ Datatypes.S l1 + d * k ^ l1 = b / k ^ l1 * k ^ l1.
Proof.
  intros l1 a b d HA HD. rewrite HA. pose proof (kp l1) as P. clear HA. cbn [Nat.pow]. assert (K0 : k <> 0) by (clear - K; lia). assert (P0 : k ^ l1 <> 0) by (clear - P; lia). rewrite (Nat.mul_comm k), <- Nat.div_div by assumption. pose proof (Nat.div_mod (b / k ^ l1) k K0) as DM. rewrite HD in DM. revert DM. generalize (b / k ^ l1 / k) (b / k ^ l1) (k ^ l1). clear. intros. nia.
Qed.
Lemma kids_loop_ok : forall j L1 S L2, j < t -> Lj j = L1 ++ S :: L2 ->
  forall C2 C1, cellsof (t - j) S = C1 ++ C2 ->
  kids_loop k T (rep j (length L1) S) (seq (length C1) (length C2)) (ones (preF k part t v j L1) + length (filter nonempty C1)) =
    Some (reps (Datatypes.S j) (length (flat_map (kidsof (t - j)) L1) + length (filter nonempty C1)) (filter nonempty C2)).
Proof.
  intros j L1 S L2 J E. set (K1 := length (flat_map (kidsof (t - j)) L1)). pose proof (preF_ones k K part PS t v j L1) as PO. fold K1 in PO.
  assert (GS : good k (t - j) S) by (apply Lg; [lia|]; rewrite E; apply in_or_app; right; left; auto). assert (SN : S <> []) by apply GS.
  induction C2 as [|c C2 IH]; intros C1 EC; auto. cbn [length seq kids_loop]. cbn [rep n_idx n_t n_x n_y n_max]. assert (LC : length C1 < W). { pose proof (cells_len k part (t - j) (snd (tm S))) as CL. unfold K2TreapLevels.cellsof in EC. rewrite EC, app_length in CL. cbn [length] in CL. lia. }
  assert (NC : nth_error (cellsof (t - j) S) (length C1) = Some c) by (rewrite EC, nth_error_app2, Nat.sub_diag by lia; auto).
  assert (BA : nth_error (t_bp T) ((A j + length L1) * W + length C1) = Some (nonempty c)). { rewrite Tb. rewrite (Nat.mul_comm _ W). rewrite (bit_at k K part PS t v j L1 S L2 _ J E LC). rewrite NC. auto. } rewrite BA. cbn [obind].
  assert (EC' : cellsof (t - j) S = (C1 ++ [c]) ++ C2) by (rewrite <- app_assoc; exact EC). specialize (IH _ EC'). rewrite filter_app, !app_length in IH. cbn [filter length] in IH. rewrite Nat.add_1_r in IH. cbn [filter]. destruct (nonempty c) eqn:CN.
  2: { cbn [length] in IH. rewrite Nat.add_0_r in IH. exact IH. }
  rewrite (csub_some _ _ (t - Datatypes.S j)) by lia. cbn [obind reps]. cbn [length] in IH. rewrite !Nat.add_assoc in IH. fold K1 in IH. rewrite IH. clear IH. cbn [obind].
  destruct (child_at k part t v j L1 S L2 C1 c C2 J E EC CN) as (M2 & EN & IK).
  assert (NL : nth_error (Lj (Datatypes.S j)) (K1 + length (filter nonempty C1)) = Some c). { rewrite EN. unfold K1. rewrite <- app_length. rewrite nth_error_app2 by apply Nat.le_refl. rewrite Nat.sub_diag. auto. }
  pose proof (rank_at k K part PS t v j L1 S L2 C1 c C2 J E EC) as RA. fold K1 in RA. set (r := ones (preF k part t v j L1) + length (filter nonempty C1) + 1) in *. assert (RE : r = A (Datatypes.S j) + (K1 + length (filter nonempty C1))) by lia.
  assert (RA' : 1 + ones (firstn (W * (A j + length L1) + length C1) bpF) = r) by lia.
  assert (BB : nth_error bpF (W * (A j + length L1) + length C1) = Some true) by (rewrite <- Tb, (Nat.mul_comm W); rewrite BA; auto). pose proof (TmD _ BB) as TD. pose proof (HBF k K part PS t v NE BND DST _ BB) as [HR _]. rewrite RA' in TD, HR.
  assert (Q : (W * (A j + length L1) + length C1) / W = A j + length L1). { clear - LC K. rewrite Nat.mul_comm, Nat.div_add_l by nia. rewrite (Nat.div_small (length C1)) by lia. lia. } rewrite Q in TD.
  pose proof (raw_nth k K part PS t v (Datatypes.S j) _ _ _ ltac:(lia) EN) as R1. rewrite app_length in R1. fold K1 in R1. rewrite <- RE in R1. pose proof (raw_nth k K part PS t v j _ _ _ ltac:(lia) E) as R2. rewrite (nth_error_nth _ _ 0 R1), (nth_error_nth _ _ 0 R2) in TD.
  assert (GS' : good k (Datatypes.S (t - Datatypes.S j)) S) by (replace (Datatypes.S (t - Datatypes.S j)) with (t - j) by lia; auto).
  assert (IK' : In c (kidsof (Datatypes.S (t - Datatypes.S j)) S)) by (replace (Datatypes.S (t - Datatypes.S j)) with (t - j) by lia; auto).
  pose proof (wmax_kid k K part PS (t - Datatypes.S j) S c GS' IK') as WM.
  rewrite (nth_error_nth' _ 0) by lia. cbn [obind]. rewrite TD. rewrite (csub_some _ _ (ptw (mx c))) by lia. cbn [obind].
  pose proof (kid_good k K part PS _ _ _ GS' IK') as GC. assert (CNN : c <> []) by apply GC. pose proof (mx_in c CNN) as MI.
  (* the corner *)
  remember (t - Datatypes.S j) as l1 eqn:LJ. assert (LS : t - j = Datatypes.S l1) by (clear - LJ J; lia). rewrite LS in *.
  destruct (cells_dig' k K part PS l1 S _ c (mx c) NC MI) as [DX DY].
  pose proof (kids_in k K part PS _ _ _ _ SN IK' MI) as MS. pose proof (mx_in S SN) as SM. pose proof (proj1 (proj2 GS) _ _ SM MS) as SC. apply same_iff in SC. destruct SC as [SX SY].
  assert (CX : forall a b d, a / k ^ Datatypes.S l1 = b / k ^ Datatypes.S l1 -> b / k ^ l1 mod k = d -> a / k ^ Datatypes.S l1 * k ^ Datatypes.S l1 + d * k ^ l1 = b / k ^ l1 * k ^ l1).
  { intros a b d. apply corner_dig. }
  rewrite (CX _ _ _ SX DX), (CX _ _ _ SY DY).
  assert (MP : (if 1 <? Datatypes.S l1 then
      let* a := nth_error (t_lidx T) l1 in
      let* c0 := csub r a in
      let* co := nth_error (t_coord T) (Datatypes.S l1 - 2) in
      let* px := nth_error co (2 * c0) in
      let* py := nth_error co (2 * c0 + 1) in
      Some (ptx (mx c) / k ^ l1 * k ^ l1 + px, pty (mx c) / k ^ l1 * k ^ l1 + py)
    else Some (ptx (mx c) / k ^ l1 * k ^ l1, pty (mx c) / k ^ l1 * k ^ l1)) = Some (ptx (mx c), pty (mx c))).
  { destruct (Nat.ltb_spec 1 (Datatypes.S l1)) as [L0|L0].
    2: { replace l1 with 0 by (clear - L0; lia). cbn [Nat.pow]. rewrite !Nat.div_1_r, !Nat.mul_1_r. auto. }
    assert (X : l1 < 1 + t /\ t - l1 = Datatypes.S j /\ Datatypes.S l1 - 2 < t /\ Datatypes.S l1 - 2 + 1 = l1 /\ t - (Datatypes.S l1 - 2) - 1 = Datatypes.S j) by (clear - J LJ L0; lia). destruct X as (X1 & X2 & X3 & X4 & X5).
    rewrite Tl, farr_nth_error by exact X1. cbn [obind]. rewrite X2. rewrite (csub_some _ _ (K1 + length (filter nonempty C1))) by exact RE. cbn [obind]. rewrite Tc, farr_nth_error by exact X3. cbn [obind]. rewrite X4, X5.
    rewrite <- (Nat.add_0_r (2 * (K1 + length (filter nonempty C1)))) at 1. rewrite !(fm_nth (cof k l1) 2 _ _ _ c) by (auto; clear; lia). cbn [K2TreapLevels.cof nth_error obind]. rewrite !recompose. auto. }
  rewrite MP. cbn [obind]. f_equal. f_equal. unfold rep. rewrite <- LJ. rewrite RE. rewrite <- pt_eta. auto.
Qed.

(** ** Nodes and the points below them *)
Definition nj (w : node) : nat := t - n_t w.
Definition nS (w : node) : list pt := nth (n_idx w / W - A (nj w)) (Lj (nj w)) [].
Definition okn (w : node) : Prop := n_t w <= t /\ exists L1 L2, Lj (nj w) = L1 ++ nS w :: L2 /\ w = rep (nj w) (length L1) (nS w).
Lemma rep_okn : forall j L1 S L2, j <= t -> Lj j = L1 ++ S :: L2 -> okn (rep j (length L1) S) /\ nS (rep j (length L1) S) = S /\ nj (rep j (length L1) S) = j.
Proof.
  intros j L1 S L2 J E. assert (NJ : nj (rep j (length L1) S) = j) by (unfold nj; cbn [rep n_t]; clear - J; lia).
  assert (NS : nS (rep j (length L1) S) = S). { unfold nS. rewrite NJ. cbn [rep n_idx]. rewrite Nat.div_mul by (clear - K; nia). replace (A j + length L1 - A j) with (length L1) by (clear; lia). rewrite E, app_nth2 by (clear; lia). rewrite Nat.sub_diag. auto. }
  split; auto. unfold okn. rewrite NJ, NS. split; [cbn [rep n_t]; clear; lia|]. exists L1, L2. auto.
Qed.
Definition kids' (w : node) : list (list pt) := if nj w <? t then kidsof (t - nj w) (nS w) else [].
Lemma okn_good : forall w, okn w -> good k (n_t w) (nS w) /\ nS w <> [] /\ n_max w = mx (nS w) /\ In (n_max w) (nS w).
Proof.
  intros w (L & L1 & L2 & E & R). assert (G : good k (t - nj w) (nS w)). { apply Lg; [unfold nj; clear; lia|]. rewrite E. apply in_or_app. right. left. auto. } unfold nj in G. replace (t - (t - n_t w)) with (n_t w) in G by (clear - L; lia). split; auto. split; [apply G|]. assert (M : n_max w = mx (nS w)) by (rewrite R at 1; auto). split; auto. rewrite M. apply mx_in. apply G.
Qed.
Lemma okn_perm : forall w, okn w -> Permutation (nS w) (n_max w :: concat (kids' w)).
Proof.
  intros w O. destruct (okn_good w O) as (G & N & M & I). rewrite M. unfold kids'. destruct (Nat.ltb_spec (nj w) t) as [H|H]. { apply (kids_perm k K part PS). auto. }
  assert (T0 : n_t w = 0) by (destruct O as [L _]; unfold nj in H; clear - H L; lia). rewrite T0 in G. destruct (tm_ok (nS w) N) as (_ & P & _). cbn [concat]. destruct (snd (tm (nS w))) as [|e r]; auto. exfalso. destruct G as (_ & SC & ND).
  assert (I1 : In (mx (nS w)) (nS w)) by (apply mx_in; auto). assert (I2 : In e (nS w)) by (eapply Permutation_in; [apply Permutation_sym; exact P|]; right; left; auto). pose proof (SC _ _ I1 I2) as S2. apply same_iff in S2. cbn [Nat.pow] in S2. rewrite !Nat.div_1_r in S2.
  apply (Permutation_map fst) in P. pose proof (Permutation_NoDup P ND) as N2. cbn [map] in N2. inversion N2 as [|? ? NI _]. apply NI. left. destruct S2 as [X Y]. unfold ptx, pty in X, Y. destruct (fst e), (fst (mx (nS w))). cbn in X, Y. congruence.
Qed.
Lemma reps_ok : forall j, j <= t -> forall Ls M1 M2, Lj j = M1 ++ Ls ++ M2 -> Forall okn (reps j (length M1) Ls) /\ map nS (reps j (length M1) Ls) = Ls /\ Forall (fun c => nj c = j) (reps j (length M1) Ls).
Proof.
  intros j J. induction Ls as [|S Ls IH]; intros M1 M2 E; cbn [reps map]; auto. destruct (rep_okn j M1 S (Ls ++ M2) J E) as (O & NS & NJ). specialize (IH (M1 ++ [S]) M2). rewrite app_length in IH. cbn [length] in IH. destruct IH as (I1 & I2 & I3). { rewrite E, <- !app_assoc. auto. } split; [constructor; auto|]. split; [rewrite NS, I2; auto|constructor; auto].
Qed.
Lemma tkids_ok : forall w, okn w -> exists cs, tkids k T w = Some cs /\ Forall okn cs /\ map nS cs = kids' w /\ Forall (fun c => n_t c + 1 = n_t w) cs.
Proof.
  intros w O. destruct O as (L & L1 & L2 & E & R). unfold tkids. rewrite Tb. assert (LB : length bpF = W * A t) by (apply (bls_len k K part PS t v)).
  assert (LL : length L1 < length (Lj (nj w))) by (rewrite E, app_length; cbn [length]; clear; lia). assert (IX : n_idx w = W * (A (nj w) + length L1)) by (rewrite R at 1; cbn [rep n_idx]; apply Nat.mul_comm). unfold kids'. destruct (Nat.ltb_spec (nj w) t) as [H|H].
  - assert (LT : A (nj w) + length L1 < A t). { pose proof (A_mono k part t v (S (nj w)) t H) as AM. rewrite A_S in AM. clear - AM LL. lia. }
    destruct (Nat.leb_spec (length bpF) (n_idx w)) as [X|X]. { exfalso. rewrite LB, IX in X. clear - X LT K. assert (0 < W) by nia. nia. }
    assert (PL : exists post, bpF = preF k part t v (nj w) L1 ++ post). { destruct (place k K part PS t v (nj w) L1 (nS w) L2 H E) as [post P]. eauto. } destruct PL as [post PL].
    assert (RK : t_rank bpF (n_idx w) = Some (ones (preF k part t v (nj w) L1))).
    { pose proof (preF_len k K part PS t v (nj w) L1) as PLn. unfold t_rank. destruct (Nat.leb_spec (n_idx w) (length bpF)); [|clear - H0 X; lia]. f_equal. rewrite IX, <- PLn, PL. unfold ones. rewrite rank_cntT by (rewrite app_length; clear; lia). unfold cntT. f_equal. rewrite firstn_app, Nat.sub_diag, firstn_all. cbn [firstn]. rewrite app_nil_r. auto. }
    rewrite RK. cbn [obind]. pose proof (kids_loop_ok (nj w) L1 (nS w) L2 H E (cellsof (t - nj w) (nS w)) [] eq_refl) as KL. cbn [length filter] in KL. rewrite !Nat.add_0_r in KL. unfold K2TreapLevels.cellsof at 1 in KL. rewrite cells_len in KL. rewrite <- R in KL.
    rewrite KL. eexists. split; [reflexivity|]. destruct (reps_ok (S (nj w)) H (kidsof (t - nj w) (nS w)) (flat_map (kidsof (t - nj w)) L1) (flat_map (kidsof (t - nj w)) L2)) as (R1 & R2 & R3). { apply next_split. auto. }
    split; auto. split; auto. eapply Forall_impl; [|apply (Forall_and R1 R3)]. intros c [[C0 _] C1]. unfold nj in C1, H. clear - C0 C1 H L. unfold nj in C1. lia.
  - destruct (Nat.leb_spec (length bpF) (n_idx w)) as [X|X]. { exists []. repeat split; auto. } exfalso. rewrite LB, IX in X. assert (nj w = t) by (unfold nj in *; clear - H; lia). rewrite H0 in X. clear - X K. nia.
Qed.
Lemma troot_ok : 0 < t -> exists r, troot T = Some r /\ okn r /\ nS r = v /\ n_t r = t.
Proof.
  intros T0. unfold troot. rewrite Tt. rewrite (csub_some _ _ (t - 1)) by (clear - T0; lia). cbn [obind]. rewrite Tm0. pose proof (raw_nth k K part PS t v 0 [] v [] (Nat.le_0_l _) eq_refl) as R0. cbn [length] in R0. change (A 0) with 0 in R0. cbn [Nat.add] in R0. rewrite R0. cbn [obind]. rewrite Tc, farr_nth_error by (clear - T0; lia). cbn [obind]. replace (t - (t - 1) - 1) with 0 by (clear - T0; lia). replace (t - 1 + 1) with t by (clear - T0; lia). cbn [K2TreapLevels.Lj flat_map K2TreapLevels.cof app nth_error obind].
  destruct (rep_okn 0 [] v [] (Nat.le_0_l _) eq_refl) as (O & NS & NJ). cbn [length] in *. destruct (BND (mx v) (mx_in v NE)) as [BX BY]. exists (rep 0 0 v). split; [|split; [auto|split; [auto|cbn [rep n_t]; clear; lia]]]. unfold rep. rewrite Nat.sub_0_r. rewrite !Nat.div_small, !Nat.mod_small by auto. rewrite <- pt_eta. auto.
Qed.
(** ** Geometry *)
Lemma okn_box : forall w e, okn w -> In e (nS w) -> n_x w <= ptx e <= n_x w + (k ^ n_t w - 1) /\ n_y w <= pty e <= n_y w + (k ^ n_t w - 1).
Proof.
  intros w e O I. destruct (okn_good w O) as (G & N & M & IM). destruct O as (L & L1 & L2 & E & R). pose proof (proj1 (proj2 G) _ _ IM I) as SC. apply same_iff in SC. rewrite M in SC. assert (TJ : t - nj w = n_t w) by (unfold nj; clear - L; lia). assert (X : n_x w = ptx e / k ^ n_t w * k ^ n_t w) by (rewrite R at 1; cbn [rep n_x]; rewrite TJ; f_equal; apply SC). assert (Y : n_y w = pty e / k ^ n_t w * k ^ n_t w) by (rewrite R at 1; cbn [rep n_y]; rewrite TJ; f_equal; apply SC). rewrite X, Y. pose proof (recompose (ptx e) (n_t w)). pose proof (recompose (pty e) (n_t w)). pose proof (kp (n_t w)) as KP. pose proof (Nat.mod_upper_bound (ptx e) (k ^ n_t w)). pose proof (Nat.mod_upper_bound (pty e) (k ^ n_t w)). clear - H H0 H1 H2 KP. lia.
Qed.
Lemma in_all : forall q w e, okn w -> n_in k q w = true -> In e (nS w) -> p_in q e = true.
Proof. intros q w e O H I. pose proof (okn_box w e O I) as B. unfold n_in in H. unfold p_in. revert B H. clear. generalize (k ^ n_t w - 1). intros. rewrite !andb_true_iff, !Nat.leb_le in *. lia. Qed.
Lemma out_all : forall q w e, okn w -> n_over k q w = false -> In e (nS w) -> p_in q e = false.
Proof. intros q w e O H I. pose proof (okn_box w e O I) as B. destruct (p_in q e) eqn:P; auto. exfalso. rewrite <- not_true_iff_false in H. apply H. unfold n_over. unfold p_in in P. revert B P. clear. generalize (k ^ n_t w - 1). intros. rewrite !andb_true_iff, !Nat.leb_le in *. lia. Qed.
(** ** Counting *)
Definition ino (q : rect) (l : list pt) : nat := length (filter (p_in q) l).
Lemma ino_app : forall q a b, ino q (a ++ b) = ino q a + ino q b. Proof. intros. unfold ino. rewrite filter_app, app_length. auto. Qed.
Lemma filter_perm : forall {X} (f : X -> bool) a b, Permutation a b -> Permutation (filter f a) (filter f b).
Proof. intros X f a b P. induction P; cbn; auto. - destruct (f x); auto. - destruct (f x), (f y); auto. constructor. - eapply perm_trans; eauto. Qed.
Lemma osum_kids : forall (f : node -> option nat) (g : list pt -> nat) cs, (forall a b, g (a ++ b) = g a + g b) -> g [] = 0 -> (forall c, In c cs -> f c = Some (g (nS c))) -> osum f cs = Some (g (concat (map nS cs))).
Proof. intros f g cs GA G0. induction cs as [|c cs IH]; intros H; cbn [osum map concat]. { f_equal. auto. } rewrite (H c) by (left; auto). cbn [obind]. rewrite IH by (intros; apply H; right; auto). cbn [obind]. f_equal. symmetry. apply GA. Qed.
Lemma count_all_ok : forall fuel w, okn w -> n_t w < fuel -> count_all k fuel T w = Some (length (nS w)).
Proof.
  induction fuel as [|f IH]; intros w O F; [clear - F; lia|]. cbn [count_all]. destruct (tkids_ok w O) as (cs & E & OC & MC & NC). rewrite E. cbn [obind]. rewrite (osum_kids _ (@length pt)); [|apply app_length|auto|].
  - cbn [obind]. f_equal. rewrite MC. rewrite (Permutation_length (okn_perm w O)). auto.
  - intros c C. apply IH. { rewrite Forall_forall in OC. auto. } rewrite Forall_forall in NC. pose proof (NC c C). clear - H F. lia.
Qed.
Lemma count_in_ok : forall fuel q w, okn w -> n_t w < fuel -> count_in k fuel T q w = Some (ino q (nS w)).
Proof.
  induction fuel as [|f IH]; intros q w O F; [clear - F; lia|]. cbn [count_in]. destruct (n_in k q w) eqn:EI.
  { change (count_all k (S f) T w = Some (ino q (nS w))). rewrite count_all_ok by auto. f_equal. unfold ino. rewrite filt_true; auto. intros e I. eapply in_all; eauto. }
  destruct (n_over k q w) eqn:EO.
  2: { f_equal. unfold ino. rewrite filter_none; auto. intros e I. eapply out_all; eauto. }
  destruct (tkids_ok w O) as (cs & E & OC & MC & NC). rewrite E. cbn [obind]. rewrite (osum_kids _ (ino q)); [|apply ino_app|auto|].
  - cbn [obind]. f_equal. rewrite MC. unfold ino. rewrite (Permutation_length (filter_perm (p_in q) _ _ (okn_perm w O))). cbn [filter]. destruct (p_in q (n_max w)); cbn [length]; clear; lia.
  - intros c C. apply IH. { rewrite Forall_forall in OC. auto. } rewrite Forall_forall in NC. pose proof (NC c C). clear - H F. lia.
Qed.
(** ** The number of values is the number of points *)
Lemma conc_next : forall j Ls, (forall S, In S Ls -> S <> []) -> length (concat Ls) = length Ls + length (concat (flat_map (kidsof (t - j)) Ls)).
Proof.
  intros j. induction Ls as [|S Ls IH]; intros H; auto. cbn [concat flat_map length]. rewrite concat_app, !app_length. rewrite IH by (intros; apply H; right; auto). rewrite (Permutation_length (kids_perm k K part PS (t - j) S (H S (or_introl eq_refl)))). cbn [length]. clear. lia.
Qed.
Lemma nodes_pts : forall j, j <= t -> A j + length (concat (Lj j)) = length v.
Proof.
  induction j as [|j IH]; intros J. { cbn. rewrite app_nil_r. auto. } rewrite <- IH by (clear - J; lia). rewrite A_S. rewrite (conc_next j (Lj j)). { cbn [K2TreapLevels.Lj]. clear. lia. } intros S I. eapply Lg; [|exact I]. clear - J. lia.
Qed.
Lemma size_pts : tsize T = length v.
Proof.
  unfold tsize. rewrite TmL, (raw_len k part t v). rewrite A_S. rewrite <- (nodes_pts t (Nat.le_refl _)). f_equal. assert (H : forall S, In S (Lj t) -> length S = 1).
  { intros S I. destruct (in_split _ _ I) as (L1 & L2 & E). destruct (rep_okn t L1 S L2 (Nat.le_refl _) E) as (O & NS & NJ). pose proof (Permutation_length (okn_perm _ O)) as P. unfold kids' in P. rewrite NJ, Nat.ltb_irrefl, NS in P. auto. }
  revert H. generalize (Lj t). clear. induction l as [|S l IH]; intros H; auto. cbn [concat length]. rewrite app_length, <- IH by (intros; apply H; right; auto). rewrite (H S) by (left; auto). auto.
Qed.

(** ** The iterators *)
Definition wok (rng : option (nat * nat)) (e : pt) : bool := match rng with None => true | Some (a, b) => (a <=? ptw e) && (ptw e <=? b) end.
Definition okp (q : rect) (rng : option (nat * nat)) (e : pt) : bool := p_in q e && wok rng e.
Definition pts (pq : list (node * bool)) : list pt := flat_map (fun a => nS (fst a)) pq.
Definition rest (q : rect) (rng : option (nat * nat)) (pq : list (node * bool)) : list pt := filter (okp q rng) (pts pq).
(* the state of an iterator *)
Definition okq (q : rect) (rng : option (nat * nat)) (a : node * bool) : Prop := okn (fst a) /\ lo_ok rng (fst a) = true /\ (snd a = true -> forall e, In e (nS (fst a)) -> p_in q e = true).
Definition weight (a : node * bool) : nat := 2 * length (nS (fst a)) - if snd a then 1 else 0.
Fixpoint mu (pq : list (node * bool)) : nat := match pq with [] => 0 | a :: l => weight a + mu l end.
Lemma mu_app : forall a b, mu (a ++ b) = mu a + mu b. Proof. induction a as [|x a IH]; intros; cbn [app mu]; auto. rewrite IH. clear. lia. Qed.
Lemma mu_perm : forall a b, Permutation a b -> mu a = mu b. Proof. intros a b P. induction P; cbn [mu]; lia. Qed.
Lemma pts_perm : forall a b, Permutation a b -> Permutation (pts a) (pts b). Proof. intros. apply Permutation_flat_map. auto. Qed.
Lemma pts_app : forall a b, pts (a ++ b) = pts a ++ pts b. Proof. intros. apply flat_map_app. Qed.
Lemma pq_top_ok : forall l best, Permutation (best :: l) (fst (pq_top best l) :: snd (pq_top best l)) /\ forall x, In x (best :: l) -> plt (n_max (fst (fst (pq_top best l)))) (n_max (fst x)) = false.
Proof.
  clear. induction l as [|a l IH]; intros best; cbn [pq_top]. { cbn. split; auto. intros x [-> | []]. apply plt_refl. }
  destruct (pq_lt best a) eqn:E; cbn [fst snd].
  - destruct (IH a) as [P M]. split. { eapply perm_trans; [|apply perm_swap]. constructor. exact P. } intros x [<- |I]; [|apply M; auto]. assert (MA := M a (or_introl eq_refl)). eapply pge_trans; [exact MA|]. unfold pq_lt in E. apply orb_true_iff in E. destruct E as [E|E]. { apply plt_asym. auto. } apply andb_true_iff in E. destruct E as [E _]. apply andb_true_iff in E. destruct E as [E _]. apply negb_true_iff in E. auto.
  - destruct (IH best) as [P M]. split. { eapply perm_trans; [apply perm_swap|]. eapply perm_trans; [|apply perm_swap]. constructor. exact P. } intros x [<- |[<- |I]]; [apply M; left; auto| |apply M; right; auto]. assert (MA := M best (or_introl eq_refl)). unfold pq_lt in E. apply orb_false_iff in E. destruct E as [E _]. eapply pge_trans; eauto.
Qed.
Lemma top_max : forall q rng pq top l e, Forall (okq q rng) pq -> Permutation pq (top :: l) -> (forall x, In x pq -> plt (n_max (fst top)) (n_max (fst x)) = false) -> In e (pts pq) -> plt (n_max (fst top)) e = false.
Proof.
  intros q rng pq top l e F P M I. apply in_flat_map in I. destruct I as (x & IX & IE). pose proof (M x IX) as MX. rewrite Forall_forall in F. destruct (F x IX) as [O _]. destruct (okn_good _ O) as (G & N & MN & IM). destruct (tm_ok (nS (fst x)) N) as (_ & _ & TM). specialize (TM e IE). rewrite <- MN in TM. eapply pge_trans; eauto.
Qed.
(* the children that are inserted *)
Definition ins (rng : option (nat * nat)) (b : bool) (cs : list node) : list (node * bool) := map (fun c => (c, b)) (filter (lo_ok rng) cs).
Lemma low_none : forall q rng w e, okn w -> lo_ok rng w = false -> In e (nS w) -> okp q rng e = false.
Proof.
  intros q rng w e O L I. unfold okp. destruct (okn_good _ O) as (G & N & MN & IM). destruct (tm_ok (nS w) N) as (_ & _ & TM). specialize (TM e I). rewrite <- MN in TM. apply plt_w in TM. destruct rng as [[a b]|]; cbn in *; [|discriminate]. apply Nat.leb_gt in L. destruct (Nat.leb_spec a (ptw e)) as [H|H]; [exfalso; clear - H L TM; lia|]. cbn [andb]. apply andb_false_r.
Qed.
Lemma ins_pts : forall q rng b cs, Forall okn cs -> filter (okp q rng) (pts (ins rng b cs)) = filter (okp q rng) (concat (map nS cs)).
Proof.
  intros q rng b cs F. unfold ins. induction cs as [|c cs IH]; auto. inversion F; subst. cbn [filter]. cbn [map concat]. rewrite filter_app, <- IH by auto. destruct (lo_ok rng c) eqn:E.
  - cbn [map]. unfold pts. cbn [flat_map fst]. rewrite filter_app. auto.
  - rewrite (filter_none _ (nS c)); auto. intros e I. eapply low_none; eauto.
Qed.
Lemma ins_incl : forall rng b cs e, In e (pts (ins rng b cs)) -> In e (concat (map nS cs)).
Proof. intros rng b cs e I. apply in_flat_map in I. destruct I as ([c b'] & I & E). apply in_map_iff in I. destruct I as (c' & X & I). inversion X; subst. apply filter_In in I. apply in_concat. exists (nS c). split; auto. apply in_map. apply I. Qed.
Lemma ins_mu : forall rng b cs, mu (ins rng b cs) <= 2 * length (concat (map nS cs)).
Proof. intros rng b cs. unfold ins. clear. induction cs as [|c cs IH]; auto. cbn [filter map concat]. rewrite app_length. destruct (lo_ok rng c); cbn [map mu]; unfold weight; cbn [fst snd]; lia. Qed.
Lemma ins_okq : forall q rng b cs, Forall okn cs -> (b = true -> forall e, In e (concat (map nS cs)) -> p_in q e = true) -> Forall (okq q rng) (ins rng b cs).
Proof.
  intros q rng b cs F H. rewrite Forall_forall in *. intros [c b'] I. apply in_map_iff in I. destruct I as (c' & X & I). inversion X; subst. apply filter_In in I. destruct I as [I1 I2]. split; [apply F; auto|]. split; auto. cbn [fst snd]. intros B e E. apply H; auto. apply in_concat. exists (nS c). split; auto. apply in_map. auto.
Qed.
(* expanding a node *)
Lemma expand : forall q rng w l b cs, okn w -> Forall (okq q rng) l -> Forall okn cs -> map nS cs = kids' w -> (b = true -> forall e, In e (nS w) -> p_in q e = true) ->
  Forall (okq q rng) (l ++ ins rng b cs) /\ Permutation (filter (okp q rng) (nS w ++ pts l)) ((if okp q rng (n_max w) then [n_max w] else []) ++ rest q rng (l ++ ins rng b cs)) /\
  (forall e, In e (pts (l ++ ins rng b cs)) -> In e (nS w ++ pts l)) /\ mu (l ++ ins rng b cs) + 2 <= 2 * length (nS w) + mu l.
Proof.
  intros q rng w l b cs O FL OC MC HB. pose proof (okn_perm w O) as P. rewrite <- MC in P. split; [|split; [|split]].
  - apply Forall_app. split; auto. apply ins_okq; auto. intros B e I. apply HB; auto. eapply Permutation_in; [apply Permutation_sym; exact P|]. right. auto.
  - unfold rest. rewrite pts_app, !filter_app, ins_pts by auto. apply (filter_perm (okp q rng)) in P. cbn [filter] in P. set (F := filter (okp q rng)) in *. destruct (okp q rng (n_max w)); cbn [app].
    + eapply perm_trans; [apply Permutation_app_tail; exact P|]. cbn [app]. constructor. apply Permutation_app_comm.
    + eapply perm_trans; [apply Permutation_app_tail; exact P|]. apply Permutation_app_comm.
  - intros e I. rewrite pts_app in I. apply in_app_or in I. apply in_or_app. destruct I as [I|I]; auto. left. apply ins_incl in I. eapply Permutation_in; [apply Permutation_sym; exact P|]. right. auto.
  - rewrite mu_app. pose proof (ins_mu rng b cs) as IM. apply Permutation_length in P. cbn [length] in P. clear - IM P. lia.
Qed.
Definition next_spec (q : rect) (rng : option (nat * nat)) (pq : list (node * bool)) (r : option (pt * list (node * bool))) : Prop :=
  match r with
  | None => rest q rng pq = []
  | Some (p, pq') => Forall (okq q rng) pq' /\ Permutation (rest q rng pq) (p :: rest q rng pq') /\ (forall e, In e (rest q rng pq) -> plt p e = false) /\ mu pq' < mu pq
  end.
Lemma next_spec_perm : forall q rng pq pq2 r, Permutation (rest q rng pq) (rest q rng pq2) -> mu pq2 <= mu pq -> next_spec q rng pq2 r -> next_spec q rng pq r.
Proof.
  intros q rng pq pq2 [[p pq']|] P M H; cbn in *.
  - destruct H as (H1 & H2 & H3 & H4). split; auto. split; [eapply perm_trans; eauto|]. split; [|clear - H4 M; lia]. intros e I. apply H3. eapply Permutation_in; eauto.
  - rewrite H in P. apply Permutation_sym, Permutation_nil in P. auto.
Qed.
Lemma it_next_ok : forall fuel q rng pq, Forall (okq q rng) pq -> mu pq < fuel -> exists r, it_next k fuel T q rng pq = Some r /\ next_spec q rng pq r.
Proof.
  induction fuel as [|f IH]; intros q rng pq F M; [clear - M; lia|]. cbn [it_next]. destruct pq as [|a pq]. { eexists. split; [reflexivity|]. cbn. auto. }
  destruct (pq_top_ok pq a) as [P TM]. destruct (pq_top a pq) as [[w c] l] eqn:EP. cbn [fst snd] in P, TM.
  assert (F' := F). assert (FP : Forall (okq q rng) ((w, c) :: l)). { rewrite Forall_forall in *. intros x I. apply F. eapply Permutation_in; [apply Permutation_sym; exact P|]. auto. } inversion FP as [|? ? [O [LO CI]] FL]; subst. cbn [fst snd] in *.
  assert (TMX : forall e, In e (pts (a :: pq)) -> plt (n_max w) e = false) by (intros e I; exact (top_max q rng (a :: pq) (w, c) l e F' P TM I)).
  pose proof (mu_perm _ _ P) as MP. cbn [mu] in MP. unfold weight in MP at 2. cbn [fst snd] in MP.
  assert (PP : Permutation (rest q rng (a :: pq)) (filter (okp q rng) (nS w ++ pts l))). { unfold rest. apply filter_perm. apply (pts_perm _ _ P). }
  destruct (okn_good _ O) as (G & N & MN & IM). assert (LP : 1 <= length (nS w)) by (destruct (nS w); [congruence|cbn; clear; lia]).
  destruct (tkids_ok w O) as (cs & EC & OC & MC & _).
  assert (WK : p_in q (n_max w) = true -> okp q rng (n_max w) = hi_ok rng w). { intros PI. unfold okp. rewrite PI. cbn [andb]. destruct rng as [[x y]|]; cbn in *; auto. rewrite LO. auto. }
  destruct c; [|destruct (n_in k q w) eqn:EI; [|destruct (n_over k q w) eqn:EO]].
  - rewrite EC. cbn [obind]. fold (ins rng true cs). destruct (expand q rng w l true cs O FL OC MC CI) as (X1 & X2 & X3 & X4). rewrite WK in X2 by (apply CI; auto). destruct (hi_ok rng w) eqn:EH.
    + eexists. split; [reflexivity|]. cbn [next_spec]. split; auto. split; [eapply perm_trans; [exact PP|exact X2]|]. split. { intros e I. apply TMX. unfold rest in I. apply filter_In in I. apply I. } clear - X4 MP LP. cbn [mu]. lia.
    + destruct (IH q rng _ X1 ltac:(clear - X4 MP LP M; cbn [mu] in M; lia)) as (r & E & NSp). rewrite E. eexists. split; [reflexivity|]. eapply next_spec_perm; [eapply perm_trans; [exact PP|exact X2]| |exact NSp]. clear - X4 MP LP. cbn [mu]. lia.
  - assert (FQ : Forall (okq q rng) (l ++ [(w, true)])). { apply Forall_app. split; auto. constructor; auto. split; auto. split; auto. intros _ e I. eapply in_all; eauto. }
    assert (MQ : mu (l ++ [(w, true)]) < mu (a :: pq)). { rewrite mu_app. cbn [mu]. unfold weight at 1. cbn [fst snd]. clear - MP LP. lia. }
    destruct (IH q rng _ FQ ltac:(clear - MQ M; lia)) as (r & E & NSp). rewrite E. eexists. split; [reflexivity|]. eapply next_spec_perm; [| |exact NSp]. { eapply perm_trans; [exact PP|]. unfold rest. apply filter_perm. rewrite pts_app. unfold pts at 3. cbn [flat_map fst]. rewrite app_nil_r. apply Permutation_app_comm. } clear - MQ. lia.
  - rewrite EC. cbn [obind]. fold (ins rng false cs). destruct (expand q rng w l false cs O FL OC MC ltac:(discriminate)) as (X1 & X2 & X3 & X4). assert (OE : okp q rng (n_max w) = p_in q (n_max w) && hi_ok rng w). { destruct (p_in q (n_max w)) eqn:PI; [rewrite WK by auto; auto|]. unfold okp. rewrite PI. auto. } rewrite OE in X2. destruct (p_in q (n_max w) && hi_ok rng w) eqn:EH.
    + eexists. split; [reflexivity|]. cbn [next_spec]. split; auto. split; [eapply perm_trans; [exact PP|exact X2]|]. split. { intros e I. apply TMX. unfold rest in I. apply filter_In in I. apply I. } clear - X4 MP LP. cbn [mu]. lia.
    + destruct (IH q rng _ X1 ltac:(clear - X4 MP LP M; cbn [mu] in M; lia)) as (r & E & NSp). rewrite E. eexists. split; [reflexivity|]. eapply next_spec_perm; [eapply perm_trans; [exact PP|exact X2]| |exact NSp]. clear - X4 MP LP. cbn [mu]. lia.
  - destruct (IH q rng _ FL ltac:(clear - MP LP M; cbn [mu] in M; lia)) as (r & E & NSp). rewrite E. eexists. split; [reflexivity|]. eapply next_spec_perm; [| |exact NSp]. { eapply perm_trans; [exact PP|]. rewrite filter_app. rewrite (filter_none _ (nS w)); [apply Permutation_refl|]. intros e I. unfold okp. rewrite (out_all q w e O EO I). auto. } clear - MP LP. cbn [mu]. lia.
Qed.
Definition sorted_out (l : list pt) : Prop := StronglySorted (fun a b => plt a b = false) l.
Lemma it_all_ok : forall fuel q rng pq, Forall (okq q rng) pq -> mu pq <= 2 * tsize T -> length (rest q rng pq) < fuel ->
  exists r, it_all k fuel T q rng pq = Some r /\ Permutation (rest q rng pq) r /\ sorted_out r.
Proof.
  induction fuel as [|f IH]; intros q rng pq F M L; [clear - L; lia|]. cbn [it_all]. destruct (it_next_ok (S (2 * tsize T)) q rng pq F ltac:(clear - M; lia)) as (r & E & NSp). rewrite E. cbn [obind]. destruct r as [[p pq']|]; cbn [next_spec] in NSp.
  - destruct NSp as (F1 & P1 & MX & M1). pose proof (Permutation_length P1) as PL. cbn [length] in PL. destruct (IH q rng pq' F1 ltac:(clear - M M1; lia) ltac:(clear - PL L; lia)) as (r & E1 & P2 & S2). rewrite E1. cbn [obind]. eexists. split; [reflexivity|]. split. { eapply perm_trans; [exact P1|]. constructor. auto. } constructor; auto. rewrite Forall_forall. intros e I. apply MX. eapply Permutation_in; [apply Permutation_sym; exact P1|]. right. eapply Permutation_in; [apply Permutation_sym; exact P2|]. auto.
  - eexists. split; [reflexivity|]. rewrite NSp. split; [constructor|constructor].
Qed.
Lemma filter_le : forall {X} (f : X -> bool) l, length (filter f l) <= length l.
Proof. intros X f l. clear. induction l as [|a l IH]; cbn; auto. destruct (f a); cbn; lia. Qed.
Lemma it_start_ok : forall q rng, 0 < t -> exists r, it_start k T q rng = Some r /\ Permutation (filter (okp q rng) v) r /\ sorted_out r.
Proof.
  intros q rng T0. unfold it_start. rewrite size_pts. destruct (Nat.ltb_spec 0 (length v)) as [H|H]. 2: { exfalso. apply NE. destruct v; auto. cbn in H. clear - H. lia. }
  destruct (troot_ok T0) as (r & E & O & NV & _). rewrite E. cbn [obind]. destruct (lo_ok rng r) eqn:LO.
  - destruct (it_all_ok (S (length v)) q rng [(r, false)]) as (res & E2 & P & SO).
    + constructor; auto. split; auto. split; auto. discriminate.
    + rewrite size_pts. cbn [mu]. unfold weight. cbn [fst snd]. rewrite NV. clear. lia.
    + unfold rest, pts. cbn [flat_map fst]. rewrite app_nil_r, NV. pose proof (filter_le (okp q rng) v) as FL. clear - FL. lia.
    + rewrite E2. eexists. split; [reflexivity|]. split; auto. unfold rest, pts in P. cbn [flat_map fst] in P. rewrite app_nil_r, NV in P. auto.
  - exists []. split; [auto|]. split; [|constructor]. rewrite <- NV. rewrite filter_none; auto. intros e I. eapply low_none; eauto.
Qed.
Lemma tcount_ok : forall q, 0 < t -> tcount k T q = Some (length (filter (p_in q) v)).
Proof.
  intros q T0. unfold tcount. rewrite size_pts. destruct (Nat.ltb_spec 0 (length v)) as [H|H]. 2: { exfalso. apply NE. destruct v; auto. cbn in H. clear - H. lia. }
  destruct (troot_ok T0) as (r & E & O & NV & NT). rewrite E. cbn [obind]. rewrite (count_in_ok _ q r O). { rewrite NV. auto. } rewrite NT, Tt. clear. lia.
Qed.
End Q.
