(** * The node interface of wt_int and wm_int; quantile_freq, interval_symbols, symbol_lte, symbol_gte *)
From Coq Require Import NArith ZArith List Lia Bool Arith Permutation Sorted.
From Verif Require Import Base Bits SpecBits RankSelect AbsVec WtBase SpecWt SpecWtAlg WtProofs WtInt WtIntProofs WtIntProofs2 WmInt WmIntProofs WtAlg.
Import ListNotations.

Definition p_ok (p : ptree) (S : list N) : Prop := match p with PInt w => wt_holds w S | PMat w => wm_holds w S end.
Definition p_at (p : ptree) (d : nat) (v : nd) (T : list N) : Prop :=
  match p with PInt w => wt_at (wt_tree w) (wt_n w) d (nd_off v) T | PMat w => wm_at w d (nd_level v) (nd_off v) T end.
(* v is a node of height d that holds the sequence T *)
Definition nrep (p : ptree) (d : nat) (v : nd) (T : list N) : Prop :=
  nd_level v + d = p_L p /\ nd_size v = length T /\ Forall (fun y => shr y d = nd_sym v) T /\ Forall is_word T /\
  p_at p d v T /\ (nd_level v = 0 \/ 0 < nd_off v).

Lemma child_rep : forall p d v T (b : bool) o, nrep p (S d) v T -> 0 < o ->
  p_at p d (mknd o (length (filter (fb b d) T)) (nd_level v + 1) (if b then N.lor (shl (nd_sym v) 1) 1 else shl (nd_sym v) 1)) (filter (fb b d) T) ->
  nrep p d (mknd o (length (filter (fb b d) T)) (nd_level v + 1) (if b then N.lor (shl (nd_sym v) 1) 1 else shl (nd_sym v) 1)) (filter (fb b d) T).
Proof.
  intros p d v T b o (H1 & H2 & H3 & H4 & H5 & H6) Ho HA. unfold nrep. cbn [nd_level nd_size nd_sym nd_off].
  split; [lia|]. split; [auto|]. split.
  - rewrite Forall_forall in *. intros y Hy. apply filter_In in Hy. destruct Hy as [Hy F]. unfold fb in F. apply eqb_prop in F.
    rewrite <- (H3 y Hy). destruct b; symmetry. apply prefix1; auto. apply prefix0; auto.
  - split. { rewrite Forall_forall in *. intros y Hy. apply filter_In in Hy. apply H4. tauto. } split; [exact HA|auto].
Qed.

Section A.
Variable p : ptree. Variable S0 : list N.
Hypothesis HP : p_ok p S0.
Hypothesis HNE : S0 <> [].
Notation L := (p_L p).

Lemma L_range : 1 <= L <= 64.
Proof. unfold p_L, p_w. destruct p; [destruct HP as (_ & _ & _ & A)|destruct HP as (_ & _ & _ & A & _); unfold wm_L in A]; lia. Qed.
Lemma n_len : p_n p = length S0.
Proof. unfold p_n, p_w. destruct p; destruct HP as (A & _); auto. Qed.
Lemma S_small : Forall (fun x => (x < 2 ^ N.of_nat L)%N) S0.
Proof. unfold p_L, p_w. destruct p; destruct HP as (_ & _ & A & _); auto. Qed.
Lemma S_word : Forall is_word S0.
Proof.
  pose proof S_small as F. pose proof L_range. rewrite Forall_forall in *. intros x Hx. specialize (F x Hx). unfold is_word. rewrite W64_pow.
  eapply N.lt_le_trans; [exact F|]. apply N.pow_le_mono_r; lia.
Qed.
Lemma len_pos : 0 < length S0. Proof. destruct S0; [congruence|simpl; lia]. Qed.
Lemma root_rep : nrep p L (p_root p) S0.
Proof.
  split; [reflexivity|]. split; [apply n_len|]. split.
  - rewrite Forall_forall. intros y Hy. pose proof S_small as F. rewrite Forall_forall in F. apply shr_small. auto.
  - split; [apply S_word|]. split; [|left; auto]. unfold p_L, p_w, p_at. destruct p; destruct HP as (_ & A & _); exact A.
Qed.
Lemma expand_ok : forall d v T, nrep p (S d) v T -> exists v0 v1, p_expand p v = Some (v0, v1) /\
  nrep p d v0 (filter (fb false d) T) /\ nrep p d v1 (filter (fb true d) T) /\
  nd_sym v0 = shl (nd_sym v) 1 /\ nd_sym v1 = N.lor (shl (nd_sym v) 1) 1.
Proof.
  intros d v T R. pose proof R as (H1 & H2 & H3 & H4 & H5 & H6). pose proof len_pos as LP. pose proof n_len as NL.
  unfold p_expand. unfold p_at in H5. unfold p_n, p_w, p_L in *. destruct p as [w|w].
  - pose proof (fun b => child_at w d (nd_off v) T b H5) as CH. unfold wt_expand. cbn [wt_at] in H5. destruct H5 as (B & E & _ & _).
    rewrite (rk0 _ _ T B). rewrite H2. cbn [obind]. rewrite (rkE _ _ T d B E). cbn [obind]. rewrite csub_add. cbn [obind]. rewrite csub_len. cbn [obind].
    eexists. eexists. split; [reflexivity|]. split; [|split; [|split; reflexivity]].
    + apply (child_rep _ d v T false _ R). lia. cbn [p_at nd_off]. apply (CH false).
    + apply (child_rep _ d v T true _ R). lia. cbn [p_at nd_off]. specialize (CH true). cbn iota in CH.
      replace (nd_off v + wt_n w + length (filter (fb false d) T)) with (nd_off v + length (filter (fb false d) T) + wt_n w) by lia. exact CH.
  - pose proof (fun b => kid_at w d (nd_level v) (nd_off v) T b H5) as CH. unfold wm_expand. cbn [p_w] in *.
    rewrite H2, (ones_some w S0 HP d (nd_level v) (nd_off v) T (length T)); auto; [|unfold wm_L; lia]. cbn [obind].
    assert (K : nd_level v * wm_n w <= nd_off v) by (cbn [wm_at] in H5; tauto).
    rewrite !(child_some w S0 HP); auto; try (unfold wm_L; lia). cbn [obind]. rewrite cnt_all, csub_len by auto. cbn [obind].
    eexists. eexists. split; [reflexivity|]. unfold wm_n in *. split; [|split; [|split; reflexivity]].
    + apply (child_rep _ d v T false _ R). { unfold kid, wm_n. nia. } cbn [p_at nd_off nd_level]. apply (CH false).
    + apply (child_rep _ d v T true _ R). { unfold kid, wm_n. nia. } cbn [p_at nd_off nd_level]. apply (CH true).
Qed.
Lemma node_bits_p : forall d v T, nrep p (S d) v T -> nd_off v + length T <= length (p_tree p) /\
  forall q, q < length T -> t_bit (p_tree p) (nd_off v + q) = tb (nth q T 0%N) d.
Proof.
  intros d v T (H1 & H2 & H3 & H4 & H5 & H6). unfold p_tree, p_w, p_at in *. destruct p; cbn [wt_at wm_at] in H5.
  - destruct H5 as (A & B & _). auto.
  - destruct H5 as (_ & A & B & _). auto.
Qed.
Lemma expand_r_ok : forall d v T s e, nrep p (S d) v T -> s <= e -> e <= length T ->
  p_expand_r p v (s, e) = Some ((cnt (fb false d) T s, cnt (fb false d) T e), (cnt (fb true d) T s, cnt (fb true d) T e)).
Proof.
  intros d v T s e R Hs He. destruct (node_bits_p d v T R) as [B E]. unfold p_expand_r. cbn [fst snd].
  rewrite (rk0 _ _ T B). cbn [obind]. rewrite (rk _ _ T d s B E) by lia. cbn [obind]. rewrite (rk _ _ T d e B E) by lia. cbn [obind].
  pose proof (cnt_mono (fb true d) T s e Hs) as M1. pose proof (cnt_mono (fb false d) T s e Hs) as M0.
  pose proof (cnt_fb d T s ltac:(lia)) as F1. pose proof (cnt_fb d T e He) as F2.
  pose proof (cnt_le (fb true d) T s) as L1. pose proof (cnt_le (fb true d) T e) as L2.
  rewrite (csub_some _ _ (cnt (fb true d) T e - cnt (fb true d) T s)) by lia. cbn [obind].
  rewrite (csub_some _ _ (e - s)) by lia. cbn [obind].
  rewrite (csub_some _ _ (cnt (fb false d) T e - cnt (fb false d) T s)) by lia. cbn [obind].
  rewrite csub_add. cbn [obind]. rewrite csub_cnt by lia. cbn [obind]. repeat f_equal; lia.
Qed.
Lemma leaf_t : forall v T, nrep p 0 v T -> p_leaf p v = true /\ forall y, In y T -> y = nd_sym v.
Proof.
  intros v T (H1 & H2 & H3 & _). unfold p_leaf. split. apply Nat.eqb_eq. lia. intros. rewrite Forall_forall in H3. rewrite <- (H3 y H). now rewrite shr_0.
Qed.
Lemma leaf_f : forall d v T, nrep p (S d) v T -> p_leaf p v = false.
Proof. intros d v T (H1 & _). unfold p_leaf. apply Nat.eqb_neq. lia. Qed.

(** ** quantile_freq *)
Lemma sm_split : forall d x l, Forall (fun y => shr y (S d) = shr x (S d)) l ->
  smaller x l = (if tb x d then length (filter (fb false d) l) else 0) + smaller x (filter (fb (tb x d) d) l).
Proof.
  unfold smaller. induction l as [|y l]; intros H; [destruct (tb x d); auto|]. inversion H; subst. specialize (IHl H3). simpl.
  destruct (tb x d) eqn:Ex; rewrite ?fb_true, ?fb_false in *; destruct (tb y d) eqn:Ey; simpl.
  - destruct (y <? x)%N; simpl; lia.
  - assert (y < x)%N by (eapply bit_lt; eauto). destruct (N.ltb_spec y x); [|lia]. simpl. lia.
  - assert (x < y)%N by (eapply bit_lt; eauto). destruct (N.ltb_spec y x); [lia|]. auto.
  - destruct (y <? x)%N; simpl; lia.
Qed.
Lemma count_split : forall d x l, count x l = count x (filter (fb (tb x d) d) l).
Proof.
  unfold count. induction l as [|y l]; auto. cbn [filter]. destruct (N.eqb_spec x y).
  - subst. rewrite fb_self. cbn [filter]. rewrite N.eqb_refl. simpl. auto.
  - destruct (fb (tb x d) d y); auto. cbn [filter]. destruct (N.eqb_spec x y); [congruence|auto].
Qed.
Lemma count_const : forall x l, (forall y, In y l -> y = x) -> count x l = length l /\ smaller x l = 0.
Proof.
  unfold count, smaller. induction l as [|y l]; intros H; auto. destruct IHl as [A B]. { intros. apply H. right. auto. }
  rewrite (H y) by (left; auto). cbn [filter]. rewrite N.eqb_refl, N.ltb_irrefl. simpl. auto.
Qed.
Lemma split_slice : forall d T s e, s <= e -> e <= length T -> forall b : bool,
  slice (filter (fb b d) T) (cnt (fb b d) T s) (cnt (fb b d) T e) = filter (fb b d) (slice T s e) /\
  cnt (fb b d) T e - cnt (fb b d) T s = length (filter (fb b d) (slice T s e)) /\
  cnt (fb b d) T s <= cnt (fb b d) T e /\ cnt (fb b d) T e <= length (filter (fb b d) T).
Proof.
  intros. pose proof (cnt_mono (fb b d) T s e H). pose proof (cnt_le_all (fb b d) T e). rewrite <- slice_child by auto.
  rewrite slice_len by auto. auto.
Qed.
Lemma fsl : forall d (l : list N), length (filter (fb false d) l) + length (filter (fb true d) l) = length l.
Proof. intros. rewrite <- (len_fb d). pose proof (filter_le _ (fb true d) l). lia. Qed.

Lemma qf_ok : forall d v T s e q f, nrep p d v T -> s <= e -> e <= length T -> q < e - s -> d < f ->
  exists x, qf_loop f p v (s, e) q = Some (x, count x (slice T s e)) /\ In x (slice T s e) /\
    smaller x (slice T s e) <= q < smaller x (slice T s e) + count x (slice T s e).
Proof.
  induction d; intros v T s e q f R Hs He Hq Hf; (destruct f as [|f]; [lia|]); cbn [qf_loop].
  - destruct (leaf_t v T R) as [-> HE]. exists (nd_sym v).
    assert (HE' : forall y, In y (slice T s e) -> y = nd_sym v) by (intros; apply HE; eapply In_slice; eauto).
    destruct (count_const _ _ HE') as [C1 C2]. rewrite C1, C2, slice_len by auto. split; [reflexivity|]. split; [|lia].
    pose proof (slice_len T s e Hs He) as SL. destruct (slice T s e) as [|y l]; [simpl in SL; lia|]. left. apply HE'. left. auto.
  - rewrite (leaf_f d v T R). destruct (expand_ok d v T R) as (v0 & v1 & -> & R0 & R1 & _). cbn [obind].
    rewrite (expand_r_ok d v T s e R Hs He). cbn [obind fst snd]. unfold rsize. cbn [fst snd].
    destruct (split_slice d T s e Hs He false) as (A1 & A2 & A3 & A4). destruct (split_slice d T s e Hs He true) as (B1 & B2 & B3 & B4).
    pose proof (fsl d (slice T s e)) as FS. rewrite slice_len in FS by auto.
    assert (PX : forall x, In x (slice T s e) -> Forall (fun y => shr y (S d) = shr x (S d)) (slice T s e)).
    { destruct R as (_ & _ & R3 & _). rewrite Forall_forall in R3. intros x Hx. rewrite Forall_forall. intros y Hy.
      rewrite (R3 y), (R3 x); auto; eapply In_slice; eauto. }
    destruct (Nat.leb_spec (cnt (fb false d) T e - cnt (fb false d) T s) q) as [Z|Z].
    + destruct (IHd v1 (filter (fb true d) T) _ _ (q - (cnt (fb false d) T e - cnt (fb false d) T s)) f R1 B3 B4 ltac:(lia) ltac:(lia)) as (x & E1 & E2 & E3).
      rewrite B1 in *. apply filter_In in E2. destruct E2 as [E2 Fx]. rewrite fb_true in Fx.
      exists x. rewrite (sm_split d x (slice T s e)), (count_split d x (slice T s e)) by auto. rewrite Fx, E1. split; [reflexivity|]. split; [auto|]. lia.
    + destruct (IHd v0 (filter (fb false d) T) _ _ q f R0 A3 A4 ltac:(lia) ltac:(lia)) as (x & E1 & E2 & E3).
      rewrite A1 in *. apply filter_In in E2. destruct E2 as [E2 Fx]. rewrite fb_false in Fx. apply negb_true_iff in Fx.
      exists x. rewrite (sm_split d x (slice T s e)), (count_split d x (slice T s e)) by auto. rewrite Fx, E1. split; [reflexivity|]. split; [auto|]. lia.
Qed.
Theorem quantile_freq_ok : forall lb rb q, lb <= rb -> rb < length S0 -> q <= rb - lb ->
  exists x, quantile_freq p lb rb q = Some (x, count x (slice S0 lb (rb + 1))) /\ In x (slice S0 lb (rb + 1)) /\
    smaller x (slice S0 lb (rb + 1)) <= q < smaller x (slice S0 lb (rb + 1)) + count x (slice S0 lb (rb + 1)).
Proof. intros. unfold quantile_freq. apply (qf_ok L); try lia. apply root_rep. Qed.

(** ** interval_symbols *)
Lemma ais_ok : forall d v T s e f acc, nrep p d v T -> s < e -> e <= length T -> d < f ->
  exists r, ais_rec f p (s, e) v acc = Some (acc ++ r) /\ isym_spec T s e r.
Proof.
  induction d; intros v T s e f acc R Hs He Hf; (destruct f as [|f]; [lia|]); cbn [ais_rec].
  - destruct (leaf_t v T R) as [-> A]. eexists. split; [reflexivity|]. cbn [fst snd].
    assert (In (nd_sym v) (slice T s e)).
    { pose proof (slice_len T s e ltac:(lia) He) as SL. destruct (slice T s e) as [|a l] eqn:SE; [simpl in SL; lia|].
      left. apply A. eapply (In_slice T s e). rewrite SE. left. auto. }
    split. { repeat constructor. }
    intros. split.
    + intros [X|[]]. inversion X; subst. rewrite !occ_const; auto. lia.
    + intros (X1 & X2 & X3). apply In_slice in X1. rewrite (A _ X1) in *. left. rewrite !occ_const in * by (auto; lia). congruence.
  - rewrite (leaf_f d v T R). destruct (expand_ok d v T R) as (v0 & v1 & -> & R0 & R1 & _). cbn [obind].
    rewrite (expand_r_ok d v T s e R) by lia. cbn [obind fst snd]. unfold rempty. cbn [fst snd].
    destruct (split_slice d T s e ltac:(lia) He false) as (A1 & A2 & A3 & A4). destruct (split_slice d T s e ltac:(lia) He true) as (B1 & B2 & B3 & B4).
    assert (EMP : forall b, cnt (fb b d) T s = cnt (fb b d) T e -> slice (filter (fb b d) T) (cnt (fb b d) T s) (cnt (fb b d) T e) = []).
    { intros b Z. unfold slice. rewrite Z, Nat.sub_diag. reflexivity. }
    assert (X0 : exists r0, (if cnt (fb false d) T s =? cnt (fb false d) T e then Some acc
        else ais_rec f p (cnt (fb false d) T s, cnt (fb false d) T e) v0 acc) = Some (acc ++ r0) /\
        (slice (filter (fb false d) T) (cnt (fb false d) T s) (cnt (fb false d) T e) = [] /\ r0 = [] \/
         isym_spec (filter (fb false d) T) (cnt (fb false d) T s) (cnt (fb false d) T e) r0)).
    { destruct (Nat.eqb_spec (cnt (fb false d) T s) (cnt (fb false d) T e)) as [Z|Z].
      - exists []. rewrite app_nil_r. auto.
      - destruct (IHd v0 (filter (fb false d) T) (cnt (fb false d) T s) (cnt (fb false d) T e) f acc R0 ltac:(lia) A4 ltac:(lia)) as (r & E1 & E2).
        exists r. auto. }
    destruct X0 as (r0 & -> & K0). cbn [obind]. destruct R as (_ & _ & R3 & _).
    destruct (Nat.eqb_spec (cnt (fb true d) T s) (cnt (fb true d) T e)) as [Z|Z].
    + exists (r0 ++ []). split. { now rewrite app_nil_r. } eapply isym_join; eauto. lia.
    + destruct (IHd v1 (filter (fb true d) T) (cnt (fb true d) T s) (cnt (fb true d) T e) f (acc ++ r0) R1 ltac:(lia) B4 ltac:(lia)) as (r & E1 & E2).
      exists (r0 ++ r). split. { rewrite E1. now rewrite app_assoc. } eapply isym_join; eauto. lia.
Qed.
End A.
