(** * wm_int: the queries on a matrix that holds the sequence *)
From Coq Require Import NArith ZArith List Lia Bool Arith Permutation.
From Verif Require Import Base SpecBits RankSelect AbsVec WtBase SpecWt WtProofs WtInt WtIntProofs WmInt.
Import ListNotations.

(* where the children of the node at [o] of level [k] start *)
Definition ones_p (w : wm) (k o : nat) : nat := rank_of (t_bit (wm_tree w)) o - rank_of (t_bit (wm_tree w)) (k * wm_n w).
Definition kid (w : wm) (k o : nat) (b : bool) : nat :=
  if b then (k + 1) * wm_n w + nth k (wm_zc w) 0 + ones_p w k o else (k + 1) * wm_n w + (o - k * wm_n w - ones_p w k o).

(** the nodes below [o] (height [d], level [k]) hold the sequence [T] *)
Fixpoint wm_at (w : wm) (d k o : nat) (T : list N) : Prop :=
  match d with
  | 0 => True
  | S d' =>
    k * wm_n w <= o /\ o + length T <= length (wm_tree w) /\
    (forall q, q < length T -> t_bit (wm_tree w) (o + q) = tb (nth q T 0%N) d') /\
    wm_at w d' (k + 1) (kid w k o false) (filter (fb false d') T) /\
    wm_at w d' (k + 1) (kid w k o true) (filter (fb true d') T)
  end.
Definition wm_holds (w : wm) (S : list N) : Prop :=
  wm_n w = length S /\ wm_at w (wm_L w) 0 0 S /\ Forall (fun x => (x < 2 ^ N.of_nat (wm_L w))%N) S /\
  1 <= wm_L w <= 64 /\ length (wm_zc w) = wm_L w /\
  (forall k, k < wm_L w -> nth_error (wm_rl w) k = Some (rank_of (t_bit (wm_tree w)) (k * wm_n w))).

Ltac mnode H :=
  let K := fresh "K" in let B := fresh "B" in let E := fresh "E" in let C0 := fresh "C0" in let C1 := fresh "C1" in
  cbn [wm_at] in H; destruct H as (K & B & E & C0 & C1).

Lemma rank_diff_le : forall f a b, a <= b -> rank_of f b - rank_of f a <= b - a.
Proof. intros. pose proof (rank_of_negb f b). pose proof (rank_of_negb f a). pose proof (rank_of_mono (fun q => negb (f q)) a b H).
  pose proof (rank_of_le f a). pose proof (rank_of_le f b). lia. Qed.

Section Q.
Variable w : wm. Variable S0 : list N.
Hypothesis HW : wm_holds w S0.
Notation t := (wm_tree w). Notation n := (wm_n w). Notation L := (wm_L w).

Lemma kid_at : forall d k o T (b : bool), wm_at w (S d) k o T -> wm_at w d (k + 1) (kid w k o b) (filter (fb b d) T).
Proof. intros. mnode H. destruct b; auto. Qed.
Lemma zc_some : forall k, k < L -> nth_error (wm_zc w) k = Some (nth k (wm_zc w) 0).
Proof. intros. destruct HW as (_ & _ & _ & _ & H1 & _). apply nth_error_nth'. lia. Qed.
Lemma rl_some : forall k, k < L -> nth_error (wm_rl w) k = Some (rank_of (t_bit t) (k * n)).
Proof. intros. destruct HW as (_ & _ & _ & _ & _ & H1). auto. Qed.
Lemma op_csub : forall k o, k * n <= o -> csub (rank_of (t_bit t) o) (rank_of (t_bit t) (k * n)) = Some (ones_p w k o).
Proof. intros. apply csub_some. unfold ones_p. pose proof (rank_of_mono (t_bit t) _ _ H). lia. Qed.
Lemma op_le : forall k o, k * n <= o -> ones_p w k o <= o - k * n.
Proof. intros. apply rank_diff_le. auto. Qed.

Lemma child_some : forall k o b, k < L -> k * n <= o -> wm_child w k o (ones_p w k o) b = Some (kid w k o b).
Proof.
  intros. unfold wm_child, kid. destruct b. { rewrite zc_some by auto. reflexivity. }
  rewrite (csub_some _ _ (o - k * n)) by lia. cbn [obind]. pose proof (op_le k o H0).
  rewrite (csub_some _ _ (o - k * n - ones_p w k o)) by lia. reflexivity.
Qed.
Lemma ones_some : forall d k o T i, k < L -> wm_at w (S d) k o T -> i <= length T ->
  wm_ones w k o i = Some (rank_of (t_bit t) o, cnt (fb true d) T i, ones_p w k o).
Proof.
  intros. mnode H0. unfold wm_ones. rewrite (rk0 t o T B), (rk t o T d i B E) by lia. cbn [obind]. rewrite csub_add. cbn [obind].
  rewrite rl_some by auto. cbn [obind]. rewrite op_csub by auto. reflexivity.
Qed.

Lemma wm_acc_ok : forall d k o T i, k + d = L -> wm_at w d k o T -> i < length T -> is_word (nth i T 0%N) ->
  wm_acc_loop w d k (o + i) (shr (nth i T 0%N) d) = Some (nth i T 0%N).
Proof.
  induction d; intros. { simpl. now rewrite shr_0. }
  pose proof (fun b => kid_at d k o T b H0) as CH. mnode H0. cbn [wm_acc_loop].
  rewrite (rk t o T d i B E) by lia. cbn [obind]. rewrite rl_some by lia. cbn [obind].
  rewrite (csub_some _ _ (ones_p w k o + cnt (fb true d) T i)).
  2:{ unfold ones_p. pose proof (rank_of_mono (t_bit t) _ _ K). lia. } cbn [obind].
  rewrite t_get_some by lia. cbn [obind]. rewrite (E i H1).
  pose proof (nth_filter (fb (tb (nth i T 0%N) d) d) T i 0%N H1 (fb_self _ _)) as [N1 N2].
  specialize (CH (tb (nth i T 0%N) d)). destruct (tb (nth i T 0%N) d) eqn:Eb.
  - rewrite zc_some by lia. cbn [obind]. rewrite prefix1 by auto. rewrite <- N1.
    replace ((k + 1) * n + nth k (wm_zc w) 0 + (ones_p w k o + cnt (fb true d) T i)) with (kid w k o true + cnt (fb true d) T i) by (unfold kid; lia).
    apply IHd; rewrite ?N1; auto. lia.
  - rewrite (csub_some _ _ (o + i - k * n)) by lia. cbn [obind]. pose proof (op_le k o K). pose proof (cnt_fb d T i ltac:(lia)). pose proof (cnt_le (fb true d) T i).
    rewrite (csub_some _ _ (o - k * n - ones_p w k o + cnt (fb false d) T i)) by lia. cbn [obind].
    rewrite prefix0 by auto. rewrite <- N1.
    replace ((k + 1) * n + (o - k * n - ones_p w k o + cnt (fb false d) T i)) with (kid w k o false + cnt (fb false d) T i) by (unfold kid; lia).
    apply IHd; rewrite ?N1; auto. lia.
Qed.

Lemma bit_i : forall (b : bool) T d i, i <= length T -> (if b then Some (cnt (fb true d) T i) else csub i (cnt (fb true d) T i)) = Some (cnt (fb b d) T i).
Proof. intros. destruct b; auto. apply csub_cnt. auto. Qed.

Lemma wm_isel_ok : forall d k o T i, k + d = L -> wm_at w d k o T -> i < length T -> is_word (nth i T 0%N) -> pre d (nth i T 0%N) T ->
  wm_isel_loop w d k o i (shr (nth i T 0%N) d) = Some (occ T (nth i T 0%N) i, nth i T 0%N).
Proof.
  induction d; intros. { simpl. rewrite shr_0, occ_const; auto. apply pre_0. auto. lia. }
  pose proof (fun b => kid_at d k o T b H0) as CH. cbn [wm_isel_loop]. rewrite (ones_some d k o T i) by (auto; lia). cbn [obind].
  mnode H0. rewrite t_get_some by lia. cbn [obind]. rewrite (E i H1). rewrite bit_i by lia. cbn [obind]. rewrite child_some by lia. cbn [obind].
  pose proof (nth_filter (fb (tb (nth i T 0%N) d) d) T i 0%N H1 (fb_self _ _)) as [N1 N2].
  pose proof (pre_step _ _ _ H3) as P2. rewrite (occ_child T (nth i T 0%N) d i).
  specialize (CH (tb (nth i T 0%N) d)).
  replace (if tb (nth i T 0%N) d then _ else _) with (shr (nth i T 0%N) d).
  2:{ destruct (tb (nth i T 0%N) d) eqn:Eb; symmetry; [apply prefix1|apply prefix0]; auto. }
  set (b := tb (nth i T 0%N) d) in *. rewrite <- N1. apply IHd; rewrite ?N1; auto. lia.
Qed.

Lemma wm_rank_lok : forall d k o T i c, k + d = L -> wm_at w d k o T -> i <= length T -> pre d c T ->
  forall mask, (d <> 0 -> mask = (2 ^ N.of_nat (d - 1))%N) -> wm_rank_loop w d k o i c mask = Some (occ T c i).
Proof.
  induction d; intros. { simpl. rewrite occ_const; auto. apply pre_0. auto. }
  pose proof (fun b => kid_at d k o T b H0) as CH. cbn [wm_rank_loop].
  destruct (Nat.eqb_spec i 0). { subst. now rewrite occ_0. }
  rewrite (ones_some d k o T i) by (auto; lia). cbn [obind]. mnode H0.
  rewrite (H3 ltac:(lia)). replace (S d - 1) with d by lia. rewrite hit_pow, bit_i by lia. cbn [obind]. rewrite child_some by lia. cbn [obind].
  rewrite (occ_child T c d i). apply IHd; auto. lia. apply cnt_le_all. apply pre_step. auto.
  intros. destruct d; [lia|]. rewrite shr_pow_S. f_equal. lia.
Qed.

(** going up again: [U] pairs every element of a node (or of a part of it) with its position in the sequence *)
Notation bitU d U o := (forall q, q < length U -> t_bit t (o + q) = tb (snd (nth q U (0, 0%N))) d).
Definition fp (b : bool) (d : nat) (z : nat * N) : bool := fb b d (snd z).
Inductive chain (is ro : list nat) (c : N) (U0 : list (nat * N)) : nat -> list (nat * N) -> Prop :=
  | ch0 : chain is ro c U0 0 U0
  | chS : forall k U o, chain is ro c U0 k U -> k < L -> nth_error is k = Some o -> nth_error ro k = Some (rank_of (t_bit t) o) ->
      o + length U <= length t -> bitU (L - S k) U o -> chain is ro c U0 (S k) (filter (fp (tb c (L - S k)) (L - S k)) U).

Lemma filter_find : forall A (f : A -> bool) l i y, nth_error (filter f l) i = Some y ->
  exists q, nth_error l q = Some y /\ length (filter f (firstn q l)) = i.
Proof.
  induction l as [|a l]; simpl; intros. { destruct i; discriminate. }
  destruct (f a) eqn:F.
  - destruct i. { exists 0. auto. } destruct (IHl i y H) as (q & Q1 & Q2). exists (S q). split; auto. simpl. rewrite F. simpl. auto.
  - destruct (IHl i y H) as (q & Q1 & Q2). exists (S q). split; auto. simpl. rewrite F. auto.
Qed.
Lemma nth_map_snd : forall q (U : list (nat * N)), nth q (map snd U) 0%N = snd (nth q U (0, 0%N)).
Proof. intros. change 0%N with (snd (0, 0%N)) at 1. apply map_nth. Qed.
Lemma cnt_map : forall f (U : list (nat * N)) q, cnt f (map snd U) q = length (filter (fun z => f (snd z)) (firstn q U)).
Proof.
  intros. unfold cnt. revert q. induction U; destruct q; simpl; auto. destruct (f (snd a)); simpl; rewrite IHU; auto.
Qed.

Lemma climb_ok : forall is ro c U0 k U, chain is ro c U0 k U -> forall i y mask, nth_error U i = Some y ->
  (k <> 0 -> mask = (2 ^ N.of_nat (L - k))%N) -> L <= 64 ->
  exists i', sel_up (wm_w w) k (i + 1) c mask is ro = Some (i' + 1) /\ nth_error U0 i' = Some y.
Proof.
  induction 1; intros i y mask Hy HM HL. { exists i. auto. }
  cbn [sel_up]. rewrite H1, H2. cbn [obind]. rewrite HM by lia. rewrite hit_pow.
  destruct (filter_find _ _ _ _ _ Hy) as (q & Q1 & Q2).
  assert (QL : q < length U) by (apply nth_error_Some; congruence).
  assert (QY : nth q (map snd U) 0%N = snd y). { rewrite nth_map_snd. now rewrite (nth_error_nth _ _ _ Q1). }
  assert (QB : tb (snd y) (L - S k) = tb c (L - S k)).
  { assert (In y (filter (fp (tb c (L - S k)) (L - S k)) U)) by (eapply nth_error_In; eauto). apply filter_In in H5. destruct H5 as [_ F].
    unfold fp, fb in F. apply eqb_prop in F. auto. }
  assert (QC : cnt (fb (tb c (L - S k)) (L - S k)) (map snd U) q = i) by (rewrite cnt_map; auto).
  assert (BT : forall j, j < length (map snd U) -> t_bit t (o + j) = tb (nth j (map snd U) 0%N) (L - S k)).
  { intros. rewrite map_length in H5. rewrite nth_map_snd. auto. }
  assert (SEL : (if tb c (L - S k) then t_sel1 (wt_tree (wm_w w)) (rank_of (t_bit t) o + (i + 1))
     else let* zo := csub o (rank_of (t_bit t) o) in t_sel0 (wt_tree (wm_w w)) (zo + (i + 1))) = Some (o + q)).
  { change (wt_tree (wm_w w)) with t. destruct (tb c (L - S k)) eqn:Eb.
    - rewrite <- QC. apply sel_node1; [exact BT|now rewrite map_length|now rewrite map_length|now rewrite QY].
    - unfold csub. pose proof (rank_of_le (t_bit t) o). destruct (Nat.leb_spec (rank_of (t_bit t) o) o); [|lia]. cbn [obind].
      rewrite <- QC. apply sel_node0; [exact BT|now rewrite map_length|now rewrite map_length|now rewrite QY]. }
  rewrite SEL. cbn [obind]. rewrite csub_add. cbn [obind].
  apply (IHchain q y); auto. intros. rewrite shl_pow by lia. f_equal. lia.
Qed.

Lemma map_filter_fp : forall b d U, map snd (filter (fp b d) U) = filter (fb b d) (map snd U).
Proof. induction U; simpl; auto. unfold fp at 1. destruct (fb b d (snd a)); simpl; rewrite IHU; auto. Qed.
Lemma chain_ext : forall is ro is' ro' c U0 k U, chain is ro c U0 k U -> (forall j, j < k -> nth_error is' j = nth_error is j) ->
  (forall j, j < k -> nth_error ro' j = nth_error ro j) -> chain is' ro' c U0 k U.
Proof.
  induction 1; intros; [constructor|]. apply (chS _ _ _ _ k U o); auto. rewrite H5; auto. rewrite H6; auto.
Qed.
Lemma node_bits : forall d k o T, wm_at w (S d) k o T -> forall U, T = map snd U -> o + length U <= length t /\ bitU d U o.
Proof. intros. mnode H. subst. rewrite map_length in *. split; auto. intros. rewrite E by auto. now rewrite nth_map_snd. Qed.

Lemma sel_down_ok : forall c U0 d k o U r po pr mask, k + d = L -> wm_at w d k o (map snd U) -> chain po pr c U0 k U ->
  nth_error po k = Some o -> length po = L + 1 -> length pr = L + 1 -> r <= length U ->
  (d <> 0 -> mask = (2 ^ N.of_nat (d - 1))%N) ->
  exists po' pr' U', wm_sel_down w d k o r c mask po pr = Some (po', pr') /\ chain po' pr' c U0 L U'.
Proof.
  induction d; intros k o U r po pr mask EK HA HC HO Hpo Hpr Hr HM.
  - cbn [wm_sel_down]. exists po, pr, U. assert (k = L) by lia. subst k. auto.
  - cbn [wm_sel_down]. rewrite (ones_some d k o (map snd U) r) by (rewrite ?map_length; auto; lia). cbn [obind].
    pose proof (kid_at d k o (map snd U) (tb c d) HA) as CH.
    destruct (node_bits d k o (map snd U) HA U eq_refl) as [NB1 NB2].
    rewrite (HM ltac:(lia)). replace (S d - 1) with d by lia. rewrite hit_pow, bit_i by (rewrite map_length; lia). cbn [obind].
    assert (K : k * n <= o) by (mnode HA; auto). rewrite child_some by lia. cbn [obind]. rewrite !aset_some by lia. cbn [obind].
    rewrite <- map_filter_fp in CH. replace (k + 1) with (S k) in * by lia.
    apply (IHd (S k) (kid w k o (tb c d)) (filter (fp (tb c d) d) U)); rewrite ?upd_length; auto; try lia.
    + assert (L - S k = d) as LD by lia. rewrite <- LD. apply (chS _ _ _ _ k U o); auto; try lia.
      * eapply chain_ext; eauto; intros; rewrite nth_error_upd_neq by lia; auto.
      * rewrite nth_error_upd_neq by lia. auto.
      * rewrite nth_error_upd_eq by lia. auto.
      * rewrite LD. auto.
    + rewrite nth_error_upd_eq by lia. auto.
    + rewrite <- (map_length snd), map_filter_fp. apply cnt_le_all.
    + intros. destruct d; [lia|]. rewrite shr_pow_S. f_equal. lia.
Qed.
Lemma chain_filter : forall is ro c U0 k U, chain is ro c U0 k U -> (c < 2 ^ N.of_nat L)%N -> Forall (fun y => (snd y < 2 ^ N.of_nat L)%N) U0 ->
  k <= L -> U = filter (fun y => (shr (snd y) (L - k) =? shr c (L - k))%N) U0.
Proof.
  induction 1; intros.
  - rewrite Nat.sub_0_r. symmetry. clear H1. induction U0; simpl; auto. inversion H0; subst.
    replace (shr (snd a) L) with (shr c L) by now rewrite (shr_small c), (shr_small (snd a)). rewrite N.eqb_refl. f_equal; auto.
  - rewrite IHchain by (auto; lia). set (d := L - S k). replace (L - k) with (S d) by (unfold d; lia). clear.
    induction U0; simpl; auto. 
    destruct (N.eqb_spec (shr (snd a) d) (shr c d)) as [e|e].
    + destruct (shr_step_inv _ _ _ e) as [e1 e2]. rewrite e1, N.eqb_refl. simpl. unfold fp at 1. rewrite <- e2, fb_self, e2. f_equal. auto.
    + destruct (N.eqb_spec (shr (snd a) (S d)) (shr c (S d))) as [e1|e1]; auto. simpl. unfold fp at 1, fb.
      destruct (Bool.eqb (tb (snd a) d) (tb c d)) eqn:Q; auto. apply eqb_prop in Q. exfalso. apply e. apply shr_step; auto.
Qed.

(** ** the whole matrix *)
Definition enum (T : list N) : list (nat * N) := combine (seq 0 (length T)) T.
Lemma enum_snd : forall (T : list N) k, map snd (combine (seq k (length T)) T) = T.
Proof. induction T; simpl; intros; auto. now rewrite IHT. Qed.
Lemma enum_nth : forall (T : list N) k i, nth_error (combine (seq k (length T)) T) i = option_map (fun x => (k + i, x)) (nth_error T i).
Proof.
  induction T; destruct i; simpl; auto. { now rewrite Nat.add_0_r. } rewrite IHT. replace (S k + i) with (k + S i) by lia. auto.
Qed.
Lemma enum_filter : forall f (T : list N) k p x, nth_error T p = Some x -> f x = true ->
  nth_error (filter (fun y => f (snd y)) (combine (seq k (length T)) T)) (length (filter f (firstn p T))) = Some (k + p, x).
Proof.
  induction T; intros k p x Hp Hx; destruct p; try discriminate; simpl in Hp.
  - injection Hp as <-. simpl. rewrite Hx. simpl. now rewrite Nat.add_0_r.
  - simpl. specialize (IHT (S k) p x Hp Hx). replace (k + S p) with (S k + p) by lia. destruct (f a); simpl; auto.
Qed.
Lemma word_S0 : Forall is_word S0.
Proof.
  destruct HW as (_ & _ & F & HL & _). rewrite Forall_forall in *. intros. specialize (F x H). unfold is_word. rewrite W64_pow.
  eapply N.lt_le_trans; [exact F|]. apply N.pow_le_mono_r; lia.
Qed.
Lemma wpre_top : forall c, (c < 2 ^ N.of_nat L)%N -> pre L c S0.
Proof. intros. destruct HW as (_ & _ & F & _). unfold pre. rewrite Forall_forall in *. intros. rewrite !shr_small; auto. Qed.
Lemma wmask_some : exists l1, csub L 1 = Some l1 /\ shl_c 1 l1 = Some (2 ^ N.of_nat (L - 1))%N.
Proof. destruct HW as (_ & _ & _ & HL & _). exists (L - 1). split. apply csub_some. lia. apply shl_c_pow. lia. Qed.
Lemma elem : forall i x, nth_error S0 i = Some x -> i < length S0 /\ nth i S0 0%N = x /\ is_word x /\ (x < 2 ^ N.of_nat L)%N.
Proof.
  intros. destruct HW as (_ & _ & F & _). rewrite Forall_forall in F. pose proof word_S0 as W. rewrite Forall_forall in W.
  assert (In x S0) by (eapply nth_error_In; eauto). repeat split; auto. apply nth_error_Some. congruence. now apply nth_error_nth.
Qed.

Theorem wm_access_ok : forall i x, nth_error S0 i = Some x -> wm_access w i = Some x.
Proof.
  intros. destruct (elem i x H) as (A & B & C & D). destruct HW as (HN & HA & _). unfold wm_access.
  pose proof (wm_acc_ok L 0 0 S0 i eq_refl HA A) as Q. rewrite B in Q. rewrite shr_small in Q by auto. apply Q. auto.
Qed.
Theorem wm_inverse_select_ok : forall i x, nth_error S0 i = Some x -> wm_inverse_select w i = Some (occ S0 x i, x).
Proof.
  intros. destruct (elem i x H) as (A & B & C & D). destruct HW as (HN & HA & _). unfold wm_inverse_select.
  destruct wmask_some as (l1 & -> & E). cbn [obind]. rewrite E. cbn [obind].
  pose proof (wm_isel_ok L 0 0 S0 i eq_refl HA A) as Q. rewrite B in Q. rewrite shr_small in Q by auto. apply Q; auto. apply wpre_top. auto.
Qed.
Theorem wm_rank_ok : forall i c, L <= 63 -> i <= length S0 -> wm_rank w i c = Some (occ S0 c i).
Proof.
  intros i c HL Hi. pose proof HW as (HN & HA & HF & HL1 & _). unfold wm_rank. rewrite shl_c_pow by lia. cbn [obind].
  destruct (N.leb_spec (2 ^ N.of_nat L) c) as [C|C].
  - f_equal. symmetry. unfold occ. rewrite filter_nil; auto. intros x Hx. apply In_firstn in Hx. rewrite Forall_forall in HF. specialize (HF x Hx).
    apply N.eqb_neq. lia.
  - destruct wmask_some as (l1 & -> & E). cbn [obind]. rewrite E. cbn [obind].
    apply wm_rank_lok; auto. apply wpre_top. auto.
Qed.
Theorem wm_select_ok : forall c p, nth_error S0 p = Some c -> wm_select w (occ S0 c p + 1) c = Some p.
Proof.
  intros c p Hp. destruct (elem p c Hp) as (A & B & C & D). pose proof HW as (HN & HA & HF & HL1 & _). unfold wm_select.
  destruct wmask_some as (l1 & -> & E). cbn [obind]. rewrite E. cbn [obind].
  destruct (Nat.eqb_spec (occ S0 c p + 1) 0); [lia|].
  destruct (sel_down_ok c (enum S0) L 0 0 (enum S0) (occ S0 c p + 1) (repeat 0 (L + 1)) (repeat 0 (L + 1)) (2 ^ N.of_nat (L - 1))) as (po & pr & U & E1 & E2); auto; rewrite ?repeat_length; auto.
  - unfold enum. rewrite enum_snd. auto.
  - constructor.
  - rewrite Nat.add_1_r. reflexivity.
  - unfold enum. rewrite combine_length, seq_length, Nat.min_id.
    assert (occ S0 c p <= p) by (unfold occ; etransitivity; [apply filter_le|rewrite firstn_length; lia]). lia.
  - rewrite E1. cbn [obind].
    assert (UE : nth_error U (occ S0 c p) = Some (p, c)).
    { rewrite (chain_filter _ _ _ _ _ _ E2); auto.
      - rewrite Nat.sub_diag. rewrite (filter_ext _ (fun y => (N.eqb c) (snd y))).
        + apply (enum_filter (N.eqb c) S0 0 p c Hp). apply N.eqb_refl.
        + intros. rewrite !shr_0. apply N.eqb_sym.
      - rewrite Forall_forall in *. intros y Hy. unfold enum in Hy. destruct y as [a b]. apply in_combine_r in Hy. simpl. auto. }
    destruct (climb_ok _ _ _ _ _ _ E2 (occ S0 c p) (p, c) 1%N UE) as (i' & C1 & C2).
    { intros. rewrite Nat.sub_diag. reflexivity. } { lia. }
    rewrite C1. cbn [obind]. unfold enum in C2. rewrite enum_nth in C2. destruct (nth_error S0 i'); [|discriminate]. injection C2 as <- <-.
    apply csub_some. lia.
Qed.
End Q.
