(** * wt_int: order queries and the range search *)
From Coq Require Import NArith ZArith List Lia Bool Arith Permutation Sorted.
From Verif Require Import Base SpecBits RankSelect AbsVec WtBase SpecWt WtProofs WtInt WtIntProofs.
Import ListNotations.

Lemma split_len : forall A (f g : A -> bool) T, (forall x, In x T -> g x = negb (f x)) ->
  length (filter f T) + length (filter g T) = length T.
Proof. intros. rewrite <- !(cnt_all _ T (length T)) by auto. apply cnt_split; auto. Qed.
Lemma filter_comm : forall A (f g : A -> bool) T, filter f (filter g T) = filter g (filter f T).
Proof. induction T; simpl; auto. destruct (g a) eqn:G, (f a) eqn:F; simpl; rewrite ?F, ?G; congruence. Qed.
Lemma slice_child : forall f T i j, i <= j -> slice (filter f T) (cnt f T i) (cnt f T j) = filter f (slice T i j).
Proof. intros. apply slice_filter. auto. Qed.
Lemma In_slice : forall T i j x, In x (slice T i j) -> In x T.
Proof. intros. unfold slice in H. eapply In_skipn, In_firstn; eauto. Qed.
Lemma slice_len : forall T i j, i <= j -> j <= length T -> length (slice T i j) = j - i.
Proof. intros. unfold slice. rewrite firstn_length, skipn_length. lia. Qed.
Lemma filter_by : forall A (f g : A -> bool) T,
  length (filter f T) = length (filter f (filter g T)) + length (filter f (filter (fun x => negb (g x)) T)).
Proof. induction T; simpl; auto. destruct (g a); simpl; destruct (f a); simpl; lia. Qed.
Lemma filter_fb_neg : forall b d T, filter (fun x => negb (fb b d x)) T = filter (fb (negb b) d) T.
Proof. intros. apply filter_ext_in2. intros. symmetry. apply fb_negb. Qed.

(* elements of a node whose next bit differs from that of c *)
Lemma other_smaller : forall d c T l, pre (S d) c T -> incl l T -> tb c d = true ->
  smaller c l = length (filter (fb false d) l) + smaller c (filter (fb true d) l) /\
  greater c l = greater c (filter (fb true d) l).
Proof.
  intros. unfold smaller, greater, pre in *. rewrite Forall_forall in H.
  rewrite (filter_by _ (fun x => (x <? c)%N) (fb true d) l), (filter_by _ (fun x => (c <? x)%N) (fb true d) l).
  rewrite !filter_fb_neg. cbn [negb].
  assert (A : forall x, In x (filter (fb false d) l) -> (x < c)%N).
  { intros. rewrite filter_In in H2. destruct H2 as [H2 F]. rewrite fb_false in F. apply negb_true_iff in F. apply (bit_lt x c d); auto. }
  rewrite (filter_all _ (fun x => (x <? c)%N) (filter (fb false d) l)) by (intros; apply N.ltb_lt; auto).
  rewrite (filter_nil _ (fun x => (c <? x)%N) (filter (fb false d) l)) by (intros; apply N.ltb_ge; apply N.lt_le_incl; auto).
  simpl. lia.
Qed.
Lemma other_greater : forall d c T l, pre (S d) c T -> incl l T -> tb c d = false ->
  greater c l = length (filter (fb true d) l) + greater c (filter (fb false d) l) /\
  smaller c l = smaller c (filter (fb false d) l).
Proof.
  intros. unfold smaller, greater, pre in *. rewrite Forall_forall in H.
  rewrite (filter_by _ (fun x => (x <? c)%N) (fb false d) l), (filter_by _ (fun x => (c <? x)%N) (fb false d) l).
  rewrite !filter_fb_neg. cbn [negb].
  assert (A : forall x, In x (filter (fb true d) l) -> (c < x)%N).
  { intros. rewrite filter_In in H2. destruct H2 as [H2 F]. rewrite fb_true in F. apply (bit_lt c x d); auto. symmetry. auto. }
  rewrite (filter_all _ (fun x => (c <? x)%N) (filter (fb true d) l)) by (intros; apply N.ltb_lt; auto).
  rewrite (filter_nil _ (fun x => (x <? c)%N) (filter (fb true d) l)) by (intros; apply N.ltb_ge; apply N.lt_le_incl; auto).
  simpl. lia.
Qed.
Lemma all_equal_sg : forall c l, (forall y, In y l -> y = c) -> smaller c l = 0 /\ greater c l = 0.
Proof.
  intros. unfold smaller, greater. rewrite !filter_nil; auto; intros x Hx; rewrite (H x Hx); apply N.ltb_irrefl.
Qed.
Lemma slice_incl : forall T i j, incl (slice T i j) T.
Proof. intros T i j x. apply In_slice. Qed.
Lemma mask_next : forall d, d <> 0 -> shr (2 ^ N.of_nat d) 1 = (2 ^ N.of_nat (d - 1))%N.
Proof. intros. destruct d; [lia|]. rewrite shr_pow_S. f_equal. lia. Qed.

Section Q.
Variable w : wt.
Notation t := (wt_tree w). Notation n := (wt_n w).

Lemma lex_ok : forall d o T i j c sm gr mask, wt_at t n d o T -> i <= j -> j <= length T -> pre d c T ->
  (d <> 0 -> mask = (2 ^ N.of_nat (d - 1))%N) ->
  lex_loop w d o i j (length T) sm gr c mask =
  Some (occ T c i, sm + smaller c (slice T i j), gr + greater c (slice T i j)).
Proof.
  induction d; intros o T i j c sm gr mask H Hi Hj HP HM.
  { simpl. destruct (all_equal_sg c (slice T i j)) as [-> ->]. { intros. apply (pre_0 _ _ HP). eapply In_slice; eauto. }
    rewrite occ_const, !Nat.add_0_r; auto. apply pre_0; auto. lia. }
  pose proof (fun b => child_at w d o T b H) as CH. node H. cbn [lex_loop].
  rewrite (rk0 t o T B), (rk t o T d i B E) by lia. cbn [obind]. rewrite csub_add. cbn [obind].
  rewrite (rk t o T d j B E) by lia. cbn [obind]. rewrite csub_add. cbn [obind].
  rewrite (rkE t o T d B E). cbn [obind]. rewrite csub_add. cbn [obind]. rewrite csub_len. cbn [obind].
  rewrite HM by lia. replace (S d - 1) with d by lia. rewrite hit_pow.
  rewrite (csub_some j i (j - i)) by lia. cbn [obind].
  pose proof (cnt_mono (fb true d) T i j Hi) as M1. pose proof (cnt_mono (fb false d) T i j Hi) as M0.
  pose proof (pre_step _ _ _ HP) as P2. rewrite (occ_child T c d i).
  pose proof (cnt_fb d T i ltac:(lia)) as F1. pose proof (cnt_fb d T j ltac:(lia)) as F2.
  pose proof (cnt_le (fb true d) T i) as L1. pose proof (cnt_le (fb true d) T j) as L2.
  pose proof (slice_child (fb true d) T i j Hi) as S1. pose proof (slice_child (fb false d) T i j Hi) as S2.
  pose proof (cnt_diff _ (fb false d) T i j Hi) as D0. fold (slice T i j) in D0.
  pose proof (cnt_diff _ (fb true d) T i j Hi) as D1. fold (slice T i j) in D1.
  specialize (CH (tb c d)). destruct (tb c d) eqn:Eb.
  - rewrite (csub_some _ _ (length (filter (fb false d) (slice T i j)))) by lia. cbn [obind].
    rewrite IHd; auto; try apply cnt_le_all. 2:{ apply mask_next. }
    destruct (other_smaller d c T _ HP (slice_incl T i j) Eb) as [-> ->]. rewrite S1, Nat.add_assoc. auto.
  - rewrite (csub_some _ _ (length (filter (fb true d) (slice T i j)))) by lia. cbn [obind].
    rewrite !csub_cnt by lia. cbn [obind]. rewrite IHd; auto; try apply cnt_le_all. 2:{ apply mask_next. }
    destruct (other_greater d c T _ HP (slice_incl T i j) Eb) as [-> ->]. rewrite S2, Nat.add_assoc. auto.
Qed.

Lemma slice_0 : forall T i, slice T 0 i = firstn i T. Proof. intros. unfold slice. now rewrite Nat.sub_0_r. Qed.
Lemma lsc_ok : forall d o T i c res mask, wt_at t n d o T -> i <= length T -> pre d c T ->
  (d <> 0 -> mask = (2 ^ N.of_nat (d - 1))%N) ->
  lsc_loop w d o i (length T) res c mask = Some (occ T c i, res + smaller c (firstn i T)).
Proof.
  induction d; intros o T i c res mask H Hi HP HM.
  { simpl. destruct (all_equal_sg c (firstn i T)) as [-> _]. { intros. apply (pre_0 _ _ HP). eapply In_firstn; eauto. }
    rewrite occ_const, !Nat.add_0_r; auto. apply pre_0; auto. }
  pose proof (fun b => child_at w d o T b H) as CH. node H. cbn [lsc_loop].
  destruct (Nat.eqb_spec i 0). { subst. rewrite occ_0. cbn. f_equal. f_equal. unfold smaller. simpl. lia. }
  rewrite (rk0 t o T B), (rk t o T d i B E) by lia. cbn [obind]. rewrite csub_add. cbn [obind].
  rewrite (rkE t o T d B E). cbn [obind]. rewrite csub_add. cbn [obind]. rewrite csub_len. cbn [obind].
  rewrite csub_cnt by lia. cbn [obind].
  rewrite HM by lia. replace (S d - 1) with d by lia. rewrite hit_pow.
  pose proof (pre_step _ _ _ HP) as P2. rewrite (occ_child T c d i).
  assert (IN : incl (firstn i T) T) by (intros x; apply In_firstn).
  specialize (CH (tb c d)). destruct (tb c d) eqn:Eb.
  - rewrite IHd; auto; try apply cnt_le_all. 2:{ apply mask_next. }
    destruct (other_smaller d c T _ HP IN Eb) as [-> _]. rewrite firstn_filter. do 2 f_equal. unfold cnt. lia.
  - rewrite IHd; auto; try apply cnt_le_all. 2:{ apply mask_next. }
    destruct (other_greater d c T _ HP IN Eb) as [_ ->]. now rewrite firstn_filter.
Qed.

(** interval_symbols *)
Definition syms (r : list (N * nat * nat)) : list N := map (fun p => fst (fst p)) r.
Definition isym_spec (T : list N) (i j : nat) (r : list (N * nat * nat)) : Prop :=
  StronglySorted N.lt (syms r) /\
  (forall c a b, In (c, a, b) r <-> In c (slice T i j) /\ a = occ T c i /\ b = occ T c j).

Lemma SSorted_app : forall A (R : A -> A -> Prop) l1 l2, StronglySorted R l1 -> StronglySorted R l2 ->
  (forall x y, In x l1 -> In y l2 -> R x y) -> StronglySorted R (l1 ++ l2).
Proof.
  induction l1; simpl; intros; auto. inversion H; subst. constructor. apply IHl1; auto.
  rewrite Forall_forall in *. intros x Hx. apply in_app_iff in Hx. destruct Hx; auto.
Qed.

(* the answers of a node from those of its children *)
Lemma isym_join : forall d p T i j r0 r1, i <= j -> Forall (fun y => shr y (S d) = p) T ->
  (slice (filter (fb false d) T) (cnt (fb false d) T i) (cnt (fb false d) T j) = [] /\ r0 = [] \/
   isym_spec (filter (fb false d) T) (cnt (fb false d) T i) (cnt (fb false d) T j) r0) ->
  (slice (filter (fb true d) T) (cnt (fb true d) T i) (cnt (fb true d) T j) = [] /\ r1 = [] \/
   isym_spec (filter (fb true d) T) (cnt (fb true d) T i) (cnt (fb true d) T j) r1) ->
  isym_spec T i j (r0 ++ r1).
Proof.
  intros d p T i j r0 r1 Hi HP K0 K1. rewrite Forall_forall in HP.
  assert (G : forall b r, (slice (filter (fb b d) T) (cnt (fb b d) T i) (cnt (fb b d) T j) = [] /\ r = [] \/
     isym_spec (filter (fb b d) T) (cnt (fb b d) T i) (cnt (fb b d) T j) r) ->
     StronglySorted N.lt (syms r) /\ (forall c x y, In (c, x, y) r <-> In c (slice T i j) /\ tb c d = b /\ x = occ T c i /\ y = occ T c j)).
  { intros b r [[K ->]|[K1' K2]].
    - split. constructor. intros. split; [intros []|]. intros (X1 & X2 & _). rewrite slice_child in K by auto.
      assert (In c (filter (fb b d) (slice T i j))). { apply filter_In. split; auto. subst b. apply fb_self. } rewrite K in H. auto.
    - split; auto. intros. rewrite K2, slice_child, filter_In by auto. unfold fb at 1. split.
      + intros ((X1 & X2) & -> & ->). apply eqb_prop in X2. subst b. rewrite <- !occ_child. auto.
      + intros (X1 & X2 & -> & ->). subst b. rewrite <- !occ_child, eqb_reflx. auto. }
  destruct (G false r0 K0) as [A0 B0]. destruct (G true r1 K1) as [A1 B1]. split.
  - unfold syms. rewrite map_app. apply SSorted_app; auto. intros x y Hx Hy. unfold syms in *.
    rewrite in_map_iff in Hx, Hy. destruct Hx as ([[x1 x2] x3] & <- & Hx). destruct Hy as ([[y1 y2] y3] & <- & Hy). simpl.
    rewrite B0 in Hx. rewrite B1 in Hy. destruct Hx as (X1 & X2 & _). destruct Hy as (Y1 & Y2 & _).
    apply (bit_lt x1 y1 d); auto. rewrite (HP x1), (HP y1); auto; eapply In_slice; eauto.
  - intros. rewrite in_app_iff, B0, B1. split; [intuition|]. intros (X1 & X2 & X3). destruct (tb c d) eqn:Eb; auto.
Qed.

Lemma isym_ok : forall d o T i j p acc, wt_at t n d o T -> i < j -> j <= length T ->
  Forall (fun y => shr y d = p) T -> Forall is_word T ->
  exists r, isym_rec w d i j p (length T) o acc = Some (acc ++ r) /\ isym_spec T i j r.
Proof.
  induction d; intros o T i j p acc H Hi Hj HP HWd.
  { cbn [isym_rec]. eexists. split; [reflexivity|]. assert (A : forall y, In y T -> y = p).
    { intros. rewrite Forall_forall in HP. rewrite <- (HP y) by auto. now rewrite shr_0. }
    assert (In p (slice T i j)).
    { pose proof (slice_len T i j ltac:(lia) Hj) as SL. destruct (slice T i j) as [|a l] eqn:SE; [simpl in SL; lia|].
      left. apply A. eapply (In_slice T i j). rewrite SE. left. auto. }
    split. { repeat constructor. }
    intros. split.
    - intros [X|[]]. inversion X; subst. rewrite !occ_const; auto. lia.
    - intros (X1 & X2 & X3). apply In_slice in X1. rewrite (A _ X1) in *. left. rewrite !occ_const in * by (auto; lia). congruence. }
  pose proof (fun b => child_at w d o T b H) as CH. node H. cbn [isym_rec].
  rewrite (rk0 t o T B), (rk t o T d i B E) by lia. cbn [obind]. rewrite csub_add. cbn [obind].
  rewrite (rk t o T d j B E) by lia. cbn [obind]. rewrite csub_add. cbn [obind].
  rewrite (rkE t o T d B E). cbn [obind]. rewrite csub_add. cbn [obind]. rewrite csub_len. cbn [obind].
  rewrite (csub_some j i (j - i)) by lia. cbn [obind].
  assert (Hij : i <= j) by lia.
  pose proof (cnt_mono (fb true d) T i j Hij) as M1. pose proof (cnt_mono (fb false d) T i j Hij) as M0.
  pose proof (cnt_fb d T i ltac:(lia)) as F1. pose proof (cnt_fb d T j ltac:(lia)) as F2.
  pose proof (cnt_le (fb true d) T i) as L1. pose proof (cnt_le (fb true d) T j) as L2.
  rewrite (csub_some _ _ (cnt (fb true d) T j - cnt (fb true d) T i)) by lia. cbn [obind].
  rewrite (csub_some _ _ (cnt (fb false d) T j - cnt (fb false d) T i)) by lia. cbn [obind].
  rewrite !csub_cnt by lia. cbn [obind].
  assert (PC : forall b : bool, Forall (fun y => shr y d = if b then N.lor (shl p 1) 1 else shl p 1) (filter (fb b d) T)).
  { intros b. rewrite Forall_forall in *. intros y Hy. apply filter_In in Hy. destruct Hy as [Hy F]. unfold fb in F. apply eqb_prop in F.
    rewrite <- (HP y Hy). destruct b; symmetry. apply prefix1; auto. apply prefix0; auto. }
  assert (WC : forall b, Forall is_word (filter (fb b d) T)).
  { intros b. rewrite Forall_forall in *. intros y Hy. apply filter_In in Hy. apply HWd. tauto. }
  pose proof (CH true) as C1'. pose proof (CH false) as C0'. cbn iota in C1', C0'.
  assert (EMP : forall b, cnt (fb b d) T j - cnt (fb b d) T i = 0 -> slice (filter (fb b d) T) (cnt (fb b d) T i) (cnt (fb b d) T j) = []).
  { intros b Z. unfold slice. rewrite Z. reflexivity. }
  assert (X0 : exists r0, (if 0 <? cnt (fb false d) T j - cnt (fb false d) T i
      then isym_rec w d (cnt (fb false d) T i) (cnt (fb false d) T j) (shl p 1) (length (filter (fb false d) T)) (o + n) acc
      else Some acc) = Some (acc ++ r0) /\
      (slice (filter (fb false d) T) (cnt (fb false d) T i) (cnt (fb false d) T j) = [] /\ r0 = [] \/
       isym_spec (filter (fb false d) T) (cnt (fb false d) T i) (cnt (fb false d) T j) r0)).
  { destruct (Nat.ltb_spec 0 (cnt (fb false d) T j - cnt (fb false d) T i)).
    - destruct (IHd (o + n) (filter (fb false d) T) (cnt (fb false d) T i) (cnt (fb false d) T j) (shl p 1) acc) as (r & R1 & R2); auto.
      lia. apply cnt_le_all. apply (PC false). exists r. auto.
    - exists []. rewrite app_nil_r. split; auto. left. split; auto. apply EMP. lia. }
  destruct X0 as (r0 & -> & K0). cbn [obind].
  destruct (Nat.ltb_spec 0 (cnt (fb true d) T j - cnt (fb true d) T i)).
  - destruct (IHd (o + length (filter (fb false d) T) + n) (filter (fb true d) T) (cnt (fb true d) T i) (cnt (fb true d) T j) (N.lor (shl p 1) 1) (acc ++ r0)) as (r & R1 & R2); auto.
    lia. apply cnt_le_all. apply (PC true).
    exists (r0 ++ r). split. { rewrite R1. now rewrite app_assoc. } eapply isym_join; eauto.
  - exists (r0 ++ []). split. { now rewrite app_nil_r. } eapply isym_join; eauto. left. split; auto. apply EMP. lia.
Qed.
End Q.
