(** * wm_int and wt_algorithm.hpp: every query on every constructed tree *)
From Coq Require Import NArith ZArith List Lia Bool Arith Permutation Sorted.
From Verif Require Import Base SpecBits RankSelect AbsVec WtBase SpecWt SpecWtAlg WtProofs WtInt WtIntProofs WtIntProofs2 WtIntProofs3 WtIntProofs4 WtIntProofs5 WtIntProofs6
  WmInt WmIntProofs WmIntProofs2 WmIntProofs3 WtAlg WtAlgProofs WtAlgProofs2 WtAlgProofs3.
Import ListNotations.

(** p is the wavelet tree (wt_int) or wavelet matrix (wm_int) that the constructor builds from S *)
Definition builds (p : ptree) (S : list N) (ml : nat) : Prop :=
  S <> [] /\ match p with
  | PInt w => wt_dom S ml /\ wt_make S ml = Some w
  | PMat w => wm_dom S ml /\ wm_make S ml = Some w
  end.

Lemma wm_made : forall S ml w, S <> [] -> wm_dom S ml -> wm_make S ml = Some w -> wm_holds w S /\ wm_L w = level_of S ml.
Proof. intros. destruct (wm_make_ok S ml) as (w' & E & H2 & _ & H3); auto. rewrite E in H1. injection H1 as <-. auto. Qed.
Lemma builds_ok : forall p S ml, builds p S ml -> p_ok p S /\ S <> [] /\ (wt_dom S ml -> p_L p <= 63).
Proof.
  intros [w|w] S ml (A & B & C); cbn [p_ok].
  - split; [eapply made; eauto|]. split; auto. intros. pose proof (made S ml w A B C) as (_ & _ & _ & ?). cbn [p_L p_w]. unfold p_L, p_w. lia.
  - destruct (wm_made S ml w A B C) as [X Y]. split; auto. split; auto. intros D. destruct (level_of_ok S ml A D) as [Z _]. unfold p_L, p_w. unfold wm_L in Y. lia.
Qed.
Lemma dom_le : forall S ml, wt_dom S ml -> wm_dom S ml.
Proof.
  intros S ml [A B]. split; [lia|]. cbv zeta in *. destruct (ml =? 0); auto. rewrite Forall_forall in *. intros x Hx. eapply N.lt_trans; [apply B; auto|]. reflexivity.
Qed.

Lemma wm_build : forall S ml, S <> [] -> wm_dom S ml -> exists w, wm_make S ml = Some w /\ wm_n w = length S /\ wm_sigma w = distinct S.
Proof. intros. destruct (wm_make_ok S ml) as (w & E & (H1 & _) & H2 & _); eauto. Qed.
Lemma wm_access_m : forall S ml w i x, S <> [] -> wm_dom S ml -> wm_make S ml = Some w -> nth_error S i = Some x -> wm_access w i = Some x.
Proof. intros. destruct (wm_made S ml w) as [X _]; auto. eapply wm_access_ok; eauto. Qed.
Lemma wm_rank_m : forall S ml w i c, S <> [] -> wt_dom S ml -> wm_make S ml = Some w -> i <= length S -> wm_rank w i c = Some (occ S c i).
Proof.
  intros. destruct (wm_made S ml w) as [X Y]; auto using dom_le. destruct (level_of_ok S ml H H0) as [Z _]. eapply wm_rank_ok; eauto. lia.
Qed.
Lemma wm_inverse_select_m : forall S ml w i x, S <> [] -> wm_dom S ml -> wm_make S ml = Some w -> nth_error S i = Some x ->
  wm_inverse_select w i = Some (occ S x i, x).
Proof. intros. destruct (wm_made S ml w) as [X _]; auto. eapply wm_inverse_select_ok; eauto. Qed.
Lemma wm_select_m : forall S ml w i c, S <> [] -> wm_dom S ml -> wm_make S ml = Some w -> 1 <= i -> i <= occ S c (length S) ->
  exists p, wm_select w i c = Some p /\ nth_error S p = Some c /\ occ S c p + 1 = i.
Proof.
  intros. destruct (wm_made S ml w) as [X _]; auto. destruct (occ_find S c i) as (p & A & B); auto. exists p. split; auto. rewrite <- B. eapply wm_select_ok; eauto.
Qed.
Lemma wm_isym_m : forall S ml w i j cap, S <> [] -> wm_dom S ml -> wm_make S ml = Some w -> i <= j -> j <= length S -> distinct S <= cap ->
  exists r, wm_interval_symbols w i j cap = Some r /\ StronglySorted N.lt (map (fun z => fst (fst z)) r) /\
    (forall c a b, In (c, a, b) r <-> In c (slice S i j) /\ a = occ S c i /\ b = occ S c j).
Proof.
  intros S ml w i j cap HS HD HM Hi Hj HC. destruct (wm_made S ml w) as [HW _]; auto. change (exists r, wm_interval_symbols w i j cap = Some r /\ isym_spec S i j r).
  unfold wm_interval_symbols.
  assert (G : exists r, (if i + 1 =? j then let* r := wm_inverse_select w i in Some [(snd r, fst r, fst r + 1)]
             else if i <? j then ais_rec (wm_L w + 1) (PMat w) (i, j) (p_root (PMat w)) []
             else Some []) = Some r /\ isym_spec S i j r).
  { destruct (Nat.eqb_spec (i + 1) j) as [E1|E1].
    - destruct (nth_error S i) as [x|] eqn:EX. 2:{ apply nth_error_None in EX. lia. }
      rewrite (wm_inverse_select_ok w S HW i x EX). cbn [obind fst snd]. eexists. split; [reflexivity|].
      assert (SL : slice S i j = [x]).
      { unfold slice. replace (j - i) with 1 by lia. apply nth_error_split in EX. destruct EX as (l1 & l2 & -> & <-).
        rewrite skipn_app, skipn_all, Nat.sub_diag. auto. }
      assert (OX : occ S x j = occ S x i + 1).
      { subst j. rewrite Nat.add_1_r. unfold occ. rewrite (firstn_S_nth S i 0%N) by lia. rewrite filter_app, app_length.
        rewrite (nth_error_nth _ _ _ EX). simpl. rewrite N.eqb_refl. simpl. lia. }
      split. { simpl. constructor; constructor. }
      intros c a b. rewrite SL. simpl. split.
      + intros [H|[]]. inversion H; subst c a b. auto.
      + intros ([<-|[]] & -> & ->). left. now rewrite OX.
    - destruct (Nat.ltb_spec i j).
      + destruct (ais_ok (PMat w) S HW HS (wm_L w) (p_root (PMat w)) S i j (wm_L w + 1) []) as (r & R1 & R2); auto; try lia.
        { apply (root_rep (PMat w) S HW). }
        exists r. auto.
      + exists []. split; auto. assert (i = j) by lia. subst. split. constructor. unfold slice. rewrite Nat.sub_diag. simpl. tauto. }
  destruct G as (r & -> & R). cbn [obind]. exists r. split; auto.
  pose proof (isym_distinct S _ _ _ R). destruct (Nat.leb_spec (length r) cap); auto. lia.
Qed.
Lemma wm_range_search_m : forall S ml w lb rb vlb vrb report, S <> [] -> wt_dom S ml -> wm_make S ml = Some w ->
  (rb < length S \/ rb < lb) -> vlb <> (2 ^ N.of_nat (wm_L w))%N ->
  exists pts, wm_range_search_2d w lb rb vlb vrb report = Some (length (points S lb rb vlb vrb), pts) /\
    (if report then Permutation pts (points S lb rb vlb vrb) else pts = []).
Proof.
  intros. destruct (wm_made S ml w) as [X Y]; auto using dom_le. destruct (level_of_ok S ml H H0) as [Z _]. eapply wm_range_search_2d_ok; eauto. lia.
Qed.

Lemma quantile_freq_m : forall p S ml lb rb q, builds p S ml -> lb <= rb -> rb < length S -> q <= rb - lb ->
  exists x, quantile_freq p lb rb q = Some (x, count x (slice S lb (rb + 1))) /\ is_quantile (slice S lb (rb + 1)) q x.
Proof. intros. destruct (builds_ok p S ml H) as (A & B & _). destruct (quantile_freq_ok p S A B lb rb q) as (x & E & F); auto. exists x. auto. Qed.
Lemma symbol_lte_m : forall p S ml c, builds p S ml -> wt_dom S ml -> exists r, symbol_lte p c = Some r /\ lte_spec S c r.
Proof. intros. destruct (builds_ok p S ml H) as (A & B & C). apply symbol_lte_ok; auto. Qed.
Lemma symbol_gte_m : forall p S ml c, builds p S ml -> wt_dom S ml -> exists r, symbol_gte p c = Some r /\ gte_spec S c r.
Proof. intros. destruct (builds_ok p S ml H) as (A & B & C). apply symbol_gte_ok; auto. Qed.
Lemma intersect_m : forall p S ml rs t, builds p S ml -> Forall (rok S) rs ->
  exists out, intersect p rs t = Some out /\ isx_spec S (if t =? 0 then Nat.max 1 (length rs) else t) rs out.
Proof. intros. destruct (builds_ok p S ml H) as (A & B & C). apply intersect_ok; auto. Qed.
Lemma restricted_unique_m : forall p S ml xi xj yi yj, builds p S ml -> wt_dom S ml ->
  exists out, restricted_unique p xi xj yi yj = Some out /\ StronglySorted N.lt out /\
    forall x, In x out <-> In x (slice S xi (Nat.min xj (length S - 1) + 1)) /\ (yi <= x <= yj)%N.
Proof. intros. destruct (builds_ok p S ml H) as (A & B & C). apply restricted_unique_ok; auto. Qed.
