(** * wt_int: every query on every constructed tree *)
From Coq Require Import NArith ZArith List Lia Bool Arith Permutation Sorted.
From Verif Require Import Base SpecBits RankSelect AbsVec WtBase SpecWt WtProofs WtInt WtIntProofs WtIntProofs2 WtIntProofs3 WtIntProofs4 WtIntProofs5.
Import ListNotations.

Lemma made : forall S ml w, S <> [] -> wt_dom S ml -> wt_make S ml = Some w -> wt_holds w S.
Proof. intros. destruct (wt_make_ok S ml) as (w' & E & H2 & _); auto. congruence. Qed.
Lemma build : forall S ml, S <> [] -> wt_dom S ml -> exists w, wt_make S ml = Some w /\ wt_n w = length S /\ wt_sigma w = distinct S.
Proof. intros. destruct (wt_make_ok S ml) as (w & E & (H1 & _) & H2 & _); eauto. Qed.
Lemma access : forall S ml w i x, S <> [] -> wt_dom S ml -> wt_make S ml = Some w -> nth_error S i = Some x -> wt_access w i = Some x.
Proof. intros. eapply wt_access_ok; eauto using made. Qed.
Lemma rank : forall S ml w i c, S <> [] -> wt_dom S ml -> wt_make S ml = Some w -> i <= length S -> wt_rank w i c = Some (occ S c i).
Proof. intros. eapply wt_rank_ok; eauto using made. Qed.
Lemma inverse_select : forall S ml w i x, S <> [] -> wt_dom S ml -> wt_make S ml = Some w -> nth_error S i = Some x ->
  wt_inverse_select w i = Some (occ S x i, x).
Proof. intros. eapply wt_inverse_select_ok; eauto using made. Qed.
Lemma occ_find : forall S c i, 1 <= i -> i <= occ S c (length S) -> exists p, nth_error S p = Some c /\ occ S c p + 1 = i.
Proof.
  intros. assert (G : forall n, n <= length S -> i <= occ S c n -> exists p, nth_error S p = Some c /\ occ S c p + 1 = i).
  { induction n; intros. { unfold occ in H2. simpl in H2. lia. }
    destruct (Nat.le_gt_cases i (occ S c n)) as [|G]. { apply IHn; auto. lia. }
    destruct (nth_error S n) as [x|] eqn:E. 2:{ apply nth_error_None in E. lia. }
    assert (O : occ S c (Datatypes.S n) = occ S c n + if (c =? x)%N then 1 else 0).
    { unfold occ. rewrite (firstn_S_nth S n 0%N) by lia. rewrite filter_app, app_length, (nth_error_nth _ _ _ E). simpl. destruct (c =? x)%N; auto. }
    destruct (N.eqb_spec c x); [|lia]. subst. exists n. split; auto. lia. }
  apply (G (length S)); auto.
Qed.
Lemma select : forall S ml w i c, S <> [] -> wt_dom S ml -> wt_make S ml = Some w -> 1 <= i -> i <= occ S c (length S) ->
  exists p, wt_select w i c = Some (SPos p) /\ nth_error S p = Some c /\ occ S c p + 1 = i.
Proof.
  intros. destruct (occ_find S c i) as (p & A & B); auto. exists p. split; auto. rewrite <- B. eapply wt_select_ok; eauto using made.
Qed.
Lemma select_throw : forall S ml w i c, S <> [] -> wt_dom S ml -> wt_make S ml = Some w -> (c < 2 ^ N.of_nat (wt_L w))%N -> occ S c (length S) < i ->
  wt_select w i c = Some SThrow.
Proof. intros. eapply wt_select_throw; eauto using made. Qed.
Lemma lex_count : forall S ml w i j c, S <> [] -> wt_dom S ml -> wt_make S ml = Some w -> i <= j -> j <= length S ->
  wt_lex_count w i j c = Some (occ S c i, smaller c (slice S i j), greater c (slice S i j)).
Proof. intros. eapply wt_lex_count_ok; eauto using made. Qed.
Lemma lex_smaller_count : forall S ml w i c, S <> [] -> wt_dom S ml -> wt_make S ml = Some w -> i <= length S ->
  wt_lex_smaller_count w i c = Some (occ S c i, smaller c (slice S 0 i)).
Proof. intros. unfold slice. rewrite Nat.sub_0_r. eapply wt_lex_smaller_count_ok; eauto using made. Qed.
Lemma interval_symbols : forall S ml w i j cap, S <> [] -> wt_dom S ml -> wt_make S ml = Some w -> i <= j -> j <= length S -> distinct S <= cap ->
  exists r, wt_interval_symbols w i j cap = Some r /\ StronglySorted N.lt (map (fun z => fst (fst z)) r) /\
    (forall c a b, In (c, a, b) r <-> In c (slice S i j) /\ a = occ S c i /\ b = occ S c j).
Proof. intros. destruct (wt_interval_symbols_ok w S (made _ _ _ H H0 H1) i j cap) as (r & A & B & C); eauto. Qed.
Lemma range_search : forall S ml w lb rb vlb vrb report, S <> [] -> wt_dom S ml -> wt_make S ml = Some w ->
  (rb < length S \/ rb < lb) -> vlb <> (2 ^ N.of_nat (wt_L w))%N ->
  exists pts, wt_range_search_2d w lb rb vlb vrb report = Some (length (points S lb rb vlb vrb), pts) /\
    (if report then Permutation pts (points S lb rb vlb vrb) else pts = []).
Proof. intros. eapply wt_range_search_2d_ok; eauto using made. Qed.
