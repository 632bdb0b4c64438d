(** * forward_search *)
From Coq Require Import List Arith Bool Lia Permutation.
From Verif Require Import Base SpecBits RankSelect AbsVec FnArr WtBase WtProofs SpecCsa Alphabet AlphabetProofs Csa CsaProofs CsaProofs2 CsaProofs4.
Import ListNotations.

Section Fs.
Variables (M : nat) (T sa : list nat) (x : csa).
Hypothesis TOK : text_ok T.
Hypothesis SA : is_sa T sa.
Hypothesis COK : csa_ok M T sa x.
Let AO := co_al _ _ _ _ COK.

Fixpoint fcmp (P s : list nat) : comparison :=
  match P, s with
  | [], _ => Eq
  | _ :: _, [] => Gt
  | c :: P', y :: s' =>
    if in_dec Nat.eq_dec c T then if c <? y then Lt else if y <? c then Gt else fcmp P' s' else Lt
  end.
Lemma fcmp_Lt : forall P s s', lex_lt s s' -> fcmp P s = Lt -> fcmp P s' = Lt.
Proof.
  induction P as [|c P IH]; intros s s' L E; [discriminate|]. destruct s as [|y s]; [discriminate|]. destruct s' as [|y' s']; [cbn in L; tauto|].
  cbn [fcmp lex_lt] in *. destruct (in_dec Nat.eq_dec c T); auto. destruct (Nat.ltb_spec c y), (Nat.ltb_spec y c), (Nat.ltb_spec c y'), (Nat.ltb_spec y' c); auto; try discriminate; try lia.
  destruct L as [L|[_ L]]; [lia|]. eapply IH; eauto.
Qed.
Lemma fcmp_Gt : forall P s s', lex_lt s s' -> fcmp P s' = Gt -> fcmp P s = Gt.
Proof.
  induction P as [|c P IH]; intros s s' L E; [destruct s'; discriminate|]. destruct s as [|y s]; [reflexivity|]. destruct s' as [|y' s']; [cbn in L; tauto|].
  cbn [fcmp lex_lt] in *. destruct (in_dec Nat.eq_dec c T); auto. destruct (Nat.ltb_spec c y), (Nat.ltb_spec y c), (Nat.ltb_spec c y'), (Nat.ltb_spec y' c); auto; try discriminate; try lia.
  destruct L as [L|[_ L]]; [lia|]. eapply IH; eauto.
Qed.
Lemma fcmp_Eq : forall P p, p <= n T -> (fcmp P (sx T p) = Eq <-> prefixb P (sx T p) = true).
Proof.
  induction P as [|c P IH]; intros p L. { cbn. split; auto. } destruct (Nat.eq_dec p (n T)) as [-> | N]. { unfold sx, n. rewrite skipn_all. cbn. split; discriminate. }
  assert (PL : p < n T) by lia. rewrite (sx_cons T p PL). cbn [fcmp prefixb]. destruct (in_dec Nat.eq_dec c T) as [I|I].
  - destruct (Nat.ltb_spec c (tx T p)), (Nat.ltb_spec (tx T p) c), (Nat.eqb_spec c (tx T p)); cbn [andb]; try lia; try (split; discriminate). apply IH. lia.
  - split; [discriminate|]. intros X. apply andb_true_iff in X. destruct X as [X _]. apply Nat.eqb_eq in X. exfalso. apply I. subst c. apply nth_In. auto.
Qed.
Lemma fs_compare_ok : forall P i, (forall c, In c P -> 0 < c < M) -> i < n T -> fs_compare x P i = Some (fcmp P (sx T (row sa i))).
Proof.
  induction P as [|c P IH]; intros i H I; [reflexivity|]. pose proof (row_lt T sa SA i I) as RL. cbn [fs_compare]. rewrite (sx_cons T _ RL). cbn [fcmp].
  pose proof (H c (or_introl eq_refl)) as C. destruct (in_dec Nat.eq_dec c T) as [IN|IN].
  - rewrite (ao_c2c _ _ _ AO) by auto. cbn [obind].
    pose proof (proj2 (dless_lt_iff T 0 c (zero_in T TOK) IN) ltac:(lia)) as DP. destruct (Nat.eqb_spec (dless T c) 0) as [Z|Z]; [lia|].
    rewrite (C_next _ _ _ AO) by auto. cbn [obind]. pose proof (less_lt T sa SA c IN) as LL. rewrite csub_le by lia. cbn [obind].
    pose proof (first_col T sa TOK SA i I) as FC. set (y := tx T (row sa i)) in *.
    destruct (Nat.ltb_spec (less T (S c) - 1) i) as [A|A].
    { replace (c <? y) with true; auto. symmetry. apply Nat.ltb_lt. destruct (Nat.lt_ge_cases c y) as [|G]; auto. pose proof (less_mono T (S y) (S c) ltac:(lia)). lia. }
    rewrite (ao_C _ _ _ AO) by auto. cbn [obind]. replace (c <? y) with false. 2: { symmetry. apply Nat.ltb_ge. destruct (Nat.le_gt_cases y c) as [|G]; auto. pose proof (less_mono T (S c) y ltac:(lia)). lia. }
    destruct (Nat.ltb_spec i (less T c)) as [B|B].
    { replace (y <? c) with true; auto. symmetry. apply Nat.ltb_lt. destruct (Nat.lt_ge_cases y c) as [|G]; auto. pose proof (less_mono T c y ltac:(lia)). lia. }
    replace (y <? c) with false. 2: { symmetry. apply Nat.ltb_ge. destruct (Nat.le_gt_cases c y) as [|G]; auto. pose proof (less_mono T (S y) c ltac:(lia)). lia. }
    rewrite (co_psi _ _ _ _ COK) by auto. cbn [obind]. rewrite IH; [|intros d D; apply H; right; auto|apply psiv_lt; auto].
    f_equal. f_equal. rewrite row_psiv by auto. f_equal. unfold nx. destruct (Nat.eqb_spec (row sa i) (n T - 1)) as [E|E]; [|lia].
    exfalso. assert (y = 0) by (unfold y; rewrite E; apply tx_last; auto). assert (y <= c) by (destruct (Nat.le_gt_cases y c) as [|G]; auto; pose proof (less_mono T (S c) y ltac:(lia)); lia).
    assert (c <= y) by (destruct (Nat.le_gt_cases c y) as [|G]; auto; pose proof (less_mono T (S y) c ltac:(lia)); lia). lia.
  - rewrite (ao_abs _ _ _ AO) by (auto; lia). reflexivity.
Qed.

Definition isGt (P : list nat) j := match fcmp P (sx T (row sa j)) with Gt => true | _ => false end.
Definition isLt (P : list nat) j := match fcmp P (sx T (row sa j)) with Lt => true | _ => false end.
Lemma fs_min_ok : forall P, (forall c, In c P -> 0 < c < M) -> forall f l u, l <= u -> u <= n T -> u - l < f ->
  exists k, fs_min f x P l u = Some k /\ l <= k <= u /\ (forall j, l <= j < k -> isGt P j = true) /\ (k < u -> isGt P k = false).
Proof.
  intros P H. induction f; intros l u L U F; [lia|]. cbn [fs_min]. destruct (Nat.ltb_spec l u) as [LU|LU].
  - set (m := l + (u - l) / 2). assert (MB : l <= m < u). { unfold m. assert ((u - l) / 2 < u - l) by (apply Nat.div_lt; lia). lia. } clearbody m.
    rewrite fs_compare_ok by (auto; lia). cbn [obind].
    assert (MONO : forall j, l <= j <= m -> isGt P m = true -> isGt P j = true).
    { intros j J G. destruct (Nat.eq_dec j m) as [-> | N]; auto. unfold isGt in *. pose proof (row_sx T sa SA j m ltac:(lia)) as LX.
      destruct (fcmp P (sx T (row sa m))) eqn:E; try discriminate. rewrite (fcmp_Gt P _ _ LX E). auto. }
    assert (MF : isGt P m = false -> exists k, fs_min f x P l m = Some k /\ l <= k <= u /\ (forall j, l <= j < k -> isGt P j = true) /\ (k < u -> isGt P k = false)).
    { intros E. destruct (IHf l m) as (k & E1 & E2 & E3 & E4); try lia. exists k. split; auto. split; [lia|]. split; auto. intros _. destruct (Nat.eq_dec k m) as [-> | N]; auto. apply E4. lia. }
    unfold isGt in MONO at 1, MF at 1. destruct (fcmp P (sx T (row sa m))) eqn:E; [apply MF; auto | apply MF; auto |].
    destruct (IHf (m + 1) u) as (k & E1 & E2 & E3 & E4); try lia. exists k. split; auto. split; [lia|]. split; auto.
    intros j J. destruct (Nat.le_gt_cases j m); [apply MONO; auto; lia | apply E3; lia].
  - exists l. split; auto. split; [lia|]. split; [intros; lia | intros; lia].
Qed.
Lemma fs_max_ok : forall P, (forall c, In c P -> 0 < c < M) -> forall f r u, r <= u -> u <= n T -> u - r < f ->
  exists k, fs_max f x P r u = Some k /\ r <= k <= u /\ (forall j, r <= j < k -> isLt P j = false) /\ (k < u -> isLt P k = true).
Proof.
  intros P H. induction f; intros r u L U F; [lia|]. cbn [fs_max]. destruct (Nat.ltb_spec r u) as [LU|LU].
  - set (m := r + (u + 1 - r) / 2 - 1). assert (MB : r <= m < u).
    { unfold m. assert (1 <= (u + 1 - r) / 2) by (apply Nat.div_le_lower_bound; lia). assert ((u + 1 - r) / 2 < u + 1 - r) by (apply Nat.div_lt; lia). lia. } clearbody m.
    rewrite fs_compare_ok by (auto; lia). cbn [obind].
    assert (MONO : forall j, r <= j <= m -> isLt P m = false -> isLt P j = false).
    { intros j J G. destruct (Nat.eq_dec j m) as [-> | N]; auto. unfold isLt in *. pose proof (row_sx T sa SA j m ltac:(lia)) as LX.
      destruct (fcmp P (sx T (row sa j))) eqn:E; auto. rewrite (fcmp_Lt P _ _ LX E) in G. discriminate. }
    assert (MF : isLt P m = false -> exists k, fs_max f x P (m + 1) u = Some k /\ r <= k <= u /\ (forall j, r <= j < k -> isLt P j = false) /\ (k < u -> isLt P k = true)).
    { intros E. destruct (IHf (m + 1) u) as (k & E1 & E2 & E3 & E4); try lia. exists k. split; auto. split; [lia|]. split; auto.
      intros j J. destruct (Nat.le_gt_cases j m); [apply MONO; auto; lia | apply E3; lia]. }
    unfold isLt in MF at 1. destruct (fcmp P (sx T (row sa m))) eqn:E; [apply MF; auto | | apply MF; auto].
    destruct (IHf r m) as (k & E1 & E2 & E3 & E4); try lia. exists k. split; auto. split; [lia|]. split; auto. intros _. destruct (Nat.eq_dec k m) as [-> | N]; [|apply E4; lia]. unfold isLt. rewrite E. auto.
  - exists r. split; auto. split; [lia|]. split; [intros; lia | intros; lia].
Qed.
Theorem forward_ok : forall P l r, (forall c, In c P -> 0 < c < M) -> l <= r <= n T ->
  exists l' r', forward_search x l r P = Some (l', r') /\ l <= l' <= r' /\ r' <= r /\
    forall j, l <= j < r -> (l' <= j < r' <-> occurs_at T P (row sa j)).
Proof.
  intros P l r H B. unfold forward_search. rewrite (co_n _ _ _ _ COK). fold (n T). destruct (Nat.leb_spec (n T) (length P)) as [L|L].
  - exists l, l. split; auto. split; [lia|]. split; [lia|]. intros j J. split; [lia|]. intros O. exfalso.
    (* an occurrence would contain the final 0 *)
    pose proof (row_lt T sa SA j ltac:(lia)) as RL. unfold occurs_at in O. assert (LO : length (firstn (length P) (skipn (row sa j) T)) = length P) by (rewrite O; auto).
    rewrite firstn_length, skipn_length in LO. fold (n T) in LO. assert (row sa j = 0) by lia. rewrite H0 in O. cbn [skipn] in O. rewrite firstn_all2 in O by (unfold n in *; lia).
    pose proof (zero_in T TOK) as Z. rewrite O in Z. apply H in Z. lia.
  - destruct (fs_min_ok P H (S (r - l)) l r) as (a & A1 & A2 & A3 & A4); try lia. destruct (fs_max_ok P H (S (r - l)) l r) as (b & B1 & B2 & B3 & B4); try lia.
    rewrite A1. cbn [obind]. rewrite B1. cbn [obind].
    assert (AB : a <= b). { destruct (Nat.le_gt_cases a b) as [|G]; auto. exfalso. pose proof (A3 b ltac:(lia)) as X. pose proof (B4 ltac:(lia)) as Y. unfold isGt, isLt in *. destruct (fcmp P (sx T (row sa b))); discriminate. }
    exists a, b. split; auto. split; [lia|]. split; [lia|]. intros j J. rewrite occ_iff. pose proof (row_lt T sa SA j ltac:(lia)) as RL. rewrite <- fcmp_Eq by lia. split.
    + intros X. assert (GF : isGt P j = false).
      { destruct (Nat.eq_dec a j) as [-> | N]. { apply A4. lia. } pose proof (A4 ltac:(lia)) as Y. pose proof (row_sx T sa SA a j ltac:(lia)) as LX. unfold isGt in *. destruct (fcmp P (sx T (row sa j))) eqn:E; auto. rewrite (fcmp_Gt P _ _ LX E) in Y. discriminate. }
      pose proof (B3 j ltac:(lia)) as LF. unfold isGt, isLt in *. destruct (fcmp P (sx T (row sa j))); auto; discriminate.
    + intros E. split.
      * destruct (Nat.le_gt_cases a j) as [|G]; auto. pose proof (A3 j ltac:(lia)) as X. unfold isGt in X. rewrite E in X. discriminate.
      * destruct (Nat.lt_ge_cases j b) as [|G]; auto. exfalso. pose proof (B4 ltac:(lia)) as Y. unfold isLt in Y. destruct (Nat.eq_dec b j) as [<- | N]. { rewrite E in Y. discriminate. }
        pose proof (row_sx T sa SA b j ltac:(lia)) as LX. destruct (fcmp P (sx T (row sa b))) eqn:E'; try discriminate. rewrite (fcmp_Lt P _ _ LX E') in E. discriminate.
Qed.
End Fs.
