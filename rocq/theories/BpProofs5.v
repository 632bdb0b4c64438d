(** * Matching parentheses and excess; the queries of bp_support_sada *)
From Coq Require Import NArith ZArith List Bool Arith Lia.
From Verif Require Import Base SpecBits AbsVec WtBase WtProofs Bp SpecBp BpProofs BpProofs2 BpProofs3 BpProofs4.
Import ListNotations.
Open Scope nat_scope.

(** ** Existence of hits *)
Lemma first_dn : forall f T k a, (ex f a > T)%Z -> (ex f (a + k) <= T)%Z -> exists j, a <= j < a + k /\ ex f (S j) = T /\ forall q, a <= q <= j -> (ex f q > T)%Z.
Proof.
  induction k; intros a A E. - rewrite Nat.add_0_r in E. lia.
  - pose proof (ex_step f a) as S0. destruct (Z_le_gt_dec (ex f (S a)) T) as [L|L].
    + exists a. split; [lia|]. split; [lia|]. intros q Q. assert (q = a) by lia. subst. exact A.
    + destruct (IHk (S a)) as (j & J & E1 & M); [lia|replace (S a + k) with (a + S k) by lia; exact E|]. exists j. split; [lia|]. split; [exact E1|].
      intros q Q. destruct (Nat.eq_dec q a) as [->|N]; [exact A|apply M; lia].
Qed.
Lemma last_up : forall f T a k, (ex f a <= T)%Z -> (ex f (a + k) > T)%Z -> exists p, a <= p < a + k /\ ex f p = T /\ forall q, p < q <= a + k -> (ex f q > T)%Z.
Proof.
  induction k; intros A E. - rewrite Nat.add_0_r in E. lia.
  - replace (a + S k) with (S (a + k)) in * by lia. pose proof (ex_step f (a + k)) as S0. destruct (Z_le_gt_dec (ex f (a + k)) T) as [L|L].
    + exists (a + k). split; [lia|]. split; [lia|]. intros q Q. replace q with (S (a + k)) by lia. exact E.
    + destruct (IHk A ltac:(lia)) as (p & P & E1 & M). exists p. split; [lia|]. split; [exact E1|].
      intros q Q. destruct (Nat.eq_dec q (S (a + k))) as [->|N]; [exact E|apply M; lia].
Qed.

(** ** Balanced segments *)
Lemma balanced_ex : forall l, balanced l -> forall f a, (forall k, k < length l -> f (a + k) = nth k l false) ->
  ex f (a + length l) = ex f a /\ forall k, k <= length l -> (ex f a <= ex f (a + k))%Z.
Proof.
  induction 1 as [|x y X IX Y IY]; intros f a F.
  - cbn [length]. rewrite Nat.add_0_r. split; [reflexivity|]. intros k K. assert (k = 0) by lia. subst. rewrite Nat.add_0_r. lia.
  - cbn [length] in *. rewrite app_length in *. cbn [length] in *.
    assert (F0 : f a = true) by (specialize (F 0 ltac:(lia)); rewrite Nat.add_0_r in F; exact F).
    assert (E0 : ex f (S a) = (ex f a + 1)%Z) by (rewrite ex_S, F0; reflexivity).
    assert (FX : forall k, k < length x -> f (S a + k) = nth k x false).
    { intros k K. replace (S a + k) with (a + S k) by lia. rewrite F by lia. cbn [nth]. apply app_nth1. exact K. }
    destruct (IX f (S a) FX) as [X1 X2].
    assert (F1 : f (S a + length x) = false).
    { replace (S a + length x) with (a + S (length x)) by lia. rewrite F by lia. cbn [nth]. rewrite app_nth2 by lia. rewrite Nat.sub_diag. reflexivity. }
    assert (E1 : ex f (S (S a + length x)) = ex f a) by (rewrite ex_S, F1, X1, E0; cbn [stp]; lia).
    assert (FY : forall k, k < length y -> f (S (S a + length x) + k) = nth k y false).
    { intros k K. replace (S (S a + length x) + k) with (a + S (length x + S k)) by lia. rewrite F by lia. cbn [nth]. rewrite app_nth2 by lia. replace (length x + S k - length x) with (S k) by lia. reflexivity. }
    destruct (IY f (S (S a + length x)) FY) as [Y1 Y2]. split.
    + replace (a + S (length x + S (length y))) with (S (S a + length x) + length y) by lia. lia.
    + intros k K. destruct k as [|k]; [rewrite Nat.add_0_r; lia|]. destruct (Nat.le_gt_cases k (length x)) as [Q|Q].
      * specialize (X2 k Q). replace (a + S k) with (S a + k) by lia. lia.
      * specialize (Y2 (k - length x - 1) ltac:(lia)). replace (S (S a + length x) + (k - length x - 1)) with (a + S k) in Y2 by lia. lia.
Qed.
Lemma split_at : forall (l : list bool) i, i < length l -> l = firstn i l ++ nth i l false :: skipn (S i) l.
Proof.
  induction l; intros i H; [cbn in H; lia|]. destruct i; [reflexivity|]. cbn [firstn nth skipn app]. f_equal. apply IHl. cbn [length] in H. lia.
Qed.
Lemma ex_shift : forall f a k, ex (fun i => f (a + i)) k = (ex f (a + k) - ex f a)%Z.
Proof.
  induction k. - rewrite Nat.add_0_r. cbn [ex]. lia. - rewrite Nat.add_succ_r, !ex_S, IHk. lia.
Qed.
Lemma ex_ext : forall f f' k, (forall i, i < k -> f i = f' i) -> ex f k = ex f' k.
Proof. induction k; intros H; [reflexivity|]. rewrite !ex_S, IHk, H by (intros; auto; lia). reflexivity. Qed.
Lemma nth_fst : forall (l : list bool) k i, i < k -> nth i (firstn k l) false = nth i l false.
Proof. induction l; intros k i H; destruct k; try lia; [destruct i; reflexivity|]. destruct i; [reflexivity|]. cbn [firstn nth]. apply IHl. lia. Qed.
Lemma nth_skp : forall (l : list bool) k i, nth i (skipn k l) false = nth (k + i) l false.
Proof. induction l; intros k i; destruct k; try reflexivity; [destruct i; reflexivity|]. cbn [skipn Nat.add nth]. apply IHl. Qed.
Lemma ex_balanced : forall m l, length l <= m -> ex (fun i => nth i l false) (length l) = 0%Z -> (forall k, k <= length l -> (0 <= ex (fun i => nth i l false) k)%Z) -> balanced l.
Proof.
  induction m; intros l L E P; [destruct l; [constructor|cbn in L; lia]|].
  destruct l as [|b l]; [constructor|]. set (f := fun i => nth i (b :: l) false) in *. cbn [length] in *.
  assert (Bt : b = true). { specialize (P 1 ltac:(lia)). rewrite ex_S in P. unfold f at 2 in P. cbn [nth ex] in P. destruct b; [reflexivity|]. cbn [stp] in P. lia. } subst b.
  assert (E1 : ex f 1 = 1%Z) by reflexivity.
  destruct (first_dn f 0%Z (length l) 1) as (j & J & Ej & M); [lia|cbn [Nat.add]; rewrite E; lia|].
  assert (Fj : f j = false). { specialize (M j ltac:(lia)). rewrite ex_S in Ej. destruct (f j); [cbn [stp] in Ej; lia|reflexivity]. }
  assert (J1 : j - 1 < length l) by lia. pose proof (split_at l (j - 1) J1) as SP.
  assert (Nj : nth (j - 1) l false = false). { unfold f in Fj. replace j with (S (j - 1)) in Fj by lia. exact Fj. }
  rewrite Nj in SP. rewrite SP. replace (S (j - 1)) with j by lia.
  assert (L1 : length (firstn (j - 1) l) = j - 1) by (rewrite firstn_length; lia).
  assert (L2 : length (skipn j l) = length l - j) by (apply skipn_length).
  assert (X1 : forall k, k <= j - 1 -> ex (fun i => nth i (firstn (j - 1) l) false) k = (ex f (1 + k) - 1)%Z).
  { intros k K. transitivity (ex f (1 + k) - ex f 1)%Z; [|rewrite E1; reflexivity]. rewrite <- ex_shift. apply ex_ext. intros i I. unfold f. cbn [Nat.add nth]. apply nth_fst. lia. }
  assert (X2 : forall k, k <= length l - j -> ex (fun i => nth i (skipn j l) false) k = ex f (S j + k)).
  { intros k K. replace (ex f (S j + k)) with (ex f (S j + k) - ex f (S j))%Z by lia. rewrite <- ex_shift. apply ex_ext. intros i I. unfold f. cbn [Nat.add nth].
    apply nth_skp. }
  constructor; apply IHm.
  - lia.
  - rewrite L1, X1 by lia. replace (1 + (j - 1)) with j by lia. specialize (M j ltac:(lia)). pose proof (ex_step f j). lia.
  - intros k K. rewrite L1 in K. rewrite X1 by lia. specialize (M (1 + k) ltac:(lia)). lia.
  - lia.
  - rewrite L2, X2 by lia. replace (S j + (length l - j)) with (S (length l)) by lia. exact E.
  - intros k K. rewrite L2 in K. rewrite X2 by lia. apply P. lia.
Qed.

Section M.
Variable g : padding.
Variable bp : list bool.
Let f := xb g bp.
Let n := length bp.
Lemma f_in : forall i, i < n -> f i = nth i bp false.
Proof. intros. unfold f, xb. apply nth_indep. exact H. Qed.

Lemma match_ex : forall i j, matches bp i j -> i < j < n /\ f i = true /\ f j = false /\ ex f (S j) = ex f i /\ forall k, i < k <= j -> (ex f k > ex f i)%Z.
Proof.
  intros i j (pre & mid & suf & E & Bm & -> & ->). assert (L : n = length pre + S (length mid + S (length suf))) by (unfold n; rewrite E, app_length; cbn [length]; rewrite app_length; reflexivity).
  assert (F0 : f (length pre) = true). { rewrite f_in by lia. rewrite E, app_nth2, Nat.sub_diag by lia. reflexivity. }
  assert (F1 : f (length pre + 1 + length mid) = false).
  { rewrite f_in by lia. rewrite E, app_nth2 by lia. replace (length pre + 1 + length mid - length pre) with (S (length mid)) by lia. cbn [nth]. rewrite app_nth2, Nat.sub_diag by lia. reflexivity. }
  assert (FM : forall k, k < length mid -> f (S (length pre) + k) = nth k mid false).
  { intros k K. rewrite f_in by lia. rewrite E, app_nth2 by lia. replace (S (length pre) + k - length pre) with (S k) by lia. cbn [nth]. apply app_nth1. exact K. }
  destruct (balanced_ex mid Bm f (S (length pre)) FM) as [X1 X2].
  assert (E0 : ex f (S (length pre)) = (ex f (length pre) + 1)%Z) by (rewrite ex_S, F0; reflexivity).
  split; [lia|]. split; [exact F0|]. split; [exact F1|]. split.
  - rewrite ex_S, F1. cbn [stp]. replace (length pre + 1 + length mid) with (S (length pre) + length mid) by lia. lia.
  - intros k K. specialize (X2 (k - S (length pre)) ltac:(lia)). replace (S (length pre) + (k - S (length pre))) with k in X2 by lia. lia.
Qed.
Lemma ex_match : forall i j, i < j < n -> f i = true -> ex f (S j) = ex f i -> (forall k, i < k <= j -> (ex f k > ex f i)%Z) -> matches bp i j.
Proof.
  intros i j L F E M. assert (Fj : f j = false). { pose proof (M j ltac:(lia)). rewrite ex_S in E. destruct (f j); [cbn [stp] in E; lia|reflexivity]. }
  assert (E0 : ex f (S i) = (ex f i + 1)%Z) by (rewrite ex_S, F; reflexivity).
  pose proof (split_at bp i ltac:(fold n; lia)) as S1. rewrite <- f_in, F in S1 by lia.
  set (rest := skipn (S i) bp) in *. assert (LR : length rest = n - S i) by (unfold rest, n; apply skipn_length).
  pose proof (split_at rest (j - S i) ltac:(lia)) as S2. assert (Nr : forall k, nth k rest false = nth (S i + k) bp false).
  { intros k. rewrite S1. assert (LF : length (firstn i bp) = i) by (rewrite firstn_length; fold n; lia). rewrite app_nth2 by lia. rewrite LF. replace (S i + k - i) with (S k) by lia. reflexivity. }
  rewrite (Nr (j - S i)) in S2. replace (S i + (j - S i)) with j in S2 by lia. rewrite <- f_in, Fj in S2 by lia. set (mid := firstn (j - S i) rest) in *.
  assert (LM : length mid = j - S i) by (unfold mid; rewrite firstn_length; lia).
  exists (firstn i bp), mid, (skipn (S (j - S i)) rest). split; [rewrite <- S2; exact S1|]. assert (LF : length (firstn i bp) = i) by (rewrite firstn_length; fold n; lia). rewrite LF.
  split; [|split; [reflexivity|lia]].
  assert (X : forall k, k <= j - S i -> ex (fun q => nth q mid false) k = (ex f (S i + k) - ex f (S i))%Z).
  { intros k K. rewrite <- ex_shift. apply ex_ext. intros q Q. rewrite f_in by lia. rewrite <- Nr. rewrite S2. rewrite app_nth1 by lia. reflexivity. }
  apply (ex_balanced (length mid)); [lia| |].
  - rewrite LM, X by lia. replace (S i + (j - S i)) with j by lia. pose proof (M j ltac:(lia)). pose proof (ex_step f j). lia.
  - intros k K. rewrite LM in K. rewrite X by lia. pose proof (M (S i + k) ltac:(lia)). lia.
Qed.

Lemma encl_ex : forall k i, i < n -> f i = true -> encl bp k i -> k < i /\ f k = true /\ ex f k = (ex f i - 1)%Z /\ forall q, k < q <= i -> (ex f q > ex f k)%Z.
Proof.
  intros k i I Fi ((m & M & L) & U). destruct (match_ex k m M) as (M1 & M2 & M3 & M4 & M5).
  split; [lia|]. split; [exact M2|]. assert (X : ex f k = (ex f i - 1)%Z); [|split; [exact X|intros; apply M5; lia]].
  pose proof (M5 i ltac:(lia)) as Gi. destruct (Z.eq_dec (ex f k) (ex f i - 1)) as [|N]; [assumption|]. exfalso.
  destruct (last_up f (ex f i - 1)%Z k (i - k)) as (q & Q & Eq & Mq); [lia|replace (k + (i - k)) with i by lia; lia|]. replace (k + (i - k)) with i in * by lia.
  assert (Qk : k < q) by (destruct (Nat.eq_dec q k); [subst; lia|lia]).
  destruct (first_dn f (ex f q) (m - q) (S q)) as (j & J & Ej & Mj); [pose proof (Mq (S q) ltac:(lia)); lia|replace (S q + (m - q)) with (S m) by lia; lia|].
  assert (Fq : f q = true). { pose proof (Mq (S q) ltac:(lia)) as Z0. rewrite ex_S in Z0. destruct (f q); [reflexivity|cbn [stp] in Z0; lia]. }
  assert (Ei : ex f (S i) = (ex f i + 1)%Z) by (rewrite ex_S, Fi; reflexivity).
  assert (Ji : i < j).
  { destruct (Nat.lt_ge_cases i j) as [|G]; [assumption|]. exfalso. destruct (Nat.eq_dec j i) as [->|]; [lia|]. pose proof (Mq (S j) ltac:(lia)). lia. }
  assert (MA : matches bp q j) by (apply ex_match; [lia|exact Fq|exact Ej|intros; apply Mj; lia]).
  assert (AR : around bp q i) by (exists j; split; [exact MA|lia]). pose proof (U q AR). lia.
Qed.
Lemma bal_total : balanced bp -> ex f n = 0%Z /\ forall k, k <= n -> (0 <= ex f k)%Z.
Proof.
  intros Bb. destruct (balanced_ex bp Bb f 0) as [X Y]; [intros k K; apply f_in; exact K|]. split; [exact X|]. intros k K. specialize (Y k K). exact Y.
Qed.
Lemma bal_close : balanced bp -> forall i, i < n -> f i = true -> exists j, matches bp i j.
Proof.
  intros Bb i I Fi. destruct (bal_total Bb) as [T P]. assert (E0 : ex f (S i) = (ex f i + 1)%Z) by (rewrite ex_S, Fi; reflexivity).
  destruct (first_dn f (ex f i) (n - S i) (S i)) as (j & J & Ej & Mj); [lia|replace (S i + (n - S i)) with n by lia; rewrite T; apply P; lia|].
  exists j. apply ex_match; [lia|exact Fi|exact Ej|intros; apply Mj; lia].
Qed.
Lemma bal_open : balanced bp -> forall j, j < n -> f j = false -> exists i, matches bp i j.
Proof.
  intros Bb j J Fj. destruct (bal_total Bb) as [T P]. assert (E0 : ex f (S j) = (ex f j - 1)%Z) by (rewrite ex_S, Fj; reflexivity). pose proof (P (S j) ltac:(lia)) as Pj.
  destruct (last_up f (ex f (S j)) 0 j) as (i & I & Ei & Mi); [change (ex f 0) with 0%Z; lia|change (0 + j) with j; lia|]. cbn [Nat.add] in *.
  assert (Fi : f i = true). { pose proof (Mi (S i) ltac:(lia)) as Z0. rewrite ex_S in Z0. destruct (f i); [reflexivity|cbn [stp] in Z0; lia]. }
  exists i. apply ex_match; [lia|exact Fi|lia|intros; rewrite Ei; apply Mi; lia].
Qed.
Lemma encl_none : balanced bp -> forall i, i < n -> f i = true -> (forall k, ~ around bp k i) -> forall k, k <= i -> (ex f k > ex f i - 1)%Z.
Proof.
  intros Bb i I Fi N k K. destruct (Z_le_gt_dec (ex f k) (ex f i - 1)) as [L|]; [|assumption]. exfalso. destruct (bal_total Bb) as [T P].
  destruct (last_up f (ex f i - 1)%Z k (i - k)) as (q & Q & Eq & Mq); [lia|replace (k + (i - k)) with i by lia; lia|]. replace (k + (i - k)) with i in * by lia.
  assert (Fq : f q = true). { pose proof (Mq (S q) ltac:(lia)) as Z0. rewrite ex_S in Z0. destruct (f q); [reflexivity|cbn [stp] in Z0; lia]. }
  assert (Ei : ex f (S i) = (ex f i + 1)%Z) by (rewrite ex_S, Fi; reflexivity).
  destruct (bal_close Bb q ltac:(lia) Fq) as (j & J). destruct (match_ex q j J) as (J1 & _ & _ & J4 & J5). apply (N q). exists j. split; [exact J|]. split; [lia|].
  destruct (Nat.lt_ge_cases i j) as [|G]; [assumption|]. exfalso. destruct (Nat.eq_dec j i) as [->|]; [lia|]. pose proof (Mq (S j) ltac:(lia)). lia.
Qed.
Lemma anc_ex : forall i d j, ancestor bp i d j -> i < n -> f i = true -> j <= i /\ ex f j = (ex f i - Z.of_nat d)%Z /\ forall q, j < q <= i -> (ex f q > ex f j)%Z.
Proof.
  induction 1 as [i|i d k j E A IH]; intros I Fi.
  - split; [lia|]. split; [lia|]. intros q Q. lia.
  - destruct (encl_ex k i I Fi E) as (E1 & E2 & E3 & E4). destruct (IH ltac:(lia) E2) as (H1 & H2 & H3). split; [lia|]. split; [lia|].
    intros q Q. destruct (Nat.le_gt_cases q k) as [L|L]; [apply H3; lia|]. pose proof (E4 q ltac:(lia)). lia.
Qed.
End M.

Lemma get_f : forall g bp i, i < length bp -> t_get bp i = Some (xb g bp i).
Proof. intros. rewrite t_get_some by exact H. f_equal. unfold xb, t_bit. apply nth_indep. exact H. Qed.

Lemma not_nil : forall (bp : list bool) i, i < length bp -> bp <> [].
Proof. intros. destruct bp; [cbn in H; lia|discriminate]. Qed.

Section Th.
Variable g : padding.
Variables B deg : nat.
Hypothesis HB : B mod 8 = 0.
Hypothesis HB0 : 0 < B.
Lemma HBc : B = 8 * (B / 8) /\ 0 < B / 8.
Proof. pose proof (Nat.div_mod B 8 ltac:(lia)). lia. Qed.

Theorem find_close_ok : 0 < deg -> forall bp i j, matches bp i j -> exists t, bp_make B deg bp = Some t /\ find_close g B deg bp t i = Some j /\ find_close g B deg bp t j = Some j.
Proof.
  intros Hd bp i j M. destruct (match_ex g bp i j M) as (M1 & M2 & M3 & M4 & M5). destruct HBc as [E8 P8].
  destruct (make_ok g B deg bp HB0 Hd (not_nil bp j ltac:(lia))) as (t & h & T & OK). exists t. split; [exact T|]. unfold find_close. rewrite !(get_f g) by lia. cbn [obind]. rewrite M2, M3. cbn [negb]. split; [|reflexivity].
  assert (E0 : ex (xb g bp) (S i) = (ex (xb g bp) i + 1)%Z) by (rewrite ex_S, M2; reflexivity).
  apply (fwd_excess_ok g bp B deg h (B / 8) t E8 P8 Hd ltac:(lia) OK); [lia|lia|lia|]. intros k K. specialize (M5 k ltac:(lia)). lia.
Qed.
Theorem find_open_ok : 2 <= deg -> forall bp i j, matches bp i j -> exists t, bp_make B deg bp = Some t /\ find_open g B deg bp t j = Some i /\ find_open g B deg bp t i = Some i.
Proof.
  intros Hd bp i j M. destruct (match_ex g bp i j M) as (M1 & M2 & M3 & M4 & M5). destruct HBc as [E8 P8].
  destruct (make_ok g B deg bp HB0 ltac:(lia) (not_nil bp j ltac:(lia))) as (t & h & T & OK). exists t. split; [exact T|]. unfold find_open. rewrite !(get_f g) by lia. cbn [obind]. rewrite M2, M3. split; [|reflexivity].
  rewrite (bwd_excess_ok g bp B deg h (B / 8) t E8 P8 ltac:(lia) ltac:(lia) OK j i 0%Z Hd); [|lia|lia|lia|intros k K; specialize (M5 k ltac:(lia)); lia].
  cbn [obind]. unfold bwd_result. rewrite (proj2 (Z.eqb_neq _ _)) by lia. f_equal. lia.
Qed.
Theorem enclose_ok : 2 <= deg -> forall bp i k, nth i bp false = true -> encl bp k i -> exists t, bp_make B deg bp = Some t /\ enclose g B deg bp t i = Some k.
Proof.
  intros Hd bp i k F E. assert (I : i < length bp). { destruct (Nat.lt_ge_cases i (length bp)); [assumption|]. rewrite nth_overflow in F by assumption. discriminate. }
  assert (Fi : xb g bp i = true) by (rewrite f_in; assumption).
  destruct (encl_ex g bp k i I Fi E) as (M1 & M2 & M3 & M4). destruct HBc as [E8 P8].
  destruct (make_ok g B deg bp HB0 ltac:(lia) (not_nil bp i I)) as (t & h & T & OK). exists t. split; [exact T|]. unfold enclose. rewrite (get_f g) by exact I. cbn [obind]. rewrite Fi. cbn [negb].
  assert (E0 : ex (xb g bp) (S i) = (ex (xb g bp) i + 1)%Z) by (rewrite ex_S, Fi; reflexivity).
  rewrite (bwd_excess_ok g bp B deg h (B / 8) t E8 P8 ltac:(lia) ltac:(lia) OK i k (-2)%Z Hd); [|lia|lia|lia|intros q Q; specialize (M4 q ltac:(lia)); lia].
  cbn [obind]. unfold bwd_result. rewrite (proj2 (Z.eqb_neq _ _)) by lia. f_equal. lia.
Qed.
Theorem enclose_none : 2 <= deg -> forall bp i, balanced bp -> nth i bp false = true -> (forall k, ~ around bp k i) -> exists t, bp_make B deg bp = Some t /\ enclose g B deg bp t i = Some (length bp).
Proof.
  intros Hd bp i Bb F N. assert (I : i < length bp). { destruct (Nat.lt_ge_cases i (length bp)); [assumption|]. rewrite nth_overflow in F by assumption. discriminate. }
  assert (Fi : xb g bp i = true) by (rewrite f_in; assumption). destruct HBc as [E8 P8]. pose proof (encl_none g bp Bb i I Fi N) as M.
  destruct (make_ok g B deg bp HB0 ltac:(lia) (not_nil bp i I)) as (t & h & T & OK). exists t. split; [exact T|]. unfold enclose. rewrite (get_f g) by exact I. cbn [obind]. rewrite Fi. cbn [negb].
  assert (E0 : ex (xb g bp) (S i) = (ex (xb g bp) i + 1)%Z) by (rewrite ex_S, Fi; reflexivity).
  rewrite (bwd_excess_none g bp B deg h (B / 8) t E8 P8 ltac:(lia) ltac:(lia) OK i (-2)%Z Hd I); [|lia|intros k K; specialize (M k K); lia].
  cbn [obind]. unfold bwd_result. rewrite Z.eqb_refl. reflexivity.
Qed.
Theorem level_anc_ok : 2 <= deg -> forall bp i d j, 0 < i -> nth i bp false = true -> ancestor bp i d j -> exists t, bp_make B deg bp = Some t /\ level_anc g B deg bp t i d = Some j.
Proof.
  intros Hd bp i d j I0 F A. assert (I : i < length bp). { destruct (Nat.lt_ge_cases i (length bp)); [assumption|]. rewrite nth_overflow in F by assumption. discriminate. }
  assert (Fi : xb g bp i = true) by (rewrite f_in; assumption). destruct (anc_ex g bp i d j A I Fi) as (M1 & M2 & M3). destruct HBc as [E8 P8].
  destruct (make_ok g B deg bp HB0 ltac:(lia) (not_nil bp i I)) as (t & h & T & OK). exists t. split; [exact T|]. unfold level_anc.
  assert (E0 : ex (xb g bp) (S i) = (ex (xb g bp) i + 1)%Z) by (rewrite ex_S, Fi; reflexivity).
  rewrite (bwd_excess_ok g bp B deg h (B / 8) t E8 P8 ltac:(lia) ltac:(lia) OK i j (- Z.of_nat d - 1)%Z Hd); [|lia|lia|lia|intros q Q; specialize (M3 q ltac:(lia)); lia].
  cbn [obind]. unfold bwd_result. rewrite (proj2 (Z.eqb_neq _ _)) by lia. f_equal. lia.
Qed.
End Th.

(** every position of a balanced sequence has a partner *)
Theorem balanced_match : forall bp i, balanced bp -> i < length bp -> exists j, if nth i bp false then matches bp i j else matches bp j i.
Proof.
  intros bp i Bb I. pose proof (f_in (fun _ => false) bp i I) as F. destruct (nth i bp false) eqn:E.
  - exact (bal_close (fun _ => false) bp Bb i I F). - exact (bal_open (fun _ => false) bp Bb i I F).
Qed.
(** the partner is unique *)
Theorem match_unique : forall bp i j j', matches bp i j -> matches bp i j' -> j = j'.
Proof.
  intros bp i j j' A A'. destruct (match_ex (fun _ => false) bp i j A) as (L & _ & _ & E & M). destruct (match_ex (fun _ => false) bp i j' A') as (L' & _ & _ & E' & M').
  destruct (Nat.lt_trichotomy j j') as [Q|[Q|Q]]; [|exact Q|].
  - specialize (M' (S j) ltac:(lia)). lia. - specialize (M (S j') ltac:(lia)). lia.
Qed.
Theorem partner : forall bp i, balanced bp -> i < length bp -> exists j, (if nth i bp false then matches bp i j else matches bp j i) /\ forall j', matches bp i j -> matches bp i j' -> j' = j.
Proof. intros bp i Bb I. destruct (balanced_match bp i Bb I) as (j & J). exists j. split; [exact J|]. intros j' A A'. exact (match_unique bp i j' j A' A). Qed.

Lemma excess_count : forall bp i, i < length bp -> exc bp (i + 1) =
  Some (Z.of_nat (length (filter (fun b => b) (firstn (i + 1) bp))) - Z.of_nat (length (filter negb (firstn (i + 1) bp))))%Z.
Proof.
  intros bp i I. rewrite (exc_ok (fun _ => false)) by lia. f_equal. assert (L : i + 1 <= length bp) by lia. revert L. generalize (i + 1). clear I. intros m. induction m; intros L; [reflexivity|].
  rewrite ex_S, IHm by lia. assert (E : firstn (S m) bp = firstn m bp ++ [nth m bp false]).
  { clear IHm. revert m L. induction bp; intros m L; [cbn in L; lia|]. destruct m; [reflexivity|]. cbn [firstn app nth]. f_equal. apply IHbp. cbn [length] in L. lia. }
  rewrite E, !filter_app, !app_length. unfold xb. destruct (nth m bp false); cbn [filter negb length stp]; lia.
Qed.
