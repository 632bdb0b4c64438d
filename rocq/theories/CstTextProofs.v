(** * LCP intervals as sets of suffixes with a common prefix *)
From Coq Require Import NArith List Bool Arith Lia Permutation.
From Verif Require Import Base SpecBits RankSelect AbsVec WtBase WtProofs SpecCsa Alphabet AlphabetProofs Csa CsaProofs CsaProofs2 SpecLcp LcpProofs SpecCst SpecCstText CstProofs CstProofs5 CstProofs6.
Import ListNotations.
Open Scope nat_scope.

Lemma lcp3 : forall a b c, lex_lt a b -> lex_lt b c -> lcp a c = Nat.min (lcp a b) (lcp b c).
Proof.
  induction a as [|x a IH]; intros [|y b] [|z c]; cbn [lex_lt lcp]; try tauto; intros H K; try (rewrite ?Nat.min_0_l, ?Nat.min_0_r; reflexivity).
  destruct H as [H|[-> H]], K as [K|[K1 K]].
  1,2: destruct (Nat.eqb_spec x z), (Nat.eqb_spec x y), (Nat.eqb_spec y z); lia.
  - destruct (Nat.eqb_spec y z), (Nat.eqb_spec y y); lia.
  - subst z. rewrite !Nat.eqb_refl. rewrite (IH b c H K). lia.
Qed.
Lemma occ_lcp : forall P s t, firstn (length P) s = P -> (firstn (length P) t = P <-> length P <= lcp s t).
Proof.
  induction P as [|p P IH]; intros s t H; cbn [length firstn] in *; [split; auto; lia|]. destruct s as [|a s]; [discriminate|]. injection H as -> H. destruct t as [|b t]; cbn [lcp]; [split; [discriminate|lia]|].
  destruct (Nat.eqb_spec p b) as [->|NE]; [rewrite <- Nat.succ_le_mono, <- (IH s t H); split; [intros E; injection E; auto|intros ->; auto]|split; [intros E; injection E; intros; congruence|lia]].
Qed.
Lemma lex_at : forall s t, lex_lt s t -> lcp s t < length s -> lcp s t < length t -> nth (lcp s t) s 0 < nth (lcp s t) t 0.
Proof.
  induction s as [|x s IH]; intros [|y t]; cbn [lex_lt lcp length]; try tauto; try lia. intros H. destruct (Nat.eqb_spec x y) as [->|NE]; cbn [nth]; [|lia]. intros. apply IH; try lia. destruct H as [H|[_ H]]; [lia|auto].
Qed.

Section S.
Variables T sa L : list nat.
Hypothesis TOK : text_ok T.
Hypothesis SA : is_sa T sa.
Hypothesis LC : is_lcp T sa L.
Notation n := (CsaProofs.n T). Notation tx := (tx T). Notation sx := (sx T). Notation row := (row sa). Notation isa := (isa T).
Local Notation Lv k := (nth k L 0).
Local Notation A := (map N.of_nat L).
Local Notation W := (Nat.lt_le_incl _ _ (Nat.pow_gt_lin_r 2 n Nat.lt_1_2)).
Lemma A_len : length A = n.
Proof. rewrite map_length. apply LC. Qed.
Lemma A_at : forall k, nth k A 0%N = N.of_nat (Lv k).
Proof. intros. change 0%N with (N.of_nat 0). apply map_nth. Qed.
Lemma L_at : forall k, 1 <= k < n -> Lv k = lcp (sx (row (k - 1))) (sx (row k)).
Proof. intros k K. apply LC. exact K. Qed.
Lemma rows_ge : forall d b a, a < b < n -> (d <= lcp (sx (row a)) (sx (row b)) <-> forall k, a < k <= b -> d <= Lv k).
Proof.
  intros d. induction b; intros a AB; [lia|]. destruct (Nat.eq_dec a b) as [->|NE].
  - pose proof (L_at (S b) ltac:(lia)) as E. replace (S b - 1) with b in E by lia. rewrite <- E. split; [intros H k K; replace k with (S b) by lia; auto|intros H; apply H; lia].
  - rewrite (lcp3 _ (sx (row b)) _) by (apply row_sx; auto; lia). pose proof (IHb a ltac:(lia)) as I. pose proof (L_at (S b) ltac:(lia)) as E. replace (S b - 1) with b in E by lia. rewrite <- E. split.
    + intros H k K. destruct (Nat.eq_dec k (S b)) as [->|]; [lia|]. apply I; lia.
    + intros H. apply Nat.min_glb; [|apply H; lia]. apply I. intros k K. apply H. lia.
Qed.
Lemma lcp_lt : forall a b, a < n -> b < n -> a <> b -> row a + lcp (sx (row a)) (sx (row b)) < n /\ row b + lcp (sx (row a)) (sx (row b)) < n.
Proof.
  intros a b HA HB NE. destruct (lcp_bound T sa TOK SA n W (n - row a) (row a) (row b) (le_n _) ltac:(apply row_lt; auto) ltac:(apply row_lt; auto)) as (X & Y & _); auto. intros E. apply NE. apply (row_inj T sa SA); auto.
Qed.
Lemma occ_rows : forall P a b, a < n -> b < n -> a <> b -> occurs_at T P (row a) -> (occurs_at T P (row b) <-> forall k, Nat.min a b < k <= Nat.max a b -> length P <= Lv k).
Proof.
  intros P a b HA HB NE O. unfold occurs_at in *. rewrite (occ_lcp P _ (skipn (row b) T) O). change (skipn (row a) T) with (sx (row a)). change (skipn (row b) T) with (sx (row b)). destruct (Nat.lt_ge_cases a b) as [LT|GE].
  - rewrite Nat.min_l, Nat.max_r by lia. apply rows_ge. lia.
  - rewrite Nat.min_r, Nat.max_l by lia. rewrite lcp_comm. apply rows_ge. lia.
Qed.
Lemma occ_fwd : forall P a b, a < n -> b < n -> a <> b -> occurs_at T P (row a) -> occurs_at T P (row b) -> forall k, Nat.min a b < k <= Nat.max a b -> length P <= Lv k.
Proof. intros P a b X Y NE O O'. apply (proj1 (occ_rows P a b X Y NE O) O'). Qed.
Lemma occ_bwd : forall P a b, a < n -> b < n -> a <> b -> occurs_at T P (row a) -> (forall k, Nat.min a b < k <= Nat.max a b -> length P <= Lv k) -> occurs_at T P (row b).
Proof. intros P a b X Y NE O O'. apply (proj2 (occ_rows P a b X Y NE O) O'). Qed.
Lemma occ_self : forall p d, p < n -> p + d <= n -> occurs_at T (firstn d (sx p)) p /\ length (firstn d (sx p)) = d.
Proof.
  intros p d P D. assert (LE : length (firstn d (sx p)) = d) by (rewrite firstn_length; unfold CsaProofs.sx; rewrite skipn_length; unfold CsaProofs.n in *; lia). split; auto. unfold occurs_at. rewrite LE. reflexivity.
Qed.
Lemma occ_len : forall P p, p < n -> occurs_at T P p -> p + length P <= n.
Proof. intros P p PN O. unfold occurs_at in O. assert (E : length (firstn (length P) (skipn p T)) = length P) by (rewrite O; auto). rewrite firstn_length, skipn_length in E. unfold CsaProofs.n in *. lia. Qed.

(** ** the label of a node *)
Lemma leaf_label : forall i P, i < n -> occurs_at T P (row i) -> length P = n - row i -> sa_interval T sa P i (i + 1).
Proof.
  intros i P I O LP. split; [fold n; lia|]. intros j J. fold n in J. fold (row j). destruct (Nat.eq_dec i j) as [->|NE]; [split; auto; lia|]. split; [lia|]. intros O'. exfalso. unfold occurs_at in O, O'. apply (occ_lcp P _ _ O) in O'. destruct (lcp_lt i j I J NE) as (X & _). unfold CsaProofs.sx in X. lia.
Qed.
Lemma inner_label : forall i j l P, inner A i j l -> occurs_at T P (row i) -> length P = N.to_nat l -> sa_interval T sa P i (j + 1).
Proof.
  intros i j l P (H1 & H2 & H3 & H4 & H5) O LP. unfold av in *. rewrite A_len in *. split; [fold n; lia|]. intros k K. fold n in K. fold (row k). destruct (Nat.eq_dec i k) as [->|NE]; [split; auto; lia|].
  rewrite (occ_rows P i k) by (auto; lia). rewrite LP. split.
  - intros X y Y. specialize (H2 y ltac:(lia)). rewrite A_at in H2. lia.
  - intros X. destruct (Nat.lt_ge_cases k i) as [LT|GE].
    + exfalso. specialize (X i ltac:(lia)). destruct H4 as [H4|H4]; [lia|]. rewrite A_at in H4. lia.
    + split; [lia|]. destruct (Nat.lt_ge_cases k (j + 1)) as [G|G]; auto. exfalso. specialize (X (j + 1) ltac:(lia)). destruct H5 as [H5|H5]; [lia|]. rewrite A_at in H5. lia.
Qed.
Lemma label_uniq : forall i j P Q, i <= j < n -> node_label T sa i j P -> node_label T sa i j Q -> P = Q.
Proof.
  intros i j P Q IJ (P1 & P2) (Q1 & Q2). assert (E : length P = length Q) by (apply Nat.le_antisymm; auto). specialize (P1 i ltac:(lia)). specialize (Q1 i ltac:(lia)). unfold occurs_at in *. congruence.
Qed.
Lemma inner_room : forall i j l k, inner A i j l -> i <= k <= j -> row k + N.to_nat l < n.
Proof.
  intros i j l k (H1 & H2 & _) K. unfold av in *. rewrite A_len in *. assert (X : exists m, i <= m <= j /\ m <> k) by (destruct (Nat.eq_dec k i); [exists j|exists i]; lia). destruct X as (m & M & NE).
  destruct (lcp_lt k m ltac:(lia) ltac:(lia) ltac:(auto)) as (X & _). enough (N.to_nat l <= lcp (sx (row k)) (sx (row m))) by lia.
  destruct (Nat.lt_ge_cases k m) as [LT|GE]; [|rewrite lcp_comm]; apply rows_ge; try lia; intros y Y; specialize (H2 y ltac:(lia)); rewrite A_at in H2; lia.
Qed.
Lemma node_has_label : forall i j, lcp_interval A i j -> exists P, node_label T sa i j P /\ sa_interval T sa P i (j + 1) /\ (i = j -> length P = n - row i) /\ (i < j -> inner A i j (N.of_nat (length P))).
Proof.
  intros i j H. pose proof (node_lt _ _ _ H) as B. rewrite A_len in B. destruct (Nat.eq_dec i j) as [->|NE].
  - pose proof (row_lt T sa SA j ltac:(lia)) as R. destruct (occ_self (row j) (n - row j) R ltac:(lia)) as (O & LP). exists (firstn (n - row j) (sx (row j))). split; [|split; [apply leaf_label; auto; lia|split; [auto|lia]]]. split.
    + intros k K. replace k with j by lia. exact O.
    + intros Q HQ. specialize (HQ j ltac:(lia)). fold (row j) in HQ. apply occ_len in HQ; auto. rewrite LP. lia.
  - destruct (node_inner A i j H ltac:(lia)) as (l & IN). pose proof (inner_room i j l i IN ltac:(lia)) as R. destruct (occ_self (row i) (N.to_nat l) ltac:(apply row_lt; auto; lia) ltac:(lia)) as (O & LP). set (P := firstn (N.to_nat l) (sx (row i))) in *. exists P.
    pose proof (inner_label i j l P IN O LP) as SI. split; [|split; [auto|split; [lia|intros; rewrite LP, N2Nat.id; auto]]]. split.
    + intros k K. apply (proj2 SI); [fold n; lia|lia].
    + intros Q HQ. pose proof IN as (H1 & H2 & (k & K & E) & _). pose proof (HQ i ltac:(lia)) as Q1. pose proof (HQ j ltac:(lia)) as Q2. pose proof (occ_fwd Q i j ltac:(lia) ltac:(lia) NE Q1 Q2 k ltac:(lia)) as Q3. unfold av in E. rewrite A_at in E. lia.
Qed.
Lemma label_facts : forall i j P, lcp_interval A i j -> node_label T sa i j P -> sa_interval T sa P i (j + 1) /\ (i = j -> length P = n - row i) /\ (i < j -> inner A i j (N.of_nat (length P))).
Proof.
  intros i j P H LP. pose proof (node_lt _ _ _ H) as B. rewrite A_len in B. destruct (node_has_label i j H) as (Q & Q1 & Q2). rewrite (label_uniq i j P Q B LP Q1). auto.
Qed.
(** every set of rows with a common prefix is a node *)
Lemma locus : forall P l r, sa_interval T sa P l r -> l < r -> lcp_interval A l (r - 1).
Proof.
  intros P l r (B & H) LR. fold n in B. split; [rewrite A_len; lia|]. destruct (Nat.eq_dec l (r - 1)) as [E|E]; [auto|right].
  assert (OL : occurs_at T P (row l)) by (apply H; [fold n; lia|lia]).
  destruct (min_ex A (r - 1 - l - 1) l) as (m & M1 & M2). replace (l + S (r - 1 - l - 1)) with (r - 1) in * by lia. exists m. split; [exact M1|]. split; [exact M2|].
  assert (G : (N.of_nat (length P) <= m)%N). { destruct M2 as (k & K & <-). unfold av. rewrite A_at. assert (O : occurs_at T P (row (r - 1))) by (apply H; [fold n; lia|lia]). pose proof (occ_fwd P l (r - 1) ltac:(lia) ltac:(lia) E OL O k ltac:(lia)). lia. }
  split.
  - destruct (Nat.eq_dec l 0) as [->|NZ]; auto. right. rewrite A_at. destruct (Nat.lt_ge_cases (Lv l) (length P)) as [X|X]; [lia|]. exfalso.
    assert (occurs_at T P (row (l - 1))) as O by (apply (occ_bwd P l (l - 1)); auto; try lia; intros k K; replace k with l by lia; auto). apply H in O; [lia|fold n; lia].
  - destruct (Nat.eq_dec r n) as [->|NZ]; [left; rewrite A_len; lia|]. right. rewrite A_at. destruct (Nat.lt_ge_cases (Lv (r - 1 + 1)) (length P)) as [X|X]; [lia|]. exfalso.
    assert (occurs_at T P (row r)) as O. { apply (occ_bwd P (r - 1) r); auto; try lia. - apply H; [fold n; lia|lia]. - intros k K. replace k with (r - 1 + 1) by lia. auto. } apply H in O; [lia|fold n; lia].
Qed.
(** ** the LCP array of a text *)
Lemma first_sorted : forall a b, a <= b < n -> tx (row a) <= tx (row b).
Proof.
  intros a b AB. destruct (Nat.eq_dec a b) as [->|NE]; auto. pose proof (row_sx T sa SA a b ltac:(lia)) as X. rewrite (sx_cons T (row a)), (sx_cons T (row b)) in X by (apply row_lt; auto; lia). cbn [lex_lt] in X. lia.
Qed.
Lemma zero_iff : forall k, 1 <= k < n -> (Lv k = 0 <-> tx (row (k - 1)) <> tx (row k)).
Proof.
  intros k K. rewrite (L_at k K). rewrite (sx_cons T (row (k - 1))), (sx_cons T (row k)) by (apply row_lt; auto; lia). cbn [lcp]. destruct (Nat.eqb_spec (tx (row (k - 1))) (tx (row k))); split; auto; try lia; discriminate.
Qed.
Lemma text_lcp_ok : lcp_ok A.
Proof.
  pose proof (n_pos T TOK) as NP. split; [rewrite A_len; auto|]. split; [rewrite A_at; destruct LC as (_ & -> & _); reflexivity|]. rewrite A_len. split.
  - intros N2. rewrite A_at. rewrite (proj2 (zero_iff 1 ltac:(lia))); auto. cbn [Nat.sub]. rewrite (row0 T sa TOK SA n W), (tx_last T TOK). intros E. symmetry in E. apply (tx_zero T sa TOK SA) in E; [|apply row_lt; auto; lia].
    pose proof (row0 T sa TOK SA n W) as R0. rewrite <- R0 in E. apply (row_inj T sa SA) in E; lia.
  - apply Forall_forall. intros y Y. apply in_map_iff in Y. destruct Y as (k & <- & K). apply (In_nth _ _ 0) in K. destruct K as (q & Q & <-). destruct LC as (LL & L0 & _). rewrite LL in Q. fold n in Q. destruct q as [|q]; [rewrite L0; lia|]. rewrite (L_at (S q)) by lia. destruct (lcp_lt (S q - 1) (S q) ltac:(lia) ltac:(lia) ltac:(lia)). lia.
Qed.
Lemma dless_gap : forall c d, c <= d -> (forall y, c <= y < d -> ~ In y T) -> dless T d = dless T c.
Proof. intros c d CD G. unfold dless. f_equal. apply filter_ext_in. intros y Y. apply nodup_In in Y. destruct (Nat.ltb_spec y c), (Nat.ltb_spec y d); auto; try lia. exfalso. apply (G y); auto. Qed.
Lemma zeros_upto : forall i, i < n -> cnt0 A (S i) = dless T (tx (row i)) + 1.
Proof.
  unfold cnt0. induction i; intros I.
  - cbn [seq filter]. unfold av. rewrite A_at. destruct LC as (_ & -> & _). cbn [N.of_nat N.eqb length]. rewrite (row0 T sa TOK SA n W), (tx_last T TOK). unfold dless. rewrite filter_nil; [reflexivity|]. intros p P. apply Nat.ltb_ge. lia.
  - rewrite seq_S, filter_app, app_length, IHi by lia. cbn [filter]. unfold av. rewrite A_at. cbn [Nat.add]. pose proof (zero_iff (S i) ltac:(lia)) as Z. replace (S i - 1) with i in Z by lia. pose proof (first_sorted i (S i) ltac:(lia)) as FS.
    destruct (N.eqb_spec (N.of_nat (nth (S i) L 0)) 0) as [E|E]; cbn [length].
    + assert (NE : tx (row i) <> tx (row (S i))) by (apply Z; lia). rewrite (dless_gap (S (tx (row i))) (tx (row (S i)))); [|lia|].
      * rewrite dless_S by (apply nth_In, row_lt; auto; lia). lia.
      * intros y Y IN. apply (In_nth _ _ 0) in IN. destruct IN as (p & P & PE). destruct (row_ex T sa SA p P) as (k & K & KE). fold (tx p) in PE. rewrite <- KE in PE.
        destruct (Nat.le_gt_cases k i) as [LE|GT]; [pose proof (first_sorted k i ltac:(lia))|pose proof (first_sorted (S i) k ltac:(lia))]; lia.
    + assert (EQ : tx (row i) = tx (row (S i))). { destruct (Nat.eq_dec (tx (row i)) (tx (row (S i)))); auto. exfalso. apply E. rewrite (proj2 Z) by auto. reflexivity. } rewrite EQ. lia.
Qed.
Lemma text_zeros : zero_count A = dist T.
Proof.
  pose proof (n_pos T TOK) as NP. rewrite zero_cnt0, A_len. replace n with (S (n - 1)) by lia. rewrite zeros_upto by lia. rewrite Nat.add_1_r, <- dless_S by (apply nth_In, row_lt; auto; lia). apply dless_dist.
  intros y Y. apply (In_nth _ _ 0) in Y. destruct Y as (p & P & PE). destruct (row_ex T sa SA p P) as (k & K & KE). fold (tx p) in PE. rewrite <- KE in PE. pose proof (first_sorted k (n - 1) ltac:(lia)). lia.
Qed.
End S.
