(** * rmq_open, rr_enclose and double_enclose *)
From Coq Require Import NArith ZArith List Bool Arith Lia.
From Verif Require Import Base SpecBits SpecBp SpecBpRmq AbsVec WtBase WtProofs Bp BpProofs BpProofs2 BpProofs3 BpProofs4 BpProofs5 BpRmq BpRmqProofs BpRmqProofs2 BpRmqProofs3 CsaProofs2.
Import ListNotations.
Open Scope nat_scope.

Section P.
Variable g : padding.
Variable bp : list bool.
Local Notation f := (xb g bp).
Local Notation n := (length bp).
Hypothesis BAL : balanced bp.
Lemma span_ex : forall k r, k < r < n -> ((exists m, matches bp k m /\ r <= m) <-> (f k = true /\ forall q, k < q <= r -> (ex f q > ex f k)%Z)).
Proof.
  intros k r L. split.
  - intros (m & M & R). destruct (match_ex g bp k m M) as (M1 & M2 & _ & M4 & M5). split; auto. intros q Q. apply M5. lia.
  - intros [F H]. destruct (bal_close g bp BAL k ltac:(lia) F) as (m & M). exists m. split; auto. destruct (match_ex g bp k m M) as (M1 & M2 & _ & M4 & M5).
    destruct (Nat.le_gt_cases r m); auto. pose proof (H (S m) ltac:(lia)). lia.
Qed.
Lemma around_ex : forall k i, i < n -> f i = true -> (around bp k i <-> k < i /\ f k = true /\ forall q, k < q <= i -> (ex f q > ex f k)%Z).
Proof.
  intros k i I F. split.
  - intros (m & M & R). split; [lia|]. apply (span_ex k i); [lia|]. exists m. split; auto. lia.
  - intros (L & S). apply (span_ex k i) in S; [|lia]. destruct S as (m & M & R). exists m. split; auto. split; auto. destruct (Nat.eq_dec m i) as [->|]; [|lia].
    destruct (match_ex g bp k i M) as (_ & _ & X & _). congruence.
Qed.
Lemma encl_of : forall k i, i < n -> f i = true -> k < i -> f k = true -> (forall q, k < q <= i -> (ex f q > ex f k)%Z) -> ex f k = (ex f i - 1)%Z -> encl bp k i.
Proof.
  intros k i I F L Fk H E. split; [apply around_ex; auto|]. intros k' A. apply around_ex in A; auto. destruct A as (L' & F' & H'). destruct (Nat.le_gt_cases k' k); auto.
  pose proof (H k' ltac:(lia)). pose proof (H' i ltac:(lia)). lia.
Qed.
Lemma around_dec : forall i, i < n -> f i = true -> (exists k, encl bp k i) \/ (forall k, ~ around bp k i).
Proof.
  intros i I F. destruct (bal_total g bp BAL) as [T P]. destruct (Z_le_gt_dec (ex f i) 0) as [L|G].
  - right. intros k A. apply around_ex in A; auto. destruct A as (L' & F' & H'). pose proof (H' i ltac:(lia)). pose proof (P k ltac:(lia)). lia.
  - left. destruct (last_up f (ex f i - 1)%Z 0 i) as (q & Q & E & M); [change (ex f 0) with 0%Z; lia|cbn [Nat.add]; lia|]. cbn [Nat.add] in *. exists q.
    apply encl_of; auto; try lia. { pose proof (M (S q) ltac:(lia)) as Z0. rewrite ex_S in Z0. destruct (f q); auto. cbn [stp] in Z0. lia. } intros q' Q'. rewrite E. apply M. lia.
Qed.
End P.

Section Th.
Variable g : padding.
Variables B deg : nat.
Hypothesis HB : B mod 8 = 0.
Hypothesis HB0 : 0 < B.
Hypothesis Hd : 2 <= deg.
Variable bp : list bool.
Hypothesis BAL : balanced bp.
Variable t : bps.
Hypothesis T : bp_make B deg bp = Some t.
Local Notation f := (xb g bp).
Local Notation n := (length bp).

Lemma t_rmq : forall l r, l <= r < n -> exists p e, bp_rmq g B deg bp t l r = Some p /\ lastarg f l (r + 1) e p.
Proof.
  intros l r L. destruct (HBc g B deg HB HB0) as [E8 P8]. destruct (make_ok g B deg bp HB0 ltac:(lia) (not_nil bp r ltac:(lia))) as (t' & h & T' & OK).
  rewrite T in T'. injection T' as <-. apply (rmq_ok g bp B deg h (B / 8) t E8 P8 ltac:(lia) ltac:(lia) OK). exact L.
Qed.
Lemma t_enclose : forall k i, i < n -> f i = true -> encl bp k i -> enclose g B deg bp t i = Some k.
Proof.
  intros k i I F E. destruct (enclose_ok g B deg HB HB0 Hd bp i k) as (t' & T' & X); auto. { rewrite <- (f_in g); auto. } rewrite T in T'. injection T' as <-. exact X.
Qed.
Lemma t_enclose_none : forall i, i < n -> f i = true -> (forall k, ~ around bp k i) -> enclose g B deg bp t i = Some n.
Proof.
  intros i I F E. destruct (enclose_none g B deg HB HB0 Hd bp i BAL) as (t' & T' & X); auto. { rewrite <- (f_in g); auto. } rewrite T in T'. injection T' as <-. exact X.
Qed.
Lemma t_open : forall i j, matches bp i j -> find_open g B deg bp t j = Some i.
Proof. intros i j M. destruct (find_open_ok g B deg HB HB0 Hd bp i j M) as (t' & T' & X & _). rewrite T in T'. injection T' as <-. exact X. Qed.
Lemma t_close : forall i j, matches bp i j -> find_close g B deg bp t i = Some j.
Proof. intros i j M. destruct (find_close_ok g B deg HB HB0 ltac:(lia) bp i j M) as (t' & T' & X & _). rewrite T in T'. injection T' as <-. exact X. Qed.

Theorem rmq_open_ok : forall l r, l < r < n -> exists k, rmq_open g B deg bp t l r = Some k /\ least_or (spans bp l r) n k.
Proof.
  intros l r LR. unfold rmq_open. rewrite (proj2 (Nat.leb_gt _ _)) by lia. destruct (t_rmq l (r - 1)) as (p & e & -> & A1 & A2 & A3 & A4); [lia|]. replace (r - 1 + 1) with r in * by lia.
  cbn [obind]. rewrite (get_f g) by (lia). cbn [obind].
  (* a spanning parenthesis starts at l or at the end of the minimum *)
  assert (SP : forall k, spans bp l r k -> f k = true /\ (forall q, k < q <= r -> (ex f q > ex f k)%Z) /\ l <= k < r).
  { intros k [K M]. apply (span_ex g bp BAL k r) in M; [|lia]. destruct M. auto. }
  assert (PS : forall k, l <= k < r -> f k = true -> (forall q, k < q <= r -> (ex f q > ex f k)%Z) -> spans bp l r k).
  { intros k K F H. split; auto. apply (span_ex g bp BAL k r); [lia|]. auto. }
  destruct (f p) eqn:Fp.
  - assert (p = l). { destruct (Nat.eq_dec p l); auto. pose proof (A3 (p - 1) ltac:(lia)) as X. replace (S (p - 1)) with p in X by lia. rewrite <- A2, ex_S, Fp in X. cbn [stp] in X. lia. }
    subst p. exists l. split; auto. left. split.
    + apply PS; auto; try lia. intros q Q. pose proof (A3 (q - 1) ltac:(lia)) as X. replace (S (q - 1)) with q in X by lia. rewrite ex_S, Fp in A2. cbn [stp] in A2. lia.
    + intros k' [K _]. lia.
  - assert (NL : forall k, spans bp l r k -> k <= p -> k = l /\ ex f l = (e - 1)%Z).
    { intros k K L. apply SP in K. destruct K as (K1 & K2 & K3). pose proof (K2 (S p) ltac:(lia)) as X. assert (k = l). { destruct (Nat.eq_dec k l); auto. pose proof (A3 (k - 1) ltac:(lia)) as Y. replace (S (k - 1)) with k in Y by lia. lia. }
      subst k. split; auto. pose proof (A3 l ltac:(lia)) as Y. rewrite ex_S, K1 in Y. cbn [stp] in Y. lia. }
    assert (E1 : ex f (p + 1) = e) by (replace (p + 1) with (S p) by lia; exact A2).
    assert (GT : forall q, p + 1 < q <= r -> (ex f q > e)%Z). { intros q Q. pose proof (A4 (q - 1) ltac:(lia)) as X. replace (S (q - 1)) with q in X by lia. lia. }
    destruct (Nat.ltb_spec (p + 1) r) as [L|L].
    + assert (Fr : f (p + 1) = true). { pose proof (GT (S (p + 1)) ltac:(lia)) as X. rewrite ex_S in X. destruct (f (p + 1)); auto. cbn [stp] in X. lia. }
      assert (SR : spans bp l r (p + 1)). { apply PS; auto; try lia. intros q Q. rewrite E1. apply GT. lia. }
      destruct (around_dec g bp BAL (p + 1)) as [(k & K)|NO]; [lia|exact Fr| |].
      * rewrite (t_enclose k (p + 1)) by (auto; lia). cbn [obind]. destruct (encl_ex g bp k (p + 1) ltac:(lia) Fr K) as (K1 & K2 & K3 & K4).
        rewrite (proj2 (Nat.eqb_neq k n)) by lia. destruct (Nat.ltb_spec k l) as [L2|L2]; cbn [orb].
        -- exists (p + 1). split; auto. left. split; auto. intros k' H'. destruct (Nat.le_gt_cases (p + 1) k'); auto. destruct (NL k' H' ltac:(lia)) as [-> X].
           apply SP in H'. destruct H' as (_ & H' & _). pose proof (K4 l ltac:(lia)). lia.
        -- exists k. split; auto. left. split. { apply PS; auto; try lia. intros q Q. destruct (Nat.le_gt_cases q (p + 1)) as [Y|Y]; [apply K4; lia|]. pose proof (GT q ltac:(lia)). lia. }
           intros k' H'. destruct (Nat.le_gt_cases (p + 1) k'); [lia|]. destruct (NL k' H' ltac:(lia)) as [-> X].
           destruct (Nat.eq_dec k l); [lia|]. pose proof (A3 (k - 1) ltac:(lia)) as Y. replace (S (k - 1)) with k in Y by lia. lia.
      * rewrite t_enclose_none by (auto; lia). cbn [obind]. rewrite Nat.eqb_refl, orb_true_r. exists (p + 1). split; auto. left. split; auto.
        intros k' H'. destruct (Nat.le_gt_cases (p + 1) k'); auto. exfalso. destruct (NL k' H' ltac:(lia)) as [-> X]. apply SP in H'. destruct H' as (H1 & H2 & H3).
        apply (NO l). apply (around_ex g bp BAL l (p + 1)); [lia|exact Fr|]. split; [lia|]. split; auto. intros q Q. apply H2. lia.
    + rewrite (proj2 (Nat.eqb_eq (p + 1) r)) by lia. assert (PR : p + 1 = r) by lia. rewrite PR in *.
      assert (ONE : forall k, spans bp l r k -> k = l /\ ex f l = (e - 1)%Z). { intros k K. apply NL; auto. destruct K as [K _]. lia. }
      destruct (f r) eqn:Fr.
      * destruct (around_dec g bp BAL r) as [(k & K)|NO]; [lia|exact Fr| |].
        -- rewrite (t_enclose k r) by (auto; lia). cbn [obind]. destruct (encl_ex g bp k r ltac:(lia) Fr K) as (K1 & K2 & K3 & K4). destruct (Nat.leb_spec l k) as [L2|L2].
           ++ exists k. split; auto. left. assert (SK : spans bp l r k) by (apply PS; auto; lia). split; auto. intros k' H'. destruct (ONE k' H') as [-> _]. destruct (ONE k SK). lia.
           ++ exists n. split; auto. right. split; auto. intros k' H'. destruct (ONE k' H') as [-> X]. pose proof (K4 l ltac:(lia)). lia.
        -- rewrite t_enclose_none by (auto; lia). cbn [obind]. rewrite (proj2 (Nat.leb_le l n)) by lia. exists n. split; auto. right. split; auto.
           intros k' H'. apply SP in H'. destruct H' as (H1 & H2 & H3). apply (NO k'). apply (around_ex g bp BAL k' r); [lia|exact Fr|]. split; [lia|]. auto.
      * destruct (bal_open g bp BAL r ltac:(lia) Fr) as (k & K). assert (EE : enclose g B deg bp t r = Some k). { unfold enclose. rewrite (get_f g) by (lia). cbn [obind]. rewrite Fr. cbn [negb]. apply t_open. exact K. }
        rewrite EE. cbn [obind]. destruct (match_ex g bp k r K) as (M1 & M2 & M3 & M4 & M5). destruct (Nat.leb_spec l k) as [L2|L2].
        -- exists k. split; auto. left. assert (SK : spans bp l r k) by (apply PS; auto; lia). split; auto. intros k' H'. destruct (ONE k' H') as [-> _]. destruct (ONE k SK). lia.
        -- exists n. split; auto. right. split; auto. intros k' H'. destruct (ONE k' H') as [-> X]. pose proof (M5 l ltac:(lia)). rewrite ex_S, M3 in M4. cbn [stp] in M4. lia.
Qed.

Theorem rr_enclose_ok : forall i mi j, matches bp i mi -> mi < j < n -> f j = true -> exists k, rr_enclose g B deg bp t i j = Some k /\ least_or (rr_spec bp mi j) n k.
Proof.
  intros i mi j M L F. unfold rr_enclose. rewrite (t_close i mi M). cbn [obind]. destruct (Nat.leb_spec j (mi + 1)) as [J|J].
  - exists n. split; auto. right. split; auto. intros k [K _]. lia.
  - assert (EQ : forall k, spans bp (mi + 1) j k <-> rr_spec bp mi j k).
    { intros k. unfold spans, rr_spec. split.
      - intros [K S]. split; [lia|]. apply (span_ex g bp BAL k j) in S; [|lia]. apply (around_ex g bp BAL k j); [lia|exact F|]. split; [lia|exact S].
      - intros [K A]. split; [lia|]. apply (span_ex g bp BAL k j); [lia|]. apply (around_ex g bp BAL k j) in A; [|lia|exact F]. apply A. }
    destruct (rmq_open_ok (mi + 1) j) as (k & -> & K); [lia|]. exists k. split; auto. destruct K as [[K1 K2]|[K1 K2]]; [left|right].
    + split; [apply EQ; exact K1|]. intros k' H'. apply K2, EQ, H'.
    + split; auto. intros k' H'. apply (K1 k'), EQ, H'.
Qed.
Theorem double_enclose_ok : forall i mi j, matches bp i mi -> mi < j < n -> f j = true -> exists k, double_enclose g B deg bp t i j = Some k /\ largest_or (both bp i j) n k.
Proof.
  intros i mi j M L F. unfold double_enclose. destruct (rr_enclose_ok i mi j M L F) as (k & -> & K). cbn [obind].
  destruct (match_ex g bp i mi M) as (M1 & M2 & M3 & M4 & M5).
  (* what encloses i is left of i; nested pairs *)
  assert (NEST : forall e m, matches bp e m -> e < j < m -> e <= mi -> e < i /\ mi < m).
  { intros e m E J X. split; [|lia]. destruct (match_ex g bp e m E) as (E1 & E2 & E3 & E4 & E5).
    destruct (Nat.lt_trichotomy e i) as [|[->|GT]]; auto. { pose proof (match_unique bp i mi m M E). lia. }
    exfalso. assert (e <> mi) by congruence. pose proof (E5 (S mi) ltac:(lia)). pose proof (M5 e ltac:(lia)). lia. }
  assert (BOTH : forall e, around bp e j -> e <= mi -> both bp i j e).
  { intros e (m & E & J) X. destruct (NEST e m E J X) as [N1 N2]. split; [|exists m; auto]. exists m. split; auto. lia. }
  assert (BI : forall e, both bp i j e -> around bp e j /\ e < i). { intros e [(m & E & J) A]. split; auto. lia. }
  destruct K as [[[K1 K2] K3]|[K1 ->]].
  - rewrite (proj2 (Nat.eqb_neq k n)) by lia. pose proof K2 as (mk & KM & KJ). destruct (match_ex g bp k mk KM) as (X1 & X2 & _).
    assert (AK : forall e, around bp e j -> e < k -> around bp e k).
    { intros e A E. apply (around_ex g bp BAL e k); [lia|exact X2|]. apply (around_ex g bp BAL e j) in A; [|lia|exact F]. destruct A as (A1 & A2 & A3). split; [lia|]. split; auto. intros q Q. apply A3. lia. }
    assert (KA : forall e, around bp e k -> around bp e j).
    { intros e A. apply (around_ex g bp BAL e k) in A; [|lia|exact X2]. destruct A as (A1 & A2 & A3). apply (around_ex g bp BAL k j) in K2; [|lia|exact F]. destruct K2 as (Y1 & Y2 & Y3).
      apply (around_ex g bp BAL e j); [lia|exact F|]. split; [lia|]. split; auto. intros q Q. destruct (Nat.le_gt_cases q k); [apply A3; lia|]. pose proof (Y3 q ltac:(lia)). pose proof (A3 k ltac:(lia)). lia. }
    assert (LO : forall e, around bp e k -> e <= mi). { intros e A. destruct (Nat.le_gt_cases e mi); auto. assert (e < k) by (destruct A as (m & _ & A); lia). assert (RS : rr_spec bp mi j e) by (split; [lia|apply KA; exact A]). pose proof (K3 e RS). lia. }
    destruct (around_dec g bp BAL k) as [(e & E)|NO]; [lia|exact X2| |].
    + rewrite (t_enclose e k) by (auto; lia). exists e. split; auto. left. destruct E as [EA EM]. split; [apply BOTH; auto|]. intros k' H'. destruct (BI k' H') as [H1 H2]. apply EM, AK; auto. lia.
    + rewrite t_enclose_none by (auto; lia). exists n. split; auto. right. split; auto. intros k' H'. destruct (BI k' H') as [H1 H2]. apply (NO k'), AK; auto. lia.
  - rewrite Nat.eqb_refl. assert (LO : forall e, around bp e j -> e <= mi). { intros e A. destruct (Nat.le_gt_cases e mi); auto. exfalso. assert (e < j) by (destruct A as (m & _ & A); lia). apply (K1 e). split; auto. }
    destruct (around_dec g bp BAL j) as [(e & E)|NO]; [lia|exact F| |].
    + rewrite (t_enclose e j) by (auto; lia). exists e. split; auto. left. destruct E as [EA EM]. split; [apply BOTH; auto|]. intros k' H'. destruct (BI k' H') as [H1 H2]. apply EM; auto.
    + rewrite t_enclose_none by (auto; lia). exists n. split; auto. right. split; auto. intros k' H'. destruct (BI k' H') as [H1 H2]. apply (NO k'); auto.
Qed.
Lemma ex_at : forall i, i < n -> ex f (S i) = excess_at bp i.
Proof. intros i I. pose proof (excess_count bp i I) as E. rewrite (exc_ok g bp (i + 1)) in E by lia. injection E as E. replace (S i) with (i + 1) by lia. exact E. Qed.
Theorem rmq_spec_ok : forall l r, l <= r < n -> exists p, bp_rmq g B deg bp t l r = Some p /\ last_min bp l r p.
Proof.
  intros l r L. destruct (t_rmq l r L) as (p & e & E & A1 & A2 & A3 & A4). exists p. split; auto. split; [lia|]. rewrite <- ex_at, A2 by lia. split; intros k K; rewrite <- ex_at by lia; [apply A3|apply A4]; lia.
Qed.
End Th.
