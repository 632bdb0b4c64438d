(** * The scans over the words of the first-child vector *)
From Coq Require Import NArith ZArith List Bool Arith Lia.
From Verif Require Import Base SpecBits AbsVec RankSelect WtBase WtProofs Bp BpRmq CsaProofs2 Cst.
Import ListNotations.
Open Scope nat_scope.

Lemma anyb_cons : forall b l, anyb (b :: l) = b || anyb l.
Proof. reflexivity. Qed.
Lemma anyb_false : forall l, anyb l = false -> forall q, nth q l false = false.
Proof. induction l as [|b l IH]; intros H q; destruct q; auto; cbn [nth]; rewrite anyb_cons in H; apply orb_false_iff in H; destruct H; auto. Qed.
Lemma anyb_true : forall l q, nth q l false = true -> anyb l = true.
Proof. intros l q H. destruct (anyb l) eqn:E; auto. rewrite (anyb_false l E q) in H. discriminate. Qed.
Lemma lo_ok : forall l, anyb l = true -> lo_of l < length l /\ nth (lo_of l) l false = true /\ forall q, q < lo_of l -> nth q l false = false.
Proof.
  induction l as [|b l IH]; intros H; [discriminate|]. rewrite anyb_cons in H. cbn [lo_of]. destruct b; cbn [length nth].
  - split; [lia|]. split; auto. intros; lia.
  - destruct (IH H) as (A & B & C). split; [lia|]. split; auto. intros q Q. destruct q; auto. apply C. lia.
Qed.
Lemma hi_ok : forall l, anyb l = true -> hi_of l < length l /\ nth (hi_of l) l false = true /\ forall q, hi_of l < q -> nth q l false = false.
Proof.
  induction l as [|b l IH]; intros H; [discriminate|]. rewrite anyb_cons in H. cbn [hi_of]. destruct (anyb l) eqn:E; cbn [length nth].
  - destruct (IH eq_refl) as (A & B & C). split; [lia|]. split; auto. intros q Q. destruct q; [lia|]. cbn [nth]. apply C. lia.
  - rewrite orb_false_r in H. split; [lia|]. split; auto. intros q Q. destruct q; [lia|]. cbn [nth]. apply anyb_false; auto.
Qed.
Lemma nth_skipn : forall (l : list bool) a q, nth q (skipn a l) false = nth (a + q) l false.
Proof. induction l as [|b l IH]; intros a q. { rewrite skipn_nil. destruct q, a; reflexivity. } destruct a; [reflexivity|]. cbn [skipn Nat.add nth]. apply IH. Qed.
Lemma nth_firstn_b : forall (l : list bool) a q, nth q (firstn a l) false = if q <? a then nth q l false else false.
Proof.
  induction l as [|b l IH]; intros a q. { rewrite firstn_nil. destruct q; destruct (_ <? _); reflexivity. }
  destruct a; cbn [firstn]. { destruct q; reflexivity. } destruct q; [reflexivity|]. cbn [nth]. rewrite IH. reflexivity.
Qed.
Section W.
Variable g : padding.
Variable c : cst.
Local Notation fc := (c_fc c).
Local Notation bit q := (nth q fc false).
Lemma fword_some : forall k, 64 * k <= length fc -> exists w, fword g c k = Some w /\ length w = 64 /\ forall q, q < 64 -> 64 * k + q < length fc -> nth q w false = bit (64 * k + q).
Proof.
  intros k K. unfold fword. assert (L : k <? (length fc + 64) / 64 = true). { apply Nat.ltb_lt. apply Nat.div_le_lower_bound; lia. }
  rewrite L. eexists. split; [reflexivity|]. split; [rewrite map_length, seq_length; auto|]. intros q Q QL.
  rewrite (nth_indep _ false (nth 0 fc (g 0))) by (rewrite map_length, seq_length; auto).
  rewrite (map_nth (fun q => nth q fc (g q))), seq_nth by auto. apply nth_indep. auto.
Qed.
Lemma rank_zero : forall a m, (forall q, a <= q < a + m -> bit q = false) -> rank_of (t_bit fc) (a + m) = rank_of (t_bit fc) a.
Proof.
  intros a. induction m; intros H. { f_equal. lia. } replace (a + S m) with (S (a + m)) by lia. rewrite rank_of_S, IHm by (intros; apply H; lia). unfold t_bit at 2. rewrite H by lia. cbn [b2nat]. lia.
Qed.
(** m - 1 zeros in front of r0, then a one or the beginning *)
Definition dspec (r0 m : nat) : Prop := 0 < m <= r0 + 1 /\ (forall q, r0 + 1 - m <= q < r0 -> bit q = false) /\ (m = r0 + 1 \/ bit (r0 - m) = true).
Lemma dspec_uniq : forall r0 m m', dspec r0 m -> dspec r0 m' -> m = m'.
Proof.
  assert (X : forall r0 m m', dspec r0 m -> dspec r0 m' -> m < m' -> False).
  { intros r0 m m' (A & B & C) (A' & B' & C') L. destruct C as [C|C]; [lia|]. rewrite B' in C by lia. discriminate. }
  intros r0 m m' D D'. destruct (Nat.lt_trichotomy m m') as [L|[L|L]]; auto; exfalso; eauto.
Qed.
Lemma deg_scan_ok : forall r0, r0 <= length fc -> forall steps p res, res + 64 * p = r0 + 2 -> 64 * p <= r0 -> (forall q, 64 * p <= q < r0 -> bit q = false) ->
  exists o, deg_scan g c steps p res = Some o /\ forall d, o = Some d -> exists m, d = m + 1 /\ dspec r0 m.
Proof.
  intros r0 RL. induction steps; intros p res E PL Z; destruct p; cbn [deg_scan]; try (exists None; split; [reflexivity|discriminate]).
  destruct (fword_some p) as (w & W1 & W2 & W3); [lia|]. rewrite W1. cbn [obind]. destruct (anyb w) eqn:AN.
  - destruct (hi_ok w AN) as (H1 & H2 & H3). rewrite W2 in H1. eexists. split; [reflexivity|]. intros d D. assert (D' : d = res + (63 - hi_of w)) by congruence. clear D. subst d.
    exists (r0 - (64 * p + hi_of w)). split; [lia|]. split; [lia|]. split.
    + intros q Q. destruct (Nat.lt_ge_cases q (64 * S p)) as [L|L]; [|apply Z; lia]. specialize (H3 (q - 64 * p) ltac:(lia)). rewrite W3 in H3 by lia. replace (64 * p + (q - 64 * p)) with q in H3 by lia. exact H3.
    + right. rewrite W3 in H2 by lia. rewrite <- H2. f_equal. lia.
  - apply IHsteps; [lia|lia|]. intros q Q. destruct (Nat.lt_ge_cases q (64 * S p)) as [L|L]; [|apply Z; lia].
    pose proof (anyb_false w AN (q - 64 * p)) as H3. rewrite W3 in H3 by lia. replace (64 * p + (q - 64 * p)) with q in H3 by lia. exact H3.
Qed.
Lemma div64 : forall r, r = 64 * (r / 64) + r mod 64 /\ r mod 64 < 64.
Proof. intros r. split; [apply Nat.div_mod|apply Nat.mod_upper_bound]; discriminate. Qed.
Definition deg_of (r0 : nat) : option nat :=
    let* w := fword g c (r0 / 64) in
    let off := r0 mod 64 in
    let w := firstn off w in
    if anyb w then let* d := csub off (hi_of w) in Some (d + 1)
    else if r0 / 64 =? 0 then Some (off + 2)
    else
      let* s := deg_scan g c 4 (r0 / 64) (off + 2) in
      match s with
      | Some d => Some d
      | None =>
        let* goal := t_rank fc r0 in
        if goal =? 0 then Some (r0 + 2) else let* p := t_sel1 fc goal in let* d := csub r0 p in Some (d + 1)
      end.
Lemma deg_of_ok : forall r0, r0 < length fc -> exists m, deg_of r0 = Some (m + 1) /\ dspec r0 m.
Proof.
  intros r0 RL. unfold deg_of. destruct (div64 r0) as (DE & DM). set (p := r0 / 64) in *. set (off := r0 mod 64) in *.
  destruct (fword_some p) as (w & W1 & W2 & W3); [lia|]. rewrite W1. cbn [obind]. destruct (anyb (firstn off w)) eqn:AN.
  { destruct (hi_ok _ AN) as (H1 & H2 & H3). rewrite firstn_length, W2 in H1. rewrite nth_firstn_b in H2. destruct (hi_of (firstn off w) <? off) eqn:Q; [|discriminate]. apply Nat.ltb_lt in Q.
    rewrite csub_le by lia. cbn [obind]. exists (off - hi_of (firstn off w)). split; auto. split; [lia|]. split.
    - intros q QQ. specialize (H3 (q - 64 * p) ltac:(lia)). rewrite nth_firstn_b, (proj2 (Nat.ltb_lt _ _)) in H3 by lia. rewrite W3 in H3 by lia. replace (64 * p + (q - 64 * p)) with q in H3 by lia. exact H3.
    - right. rewrite W3 in H2 by lia. rewrite <- H2. f_equal. lia. }
  assert (Z : forall q, 64 * p <= q < r0 -> bit q = false).
  { intros q Q. pose proof (anyb_false _ AN (q - 64 * p)) as H3. rewrite nth_firstn_b, (proj2 (Nat.ltb_lt _ _)) in H3 by lia. rewrite W3 in H3 by lia. replace (64 * p + (q - 64 * p)) with q in H3 by lia. exact H3. }
  destruct (Nat.eqb_spec p 0) as [E|NE].
  { exists (r0 + 1). split; [f_equal; lia|]. split; [lia|]. split; auto. intros q Q. apply Z. lia. }
  destruct (deg_scan_ok r0 ltac:(lia) 4 p (off + 2) ltac:(lia) ltac:(lia) Z) as (o & O1 & O2). rewrite O1. cbn [obind]. destruct o as [d|].
  { destruct (O2 d eq_refl) as (m & -> & D). exists m. auto. }
  rewrite t_rank_some by lia. cbn [obind]. destruct (Nat.eqb_spec (rank_of (t_bit fc) r0) 0) as [G|G].
  { exists (r0 + 1). split; [f_equal; lia|]. split; [lia|]. split; auto. intros q Q.
    destruct (bit q) eqn:F; auto. pose proof (rank_of_S (t_bit fc) q) as RS. unfold t_bit at 3 in RS. rewrite F in RS. cbn [b2nat] in RS.
    assert (MO : forall a b, a <= b -> rank_of (t_bit fc) a <= rank_of (t_bit fc) b). { intros a b L. induction L; auto. rewrite rank_of_S. lia. }
    pose proof (MO (S q) r0 ltac:(lia)). lia. }
  assert (X : exists z, z < r0 /\ bit z = true /\ forall q, z < q < r0 -> bit q = false).
  { clear - G. induction r0 as [|r IH]; [rewrite rank_of_0 in G; lia|]. destruct (bit r) eqn:F.
    - exists r. split; [lia|]. split; auto. intros; lia.
    - rewrite rank_of_S in G. unfold t_bit at 2 in G. rewrite F in G. cbn [b2nat] in G. destruct IH as (z & Z1 & Z2 & Z3); [lia|]. exists z. split; [lia|]. split; auto. intros q Q. destruct (Nat.eq_dec q r) as [->|]; auto. apply Z3. lia. }
  destruct X as (z & Z1 & Z2 & Z3).
  assert (RZ : rank_of (t_bit fc) r0 = rank_of (t_bit fc) z + 1).
  { pose proof (rank_zero (S z) (r0 - S z) ltac:(intros; apply Z3; lia)) as RR. replace (S z + (r0 - S z)) with r0 in RR by lia. rewrite RR, rank_of_S. unfold t_bit at 2. rewrite Z2. reflexivity. }
  rewrite (t_sel1_some fc (rank_of (t_bit fc) r0) z); [|split; [exact Z2|lia]|lia]. cbn [obind]. rewrite csub_le by lia. cbn [obind]. exists (r0 - z). split; auto. split; [lia|]. split.
  - intros q Q. apply Z3. lia.
  - right. rewrite <- Z2. f_equal. lia.
Qed.
(** the next one at or behind r0 *)
Lemma psv_scan_ok : forall r0 z, r0 < z < length fc -> bit z = true -> (forall q, r0 <= q < z -> bit q = false) ->
  forall steps p delta, delta + 1 + r0 = 64 * p -> (forall q, r0 <= q < 64 * p -> bit q = false) -> psv_scan g c steps p delta r0 = Some (z - r0).
Proof.
  intros r0 z ZL ZB Z. induction steps; intros p delta E PZ.
  all: assert (PL : 64 * p <= z) by (destruct (Nat.le_gt_cases (64 * p) z); auto; rewrite PZ in ZB by lia; discriminate).
  all: destruct (fword_some p) as (w & W1 & W2 & W3); [lia|]; cbn [psv_scan]; rewrite W1; cbn [obind]; destruct (anyb w) eqn:AN.
  1,3: destruct (lo_ok w AN) as (H1 & H2 & H3); rewrite W2 in H1; f_equal; assert (64 * p + lo_of w = z) as <-; [|lia];
    destruct (Nat.lt_trichotomy (64 * p + lo_of w) z) as [L|[L|L]]; [rewrite W3, Z in H2 by lia; discriminate|lia|];
    specialize (H3 (z - 64 * p) ltac:(lia)); rewrite W3 in H3 by lia; replace (64 * p + (z - 64 * p)) with z in H3 by lia; congruence.
  - rewrite t_rank_some by lia. cbn [obind]. assert (RZ : rank_of (t_bit fc) (r0 + 1) = rank_of (t_bit fc) z).
    { replace z with (r0 + 1 + (z - (r0 + 1))) by lia. symmetry. apply rank_zero. intros; apply Z; lia. }
    rewrite (t_sel1_some fc _ z); [|split; [exact ZB|lia]|lia]. cbn [obind]. apply csub_le. lia.
  - apply IHsteps; [lia|]. intros q Q. destruct (Nat.lt_ge_cases q (64 * p)) as [L|L]; [apply PZ; lia|].
    pose proof (anyb_false w AN (q - 64 * p)) as H3. destruct (Nat.lt_ge_cases q (length fc)) as [L2|L2]; [|apply nth_overflow; lia].
    rewrite W3 in H3 by lia. replace (64 * p + (q - 64 * p)) with q in H3 by lia. exact H3.
Qed.
End W.
