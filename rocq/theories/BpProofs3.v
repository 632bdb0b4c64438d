(** * The min-max tree of bp_support_sada *)
From Coq Require Import NArith ZArith List Bool Arith Lia.
From Verif Require Import Base SpecBits AbsVec WtBase WtProofs Bp BpProofs BpProofs2.
Import ListNotations.
Open Scope nat_scope.

Lemma inner_ok : forall fuel meds k, meds + 1 <= fuel + 2 ^ k -> 0 < fuel -> exists h, inner_loop fuel meds (2 ^ k) = Some (2 ^ h - 1) /\ meds <= 2 ^ h.
Proof.
  induction fuel; intros meds k H F; [lia|]. cbn [inner_loop]. destruct (Nat.ltb_spec (2 ^ k) meds) as [L|L].
  - change (2 * 2 ^ k) with (2 ^ S k). assert (1 <= 2 ^ k) by (apply Nat.neq_0_lt_0, Nat.pow_nonzero; lia). destruct (Nat.eq_dec fuel 0) as [->|N]; [lia|]. apply IHfuel; [cbn [Nat.pow]; lia|lia].
  - exists k. split; [reflexivity|exact L].
Qed.

(** the medium blocks below node v are nlo .. nhi - 1 *)
Definition nd (v : nat) : nat := Nat.log2 (v + 1).
Definition nlo (h v : nat) : nat := (v + 1 - 2 ^ nd v) * 2 ^ (h - nd v).
Definition nhi (h v : nat) : nat := (v + 1 - 2 ^ nd v + 1) * 2 ^ (h - nd v).
Lemma pow_pos : forall k, 0 < 2 ^ k.
Proof. intros. apply Nat.neq_0_lt_0, Nat.pow_nonzero. lia. Qed.
Lemma nd_spec : forall v, 2 ^ nd v <= v + 1 < 2 * 2 ^ nd v.
Proof. intros. unfold nd. pose proof (Nat.log2_spec (v + 1) ltac:(lia)). rewrite Nat.pow_succ_r' in H. lia. Qed.
Lemma nd_inner : forall h v, v < 2 ^ h - 1 -> nd v < h.
Proof. intros h v H. unfold nd. apply Nat.log2_lt_pow2; lia. Qed.
Lemma nd_left : forall v, nd (2 * v + 1) = S (nd v).
Proof. intros. unfold nd. replace (2 * v + 1 + 1) with (2 * (v + 1)) by lia. apply Nat.log2_double. lia. Qed.
Lemma nd_right : forall v, nd (2 * v + 2) = S (nd v).
Proof. intros. unfold nd. replace (2 * v + 2 + 1) with (2 * (v + 1) + 1) by lia. apply Nat.log2_succ_double. lia. Qed.
Section T.
Variable h : nat.
Lemma children : forall v, v < 2 ^ h - 1 -> nlo h (2 * v + 1) = nlo h v /\ nhi h (2 * v + 1) = nlo h (2 * v + 2) /\ nhi h (2 * v + 2) = nhi h v.
Proof.
  intros v V. pose proof (nd_inner h v V) as D. pose proof (nd_spec v) as S0. unfold nlo, nhi. rewrite nd_left, nd_right.
  assert (E : 2 ^ (h - nd v) = 2 * 2 ^ (h - S (nd v))) by (rewrite <- Nat.pow_succ_r'; f_equal; lia). rewrite E. rewrite (Nat.pow_succ_r' 2 (nd v)).
  generalize dependent (2 ^ (h - S (nd v))). generalize dependent (2 ^ nd v). intros P S0 Q _. repeat split.
  - replace (2 * v + 1 + 1 - 2 * P) with (2 * (v + 1 - P)) by lia. ring.
  - replace (2 * v + 1 + 1 - 2 * P) with (2 * (v + 1 - P)) by lia. replace (2 * v + 2 + 1 - 2 * P) with (2 * (v + 1 - P) + 1) by lia. ring.
  - replace (2 * v + 2 + 1 - 2 * P) with (2 * (v + 1 - P) + 1) by lia. ring.
Qed.
Lemma leaf_range : forall b, b < 2 ^ h -> nlo h (2 ^ h - 1 + b) = b /\ nhi h (2 ^ h - 1 + b) = b + 1.
Proof.
  intros b L. assert (E : nd (2 ^ h - 1 + b) = h).
  { unfold nd. apply Nat.log2_unique; [lia|]. pose proof (pow_pos h). rewrite Nat.pow_succ_r'. lia. }
  unfold nlo, nhi. rewrite E, Nat.sub_diag. pose proof (pow_pos h). change (2 ^ 0) with 1. lia.
Qed.
Lemma nlo_nhi : forall v, nlo h v < nhi h v.
Proof. intros. unfold nlo, nhi. pose proof (pow_pos (h - nd v)). nia. Qed.
Lemma nhi_root : nhi h 0 = 2 ^ h.
Proof. unfold nhi, nd. cbn. rewrite Nat.sub_0_r. lia. Qed.
Lemma nlo_root : nlo h 0 = 0.
Proof. unfold nlo, nd. cbn. reflexivity. Qed.
End T.

Section C.
Open Scope Z_scope.
Variable g : padding.
Variable bp : list bool.
Variables B deg h : nat.
Let n := length bp.
Let f := xb g bp.
Let W := (B * deg)%nat.
Hypothesis HB : (0 < B)%nat.
Hypothesis Hd : (0 < deg)%nat.
Let smls := ((n + B - 1) / B)%nat.
Let meds := ((n + W - 1) / W)%nat.
Let inner := (2 ^ h - 1)%nat.
Hypothesis Hn : (0 < n)%nat.
Hypothesis Hm : (meds <= 2 ^ h)%nat.

Definition clip (x : nat) : nat := Nat.min (x * W) n.
Definition nmin (v : nat) : Z := rmn f (Z.of_nat n) (clip (nlo h v)) (clip (nhi h v)).
Definition nmax (v : nat) : Z := rmx f (- Z.of_nat n) (clip (nlo h v)) (clip (nhi h v)).
Lemma clip_mono : forall a b, (a <= b)%nat -> (clip a <= clip b)%nat.
Proof. intros. unfold clip. apply Nat.min_le_compat_r, Nat.mul_le_mono_r. exact H. Qed.
Lemma clip_n : forall a, (clip a <= n)%nat.
Proof. intros. unfold clip. apply Nat.le_min_r. Qed.
Lemma clip_meds : forall a, (meds <= a)%nat -> clip a = n.
Proof.
  intros. unfold clip. apply Nat.min_r. assert (X : (n <= meds * W)%nat) by (apply ceil_ge; unfold W; nia).
  assert (meds * W <= a * W)%nat by (apply Nat.mul_le_mono_r; lia). lia.
Qed.
Lemma nmin_node : forall v, (v < inner)%nat -> nmin v = Z.min (nmin (2 * v + 1)) (nmin (2 * v + 2)) /\ nmax v = Z.max (nmax (2 * v + 1)) (nmax (2 * v + 2)).
Proof.
  intros v V. destruct (children h v V) as (E1 & E2 & E3). pose proof (nlo_nhi h (2 * v + 1)) as L1. pose proof (nlo_nhi h (2 * v + 2)) as L2.
  unfold nmin, nmax. rewrite E1, E2, E3 in *. split; [apply rmn_app|apply rmx_app]; split; apply clip_mono; lia.
Qed.
Lemma nmin_absent : forall v, (meds + inner <= v)%nat -> (v < inner + 2 ^ h)%nat -> nmin v = Z.of_nat n /\ nmax v = - Z.of_nat n.
Proof.
  intros v L1 L2. destruct (leaf_range h (v - inner)) as [E1 E2]; [lia|]. fold inner in E1, E2. replace (inner + (v - inner))%nat with v in E1, E2 by lia.
  unfold nmin, nmax. rewrite E1, E2, !clip_meds by lia. rewrite rmn_nil, rmx_nil. auto.
Qed.
Lemma nmin_bound : forall v, - Z.of_nat n <= nmin v <= Z.of_nat n /\ - Z.of_nat n <= nmax v <= Z.of_nat n.
Proof.
  intros v. pose proof (nlo_nhi h v). unfold nmin, nmax. split; [apply rmn_bound|apply rmx_bound]; (split; [apply clip_mono; lia|apply clip_n]).
Qed.

(** the values while the loop is at node v *)
Definition TF (v u : nat) : Z := if (u <? inner)%nat then (if (v <? 2 * u + 1)%nat then nmin u else if (v <? 2 * u + 2)%nat then nmin (2 * u + 2) else Z.of_nat n) else nmin u.
Definition TG (v u : nat) : Z := if (u <? inner)%nat then (if (v <? 2 * u + 1)%nat then nmax u else if (v <? 2 * u + 2)%nat then nmax (2 * u + 2) else - Z.of_nat n) else nmax u.

Lemma tree_ok : forall v med, (v < meds + inner)%nat -> pairs med (meds + inner) (fun u => Z.of_nat n - TF v u) (fun u => TG v u + Z.of_nat n) ->
  exists med', tree_loop n v med = Some med' /\ pairs med' (meds + inner) (fun u => Z.of_nat n - nmin u) (fun u => nmax u + Z.of_nat n).
Proof.
  induction v; intros med V P.
  - exists med. split; [reflexivity|]. eapply pairs_ext; [exact P|]. intros u U. cbv beta. unfold TF, TG. rewrite (proj2 (Nat.ltb_lt 0 (2 * u + 1))) by lia. destruct (u <? inner)%nat; auto.
  - cbn [tree_loop]. set (p := (v / 2)%nat).
    assert (Pp : (v = 2 * p \/ v = 2 * p + 1)%nat) by (pose proof (Nat.div_mod v 2 ltac:(lia)); pose proof (Nat.mod_upper_bound v 2 ltac:(lia)); unfold p; lia).
    assert (MI : (meds <= inner + 1)%nat) by (unfold inner; pose proof (pow_pos h); lia).
    assert (PI : (p < inner)%nat) by lia.
    assert (SV : TF (S v) (S v) = nmin (S v) /\ TG (S v) (S v) = nmax (S v)).
    { unfold TF, TG. destruct (S v <? inner)%nat; [|auto]. rewrite (proj2 (Nat.ltb_lt (S v) (2 * S v + 1))) by lia. auto. }
    destruct SV as [SV1 SV2].
    destruct P as [Pl P]. destruct (P (S v) V) as [A1 A2]. destruct (P p ltac:(lia)) as [A3 A4].
    unfold min_value. rewrite A1, A3. cbn [obind]. rewrite SV1.
    replace (Z.of_nat n - (Z.of_nat n - nmin (S v))) with (nmin (S v)) by lia. replace (Z.of_nat n - (Z.of_nat n - TF (S v) p)) with (TF (S v) p) by lia.
    destruct (pairs_even_max _ _ _ _ p (Z.of_nat n - nmin (S v)) (conj Pl P) ltac:(lia)) as (m1 & Q1 & P1).
    assert (R1 : (if nmin (S v) <? TF (S v) p then aset med (2 * p) (Z.of_nat n - nmin (S v)) else Some med) = Some m1).
    { rewrite <- Q1. replace (nmin (S v) <? TF (S v) p) with (Z.of_nat n - TF (S v) p <? Z.of_nat n - nmin (S v)); [reflexivity|]. destruct (Z.ltb_spec (nmin (S v)) (TF (S v) p)); [apply Z.ltb_lt|apply Z.ltb_ge]; lia. }
    rewrite R1. cbn [obind].
    destruct P1 as [P1l P1]. destruct (P1 (S v) V) as [_ B2]. destruct (P1 p ltac:(lia)) as [_ B4]. unfold max_value. rewrite B2, B4. cbn [obind]. rewrite SV2.
    replace (nmax (S v) + Z.of_nat n - Z.of_nat n) with (nmax (S v)) by lia. replace (TG (S v) p + Z.of_nat n - Z.of_nat n) with (TG (S v) p) by lia.
    destruct (pairs_odd_max _ _ _ _ p (nmax (S v) + Z.of_nat n) (conj P1l P1) ltac:(lia)) as (m2 & Q2 & P2).
    assert (R2 : (if TG (S v) p <? nmax (S v) then aset m1 (2 * p + 1) (nmax (S v) + Z.of_nat n) else Some m1) = Some m2).
    { rewrite <- Q2. replace (TG (S v) p <? nmax (S v)) with (TG (S v) p + Z.of_nat n <? nmax (S v) + Z.of_nat n); [reflexivity|]. destruct (Z.ltb_spec (TG (S v) p) (nmax (S v))); [apply Z.ltb_lt|apply Z.ltb_ge]; lia. }
    rewrite R2. cbn [obind]. apply IHv; [lia|].
    eapply pairs_ext; [exact P2|]. intros u U. cbv beta.
    destruct (nmin_node p PI) as [N1 N2]. pose proof (nmin_bound (2 * p + 1)) as [Z1 Z2]. pose proof (nmin_bound (2 * p + 2)) as [Z3 Z4].
    destruct (Nat.eqb_spec u p) as [->|NU].
    + unfold TF, TG. rewrite (proj2 (Nat.ltb_lt p inner) PI). destruct Pp as [Pp|Pp].
      * assert (T1 : (S v <? 2 * p + 1)%nat = false) by (apply Nat.ltb_ge; lia). assert (T2 : (S v <? 2 * p + 2)%nat = true) by (apply Nat.ltb_lt; lia).
        assert (T3 : (v <? 2 * p + 1)%nat = true) by (apply Nat.ltb_lt; lia). rewrite T1, T2, T3. replace (S v) with (2 * p + 1)%nat by lia. rewrite N1, N2. lia.
      * assert (T1 : (S v <? 2 * p + 1)%nat = false) by (apply Nat.ltb_ge; lia). assert (T2 : (S v <? 2 * p + 2)%nat = false) by (apply Nat.ltb_ge; lia).
        assert (T3 : (v <? 2 * p + 1)%nat = false) by (apply Nat.ltb_ge; lia). assert (T4 : (v <? 2 * p + 2)%nat = true) by (apply Nat.ltb_lt; lia).
        rewrite T1, T2, T3, T4. replace (S v) with (2 * p + 2)%nat by lia. lia.
    + unfold TF, TG. destruct (u <? inner)%nat; [|auto].
      replace (v <? 2 * u + 1)%nat with (S v <? 2 * u + 1)%nat by (destruct (Nat.ltb_spec (S v) (2 * u + 1)); symmetry; [apply Nat.ltb_lt|apply Nat.ltb_ge]; lia).
      replace (v <? 2 * u + 2)%nat with (S v <? 2 * u + 2)%nat by (destruct (Nat.ltb_spec (S v) (2 * u + 2)); symmetry; [apply Nat.ltb_lt|apply Nat.ltb_ge]; lia).
      auto.
Qed.

(** the leaves are the medium blocks, the inner nodes are empty at first *)
Lemma tree_start : forall u, (u < meds + inner)%nat -> MF g bp B deg inner n u = Z.of_nat n - TF (meds + inner - 1) u /\ MG g bp B deg inner n u = TG (meds + inner - 1) u + Z.of_nat n.
Proof.
  intros u U. unfold MF, MG, TF, TG. fold n f W. destruct (Nat.ltb_spec u inner) as [L|L].
  - assert (MI : (meds <= inner + 1)%nat) by (unfold inner; pose proof (pow_pos h); lia).
    assert (M1 : (0 < meds)%nat) by (unfold meds; apply Nat.div_str_pos; unfold W; nia).
    destruct (nmin_node u L) as [N1 N2].
    destruct (Nat.ltb_spec (meds + inner - 1) (2 * u + 1)) as [T1|T1].
    + destruct (nmin_absent (2 * u + 1)) as [X1 X2]; [lia|unfold inner in *; lia|]. destruct (nmin_absent (2 * u + 2)) as [Y1 Y2]; [lia|unfold inner in *; lia|].
      rewrite N1, N2, X1, X2, Y1, Y2. lia.
    + destruct (Nat.ltb_spec (meds + inner - 1) (2 * u + 2)) as [T2|T2]; [|lia].
      destruct (nmin_absent (2 * u + 2)) as [Y1 Y2]; [lia|unfold inner in *; lia|]. rewrite Y1, Y2. lia.
  - destruct (leaf_range h (u - inner)) as [E1 E2]; [lia|]. fold inner in E1, E2. replace (inner + (u - inner))%nat with u in E1, E2 by lia.
    unfold nmin, nmax, clip. rewrite E1, E2. auto.
Qed.
End C.

(** ** What the constructor establishes *)
Open Scope Z_scope.
Definition bp_ok (g : padding) (B deg h : nat) (bp : list bool) (t : bps) : Prop :=
  let n := length bp in let W := (B * deg)%nat in
  b_smls t = ((n + B - 1) / B)%nat /\ b_meds t = ((n + W - 1) / W)%nat /\ b_inner t = (2 ^ h - 1)%nat /\ (b_meds t <= 2 ^ h)%nat /\
  pairs (b_sml t) (b_smls t) (fun s => 1 - smin g bp B s) (fun s => smax g bp B s + 1) /\
  pairs (b_med t) (b_meds t + b_inner t) (fun u => Z.of_nat n - nmin g bp B deg h u) (fun u => nmax g bp B deg h u + Z.of_nat n).

Theorem make_ok : forall g B deg bp, (0 < B)%nat -> (0 < deg)%nat -> bp <> [] -> exists t h, bp_make B deg bp = Some t /\ bp_ok g B deg h bp t.
Proof.
  intros g B deg bp HB Hd NE. unfold bp_make. assert (Hn : (0 < length bp)%nat) by (destruct bp; [congruence|cbn [length]; lia]).
  rewrite (proj2 (Nat.eqb_neq _ 0)) by lia. cbv zeta. set (n := length bp) in *. set (meds := ((n + B * deg - 1) / (B * deg))%nat). set (smls := ((n + B - 1) / B)%nat).
  destruct (inner_ok (meds + 1) meds 0) as (h & E & Hm); [change (2 ^ 0)%nat with 1%nat; lia|lia|]. change (2 ^ 0)%nat with 1%nat in E. rewrite E. cbn [obind].
  set (inner := (2 ^ h - 1)%nat) in *.
  destruct (fill_ok g bp B deg inner HB Hd bp 0 (mkcst 1 (-1) 0 0 (repeat 0 (2 * smls)) (repeat 0 (2 * (meds + inner))))) as (s & F & P1 & P2).
  - reflexivity. - exact NE. - intros k K. unfold xb. rewrite Nat.add_0_l. apply nth_indep. exact K.
  - unfold Inv. cbv zeta. rewrite Nat.div_0_l by lia. cbn [Nat.mul ex c_abs c_rel c_min c_max c_sml c_med]. rewrite rmn_nil, rmx_nil, Nat.mul_0_l. cbn [ex]. repeat (split; [reflexivity|]).
    split; (eapply pairs_ext; [apply pairs_zero|]); intros u U; cbv beta.
    + unfold SF, SG. cbn [Nat.ltb Nat.leb]. destruct u; auto.
    + unfold MF, MG. rewrite !Nat.min_0_r, rmn_nil, rmx_nil. destruct (u <? inner)%nat; [auto|]. lia.
  - fold n meds smls in F, P1, P2. rewrite F. cbn [obind].
    assert (M1 : (0 < meds)%nat) by (unfold meds; apply Nat.div_str_pos; nia).
    destruct (tree_ok g bp B deg h HB Hd Hn Hm (meds + inner - 1) (c_med s)) as (med & T & P3).
    + fold n meds inner. lia.
    + fold n meds inner. eapply pairs_ext; [exact P2|]. intros u U. cbv beta. fold n meds. apply (tree_start g bp B deg h HB Hd Hn Hm u). fold n meds inner. exact U.
    + fold n meds inner in T, P3. rewrite T. cbn [obind]. eexists _, h. split; [reflexivity|]. unfold bp_ok. cbn [b_smls b_meds b_inner b_sml b_med]. fold n meds smls inner.
      split; [reflexivity|]. split; [reflexivity|]. split; [reflexivity|]. split; [exact Hm|]. split; [|exact P3].
      eapply pairs_ext; [exact P1|]. intros u U. cbv beta. unfold SF, SG. rewrite (proj2 (Nat.ltb_lt u smls) U). auto.
Qed.
