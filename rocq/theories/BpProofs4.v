(** * fwd_excess and bwd_excess of bp_support_sada *)
From Coq Require Import NArith ZArith List Bool Arith Lia.
From Verif Require Import Base SpecBits AbsVec WtBase WtProofs Bp BpProofs BpProofs2 BpProofs3.
Import ListNotations.
Open Scope nat_scope.

Lemma div_range : forall x q K, q * K <= x < (q + 1) * K -> x / K = q.
Proof. intros. symmetry. apply (Nat.div_unique x K q (x - q * K)); lia. Qed.

Section Q.
Variable g : padding.
Variable bp : list bool.
Variables B deg h c : nat.
Variable t : bps.
Let n := length bp.
Let f := xb g bp.
Let W := B * deg.
Hypothesis HB : B = 8 * c.
Hypothesis Hc : 0 < c.
Hypothesis Hd : 0 < deg.
Hypothesis Hn : 0 < n.
Hypothesis OK : bp_ok g B deg h bp t.
Let smls := b_smls t.
Let meds := b_meds t.
Let inner := b_inner t.

Lemma B_pos : 0 < B. Proof. lia. Qed.
Lemma W_pos : 0 < W. Proof. unfold W. pose proof B_pos. nia. Qed.
Lemma smls_lt : forall i, i < n -> i / B < smls.
Proof. intros i I. destruct OK as (E & _). unfold smls. rewrite E. apply ceil_lt; [apply B_pos|exact I]. Qed.
Lemma meds_lt : forall i, i < n -> i / W < meds.
Proof. intros i I. destruct OK as (_ & E & _). unfold meds. rewrite E. apply ceil_lt; [apply W_pos|exact I]. Qed.
Lemma inner_eq : inner = 2 ^ h - 1. Proof. apply OK. Qed.
Lemma meds_le : meds <= 2 ^ h. Proof. apply OK. Qed.

Lemma contains_ok : forall v want, v < meds + inner -> exists b, contains n t v want = Some b /\
  (b = true <-> exists p, clip bp B deg (nlo h v) < p <= clip bp B deg (nhi h v) /\ ex f p = want).
Proof.
  intros v want V. destruct OK as (_ & _ & _ & _ & _ & _ & P). specialize (P v V). cbv beta in P. destruct P as [P1 P2].
  unfold contains, min_value, max_value. fold n in P1, P2. rewrite P1, P2. cbn [obind].
  replace (Z.of_nat n - (Z.of_nat n - nmin g bp B deg h v))%Z with (nmin g bp B deg h v) by lia.
  replace (nmax g bp B deg h v + Z.of_nat n - Z.of_nat n)%Z with (nmax g bp B deg h v) by lia. eexists. split; [reflexivity|].
  rewrite andb_true_iff, !Z.leb_le. unfold nmin, nmax. fold f n. split.
  - intros [A1 A2]. apply (occurs f n); try assumption. pose proof (nlo_nhi h v). split; [apply clip_mono; lia|apply clip_n].
  - intros (p & P & <-). split; [apply rmn_le|apply rmx_ge]; exact P.
Qed.
Lemma sml_ok : forall s want, s * B < n -> exists e a b, exc bp (s * B) = Some e /\ e = ex f (s * B) /\ nth_error (b_sml t) (2 * s) = Some a /\ nth_error (b_sml t) (2 * s + 1) = Some b /\
  ((e + (1 - a) <= want <= e + b - 1)%Z <-> exists p, s * B < p <= Nat.min ((s + 1) * B) n /\ ex f p = want).
Proof.
  intros s want L. assert (SL : s < smls) by (rewrite <- (Nat.div_mul s B) by (pose proof B_pos; lia); apply smls_lt; exact L).
  destruct OK as (_ & _ & _ & _ & [_ P] & _). specialize (P s SL). cbv beta in P. destruct P as [P1 P2].
  exists (ex f (s * B)), (1 - smin g bp B s)%Z, (smax g bp B s + 1)%Z. split; [apply exc_ok; fold n; lia|]. split; [reflexivity|]. split; [exact P1|]. split; [exact P2|].
  pose proof (ex_step f (s * B)) as E1. pose proof (ex_bound f (S (s * B))) as E2. pose proof B_pos.
  assert (L2 : s * B < Nat.min ((s + 1) * B) n) by (apply Nat.min_glb_lt; nia).
  unfold smin, smax. fold f n. rewrite (rmn_base f (ex f (s * B) + 1) (Z.of_nat n)) by lia. rewrite (rmx_base f (ex f (s * B) - 1) (- Z.of_nat n)) by lia.
  split.
  - intros A. apply (occurs f n); [split; [lia|apply Nat.le_min_r]|exact Hn|lia|lia].
  - intros (p & P & <-). pose proof (rmn_le f (Z.of_nat n) _ _ p P). pose proof (rmx_ge f (- Z.of_nat n) _ _ p P). lia.
Qed.

(** ** Forward *)
Section Fwd.
Variable T : Z.
Variables a j : nat.
(** all excess values from a to j are larger, the one behind j is T *)
Hypothesis Ha : a <= j.
Hypothesis Hj : j < n.
Hypothesis Ej : ex f (S j) = T.
Hypothesis Mj : forall k, a <= k <= j -> (ex f k > T)%Z.

Lemma fm_hit : forall fuel s last, a <= s * B -> s <= j / B -> j / B < last -> last - s < fuel -> fwd_med_loop fuel g B bp t s last T = Some j.
Proof.
  pose proof B_pos as BP. pose proof (blk j B BP) as JB.
  induction fuel; intros s last A L1 L2 F; [lia|]. cbn [fwd_med_loop]. rewrite (proj2 (Nat.ltb_lt s last)) by lia.
  assert (SB : s * B <= j) by (assert (s * B <= j / B * B) by (apply Nat.mul_le_mono_r; lia); lia).
  destruct (sml_ok s T) as (e & x & y & E1 & E2 & E3 & E4 & E5); [lia|]. rewrite E1, E3, E4. cbn [obind]. fold n.
  destruct (Nat.eq_dec s (j / B)) as [Es|Ns].
  - assert (X : (e + (1 - x) <= T <= e + y - 1)%Z).
    { apply E5. exists (S j). split; [|exact Ej]. split; [lia|]. apply Nat.min_glb; [rewrite Es; lia|lia]. }
    rewrite (proj2 (Z.leb_le _ _) (proj1 X)), (proj2 (Z.leb_le _ _) (proj2 X)). cbn [andb]. rewrite E2.
    apply (near_fwd_hit g bp B c HB Hc); fold f.
    + apply Mj. lia. + split; [lia|]. split; [exact Ej|]. intros k K. apply Mj. lia.
    + rewrite Nat.div_mul by lia. rewrite Es. lia. + pose proof (cap_n bp). fold n in H. lia.
  - assert (X : ~ (e + (1 - x) <= T <= e + y - 1)%Z).
    { rewrite E5. intros (p & P & Ep). assert (Q : (s + 1) * B <= j / B * B) by (apply Nat.mul_le_mono_r; lia). assert (p <= (s + 1) * B) by (pose proof (Nat.le_min_l ((s + 1) * B) n); lia).
      specialize (Mj p ltac:(lia)). lia. }
    destruct ((e + (1 - x) <=? T)%Z && (T <=? e + y - 1)%Z) eqn:Y.
    { apply andb_true_iff in Y. rewrite !Z.leb_le in Y. contradiction. }
    apply IHfuel; lia.
Qed.
Lemma fm_miss : forall fuel s last, a <= s * B -> last <= j / B -> last - s < fuel -> fwd_med_loop fuel g B bp t s last T = Some n.
Proof.
  pose proof B_pos as BP. pose proof (blk j B BP) as JB.
  induction fuel; intros s last A L2 F; [lia|]. cbn [fwd_med_loop]. destruct (Nat.ltb_spec s last) as [L|L]; [|reflexivity].
  assert (Q : (s + 1) * B <= j / B * B) by (apply Nat.mul_le_mono_r; lia). assert (Q2 : s * B <= (s + 1) * B) by (apply Nat.mul_le_mono_r; lia).
  destruct (sml_ok s T) as (e & x & y & E1 & E2 & E3 & E4 & E5); [lia|]. rewrite E1, E3, E4. cbn [obind]. fold n.
  assert (X : ~ (e + (1 - x) <= T <= e + y - 1)%Z).
  { rewrite E5. intros (p & P & Ep). assert (p <= (s + 1) * B) by (pose proof (Nat.le_min_l ((s + 1) * B) n); lia). specialize (Mj p ltac:(lia)). lia. }
  destruct ((e + (1 - x) <=? T)%Z && (T <=? e + y - 1)%Z) eqn:Y.
  { apply andb_true_iff in Y. rewrite !Z.leb_le in Y. contradiction. }
  apply IHfuel; lia.
Qed.

Lemma clip_lo : forall x, x * W <= n -> clip bp B deg x = x * W.
Proof. intros. unfold clip. fold n W. apply Nat.min_l. exact H. Qed.
(** a node right of a contains the value iff j is below it *)
Lemma cont_fwd : forall v, v < meds + inner -> a <= nlo h v * W -> nlo h v * W <= j ->
  contains n t v T = Some (j <? nhi h v * W).
Proof.
  intros v V A L. destruct (contains_ok v T V) as (b & E & I). rewrite E. f_equal. rewrite (clip_lo (nlo h v)) in I by lia. unfold clip in I. fold n W in I.
  destruct (Nat.ltb_spec j (nhi h v * W)) as [Q|Q].
  - apply I. exists (S j). split; [|exact Ej]. lia.
  - destruct b; [|reflexivity]. destruct (proj1 I eq_refl) as (p & P & Ep). specialize (Mj p ltac:(lia)). lia.
Qed.
Lemma up_ok : forall fuel v, v < fuel -> v < meds + inner -> a <= nhi h v * W -> nhi h v * W <= j ->
  exists u, up_right fuel n t v T = Some u /\ u <> 0 /\ u < meds + inner /\ a <= nlo h u * W /\ nlo h u * W <= j < nhi h u * W.
Proof.
  pose proof inner_eq as IE. pose proof meds_le as ML. pose proof (pow_pos h) as PH. pose proof (meds_lt j Hj) as JM. pose proof W_pos as WP. pose proof (blk j W WP) as JW.
  induction fuel; intros v F V A L; [lia|]. cbn [up_right]. destruct (Nat.eqb_spec v 0) as [->|N].
  - rewrite nhi_root in L. exfalso. assert ((j / W + 1) * W <= 2 ^ h * W) by (apply Nat.mul_le_mono_r; lia). lia.
  - assert (Vp : exists u, u < inner /\ (v = 2 * u + 1 \/ v = 2 * u + 2)).
    { exists ((v - 1) / 2). pose proof (Nat.div_mod (v - 1) 2 ltac:(lia)). pose proof (Nat.mod_upper_bound (v - 1) 2 ltac:(lia)). split; lia. }
    destruct Vp as (u & U & Vu). rewrite IE in U. destruct (children h u U) as (C1 & C2 & C3). rewrite <- IE in U.
    destruct Vu as [-> | ->].
    + replace ((2 * u + 1) mod 2) with 1 by (rewrite Nat.add_comm, Nat.mul_comm, Nat.mod_add by lia; reflexivity). cbn [Nat.eqb]. replace (2 * u + 1 + 1) with (2 * u + 2) by lia.
      rewrite C2 in A, L.
      assert (V2 : 2 * u + 2 < meds + inner).
      { destruct (Nat.lt_ge_cases (2 * u + 2) inner) as [|G]; [lia|]. destruct (leaf_range h (2 * u + 2 - inner)) as [R _]; [lia|]. rewrite <- IE in R. replace (inner + (2 * u + 2 - inner)) with (2 * u + 2) in R by lia.
        rewrite R in L. assert (2 * u + 2 - inner <= j / W) by (apply Nat.div_le_lower_bound; lia). lia. }
      rewrite (cont_fwd _ V2 A L). cbn [obind]. destruct (Nat.ltb_spec j (nhi h (2 * u + 2) * W)) as [Q|Q].
      * exists (2 * u + 2). split; [reflexivity|]. lia.
      * replace ((2 * u + 1) / 2) with u by (symmetry; apply div_range; lia). pose proof (nlo_nhi h (2 * u + 2)) as NH. rewrite C3 in Q, NH. apply IHfuel; [lia|lia| |exact Q].
        assert (nlo h (2 * u + 2) * W <= nhi h u * W) by (apply Nat.mul_le_mono_r; lia). lia.
    + replace ((2 * u + 2) mod 2) with 0 by (replace (2 * u + 2) with (0 + (u + 1) * 2) by lia; rewrite Nat.mod_add by lia; reflexivity). cbn [Nat.eqb].
      replace ((2 * u + 2 - 1) / 2) with u by (symmetry; apply div_range; lia). rewrite C3 in A, L. apply IHfuel; [lia|lia|exact A|exact L].
Qed.
Lemma down_ok : forall fuel v, inner < fuel + v -> v < meds + inner -> a <= nlo h v * W -> nlo h v * W <= j < nhi h v * W -> 0 < fuel ->
  down_left fuel n t v T = Some (inner + j / W).
Proof.
  pose proof inner_eq as IE. pose proof meds_le as ML. pose proof (pow_pos h) as PH. pose proof (meds_lt j Hj) as JM. pose proof W_pos as WP. pose proof (blk j W WP) as JW.
  induction fuel; intros v F V A L FP; [lia|]. cbn [down_left]. fold inner. destruct (Nat.leb_spec inner v) as [Q|Q].
  - destruct (leaf_range h (v - inner)) as [R1 R2]; [lia|]. rewrite <- IE in R1, R2. replace (inner + (v - inner)) with v in R1, R2 by lia. rewrite R1, R2 in L.
    rewrite (div_range j (v - inner) W) by lia. f_equal. lia.
  - pose proof Q as U. rewrite IE in U. destruct (children h v U) as (C1 & C2 & C3).
    assert (V2 : 2 * v + 1 < meds + inner).
    { destruct (Nat.lt_ge_cases (2 * v + 1) inner) as [|G]; [lia|]. destruct (leaf_range h (2 * v + 1 - inner)) as [R _]; [lia|]. rewrite <- IE in R. replace (inner + (2 * v + 1 - inner)) with (2 * v + 1) in R by lia.
      rewrite R in C1. assert (2 * v + 1 - inner <= j / W) by (apply Nat.div_le_lower_bound; [lia|]; rewrite C1; lia). lia. }
    rewrite cont_fwd; [|exact V2|rewrite C1; exact A|rewrite C1; lia]. cbn [obind]. destruct (Nat.ltb_spec j (nhi h (2 * v + 1) * W)) as [J|J].
    + apply IHfuel; [lia|exact V2|rewrite C1; exact A|rewrite C1; lia|lia].
    + rewrite C2 in J. pose proof (nlo_nhi h (2 * v + 1)) as NH. rewrite C1, C2 in NH.
      assert (X : nlo h v * W <= nlo h (2 * v + 2) * W) by (apply Nat.mul_le_mono_r; lia).
      apply IHfuel; [lia| |lia|rewrite C3; lia|lia].
      destruct (Nat.lt_ge_cases (2 * v + 2) inner) as [|G]; [lia|]. destruct (leaf_range h (2 * v + 2 - inner)) as [R _]; [lia|]. rewrite <- IE in R. replace (inner + (2 * v + 2 - inner)) with (2 * v + 2) in R by lia.
      rewrite R in J. assert (2 * v + 2 - inner <= j / W) by (apply Nat.div_le_lower_bound; lia). lia.
Qed.
End Fwd.

Lemma sml_med : forall j, j / B / deg = j / W.
Proof. intros. unfold W. apply Nat.div_div; [pose proof B_pos; lia|lia]. Qed.
Lemma med_of_sml : forall s, s * B / W = s / deg.
Proof. intros. unfold W. rewrite (Nat.mul_comm s B). apply Nat.div_mul_cancel_l; [lia|pose proof B_pos; lia]. Qed.

Theorem fwd_excess_ok : forall i j rel, i < j < n -> (rel < 0)%Z -> ex f (S j) = (ex f (S i) + rel)%Z -> (forall k, i < k <= j -> (ex f k > ex f (S i) + rel)%Z) ->
  fwd_excess g B deg bp t i rel = Some j.
Proof.
  intros i j rel L R E M. pose proof B_pos as BP. pose proof W_pos as WP. pose proof (cap_n bp) as CN. fold n in CN. unfold fwd_excess. fold n.
  set (T := (ex f (S i) + rel)%Z) in *. replace rel with (T - ex f (i + 1))%Z by (rewrite Nat.add_1_r; lia).
  destruct (Nat.lt_ge_cases j (((i + 1) / B + 1) * B)) as [Q|Q].
  - pose proof (near_fwd_hit g bp B c HB Hc T (i + 1) j) as X. fold f in X. rewrite X; clear X.
    + cbn [obind]. rewrite (proj2 (Nat.ltb_lt i j)) by lia. reflexivity.
    + rewrite Nat.add_1_r. lia. + split; [lia|]. split; [exact E|]. intros k K. apply M. lia. + exact Q. + lia.
  - pose proof (near_fwd_miss g bp B c HB Hc T (i + 1)) as X. fold f in X. rewrite X; clear X.
    2: { rewrite Nat.add_1_r. lia. } 2: { intros k K. apply M. lia. } 2: { lia. }
    rewrite (csub_some (i + 1) 1 i) by lia. cbn [obind]. rewrite Nat.ltb_irrefl. rewrite (exc_ok g) by (fold n; lia). cbn [obind]. fold f.
    replace (ex f (i + 1) + (T - ex f (i + 1)))%Z with T by lia.
    assert (A1 : i + 1 <= (i / B + 1) * B) by (pose proof (blk i B BP); lia).
    assert (Mj : forall k, i + 1 <= k <= j -> (ex f k > T)%Z) by (intros; apply M; lia).
    unfold fwd_excess_in_med_block. fold W smls. rewrite med_of_sml.
    set (last := Nat.min (((i / B + 1) / deg + 1) * deg) smls). pose proof (smls_lt j ltac:(lia)) as JS.
    destruct (Nat.lt_ge_cases (j / B) last) as [Q2|Q2].
    + rewrite (fm_hit T (i + 1) j ltac:(lia) ltac:(lia) E Mj); [|exact A1| |exact Q2|lia].
      * cbn [obind]. rewrite (proj2 (Nat.eqb_neq j n)) by lia. reflexivity.
      * apply Nat.div_le_lower_bound; [lia|]. pose proof (blk (i + 1) B BP). assert (i / B <= (i + 1) / B) by (apply Nat.div_le_mono; lia). nia.
    + rewrite (fm_miss T (i + 1) j ltac:(lia) ltac:(lia) Mj); [|exact A1|exact Q2|lia]. cbn [obind]. fold n. rewrite Nat.eqb_refl. cbn [negb].
      pose proof (meds_lt i ltac:(lia)) as IM. fold meds inner. rewrite (proj2 (Nat.eqb_neq (i / W) meds)) by lia.
      assert (JL : (i / W + 1) * deg <= j / B).
      { assert ((i / W) <= (i / B + 1) / deg) by (rewrite <- sml_med; apply Nat.div_le_mono; lia). assert ((i / W + 1) * deg <= ((i / B + 1) / deg + 1) * deg) by (apply Nat.mul_le_mono_r; lia). unfold last in Q2. lia. }
      assert (IJ : (i / W + 1) * W <= j).
      { pose proof (blk j B BP). assert ((i / W + 1) * deg * B <= j / B * B) by (apply Nat.mul_le_mono_r; exact JL). unfold W at 2. nia. }
      pose proof (blk i W WP) as IW. pose proof inner_eq as IE. pose proof meds_le as ML.
      destruct (leaf_range h (i / W)) as [R1 R2]; [lia|]. rewrite <- IE in R1, R2.
      destruct (up_ok T (i + 1) j ltac:(lia) ltac:(lia) E Mj (inner + meds + 1) (inner + i / W)) as (u & U1 & U2 & U3 & U4 & U5); [lia|lia|rewrite R2; lia|rewrite R2; exact IJ|].
      rewrite U1. cbn [obind]. rewrite (proj2 (Nat.eqb_neq u 0) U2). cbn [negb].
      rewrite (down_ok T (i + 1) j ltac:(lia) ltac:(lia) E Mj); [|lia|exact U3|exact U4|exact U5|lia]. cbn [obind].
      rewrite (csub_some _ _ (j / W)) by lia. cbn [obind].
      rewrite med_of_sml, Nat.div_mul by lia. fold smls. pose proof (blk (j / B) deg ltac:(lia)) as JD. rewrite sml_med in JD.
      apply (fm_hit T (i + 1) j ltac:(lia) ltac:(lia) E Mj); [|lia|apply Nat.min_glb_lt; lia|lia].
      assert (X : (i / W + 1) * W <= (j / W) * W).
      { apply Nat.mul_le_mono_r. apply Nat.div_le_lower_bound; [lia|]. rewrite Nat.mul_comm. exact IJ. }
      replace (j / W * deg * B) with (j / W * W) by (unfold W at 2; ring). lia.
Qed.

(** ** Backward *)
Section Bwd.
Variable T : Z.
Variables p a : nat.
(** all excess values from p+1 to a are larger, the one at p is T *)
Hypothesis Ha : p <= a.
Hypothesis Han : a < n.
Hypothesis Ep : 0 < p -> ex f p = T.
Hypothesis Mp : forall k, p < k <= a -> (ex f k > T)%Z.

Lemma bm_step : forall s first, first <= s -> (s + 1) * B <= a -> p <= s * B ->
  bwd_med_loop g B bp t (S s) first T = bwd_med_loop g B bp t s first T.
Proof.
  intros s first F A L. pose proof B_pos as BP. cbn [bwd_med_loop]. rewrite (proj2 (Nat.leb_le _ _) F).
  destruct (sml_ok s T) as (e & x & y & E1 & E2 & E3 & E4 & E5); [nia|]. rewrite E1, E3, E4. cbn [obind].
  destruct ((e + (1 - x) <=? T)%Z && (T <=? e + (y - 1))%Z) eqn:Y; [|reflexivity].
  apply andb_true_iff in Y. rewrite !Z.leb_le in Y. destruct (proj1 E5 ltac:(lia)) as (k & K & Ek). pose proof (Nat.le_min_l ((s + 1) * B) n). specialize (Mp k ltac:(lia)). lia.
Qed.
Lemma bm_found : forall s first, s = (p - 1) / B -> (s + 1) * B <= a -> 0 < p -> first <= s -> bwd_med_loop g B bp t (S s) first T = Some (Z.of_nat p - 1)%Z.
Proof.
  intros s first Es A P F. pose proof B_pos as BP. pose proof (blk (p - 1) B BP) as PB. rewrite <- Es in PB.
  cbn [bwd_med_loop]. rewrite (proj2 (Nat.leb_le first s)) by lia.
  destruct (sml_ok s T) as (e & x & y & E1 & E2 & E3 & E4 & E5); [lia|]. rewrite E1, E3, E4. cbn [obind].
  assert (X : (e + (1 - x) <= T <= e + y - 1)%Z) by (apply E5; exists p; split; [rewrite Nat.min_l by lia; lia|exact (Ep P)]).
  rewrite (proj2 (Z.leb_le (e + (1 - x)) T)) by lia. rewrite (proj2 (Z.leb_le T (e + (y - 1)))) by lia. cbn [andb]. rewrite (exc_ok g) by (fold n; lia). cbn [obind]. fold f.
  assert (PS : 1 <= (s + 1) * B) by nia.
  assert (X1 : (s + 1) * B + 1 = S (S ((s + 1) * B - 1))) by (clear - PS; lia). rewrite X1. assert (X2 : S ((s + 1) * B - 1) = (s + 1) * B) by (clear - PS; lia).
  apply (near_bwd_hit g bp B c HB Hc).
  - rewrite X2. split; [lia|]. split; [exact (Ep P)|]. intros k K. apply Mp. lia.
  - rewrite (div_range ((s + 1) * B - 1) s B) by lia. lia.
  - rewrite X2. fold n. lia.
Qed.
Lemma bm_hit : forall s first, (s + 1) * B <= a -> 0 < p -> (p - 1) / B <= s -> first <= (p - 1) / B -> bwd_med_loop g B bp t (S s) first T = Some (Z.of_nat p - 1)%Z.
Proof.
  pose proof B_pos as BP. pose proof (blk (p - 1) B BP) as PB.
  induction s; intros first A P L F.
  - apply bm_found; lia.
  - destruct (Nat.eq_dec ((p - 1) / B) (S s)) as [Es|Ns].
    + apply bm_found; lia.
    + rewrite bm_step; [|lia|exact A|]. * apply IHs; try assumption; try lia.
      * assert (((p - 1) / B + 1) * B <= S s * B) by (apply Nat.mul_le_mono_r; lia). lia.
Qed.
(** nothing found in the blocks first .. s1-1; with at least two small blocks per medium block the loop never ends at block 0 *)
Lemma bm_miss : forall s1 first, first <= s1 -> s1 * B <= a -> p <= first * B -> first <> 1 -> bwd_med_loop g B bp t s1 first T = Some (Z.of_nat n).
Proof.
  induction s1; intros first F A P F1; [reflexivity|].
  destruct (Nat.eq_dec first (S s1)) as [->|N].
  - cbn [bwd_med_loop]. rewrite (proj2 (Nat.leb_gt (S s1) s1)) by lia. rewrite (proj2 (Nat.eqb_neq s1 0)) by lia. reflexivity.
  - rewrite bm_step; [|lia|rewrite Nat.add_1_r; exact A|]. + apply IHs1; try lia.
    + assert (first * B <= s1 * B) by (apply Nat.mul_le_mono_r; lia). lia.
Qed.

Lemma cont_bwd : forall v, v < meds + inner -> nhi h v * W <= a -> p <= nhi h v * W ->
  contains n t v T = Some (nlo h v * W <? p).
Proof.
  intros v V A L. destruct (contains_ok v T V) as (b & E & I). rewrite E. f_equal. pose proof (nlo_nhi h v) as NH. assert (NW : nlo h v * W <= nhi h v * W) by (apply Nat.mul_le_mono_r; lia).
  rewrite (clip_lo (nhi h v)), (clip_lo (nlo h v)) in I by lia.
  destruct (Nat.ltb_spec (nlo h v * W) p) as [Q|Q].
  - apply I. exists p. split; [lia|apply Ep; lia].
  - destruct b; [|reflexivity]. destruct (proj1 I eq_refl) as (k & K & Ek). specialize (Mp k ltac:(lia)). lia.
Qed.
(** up: a node left of the start that contains the value, or the root if p = 0 *)
Lemma upl_ok : forall fuel v, v < fuel -> v < meds + inner -> nlo h v * W <= a -> p <= nlo h v * W ->
  exists u, up_left fuel n t v T = Some u /\ u < meds + inner /\ (u = 0 /\ p = 0 \/ u <> 0 /\ nhi h u * W <= a /\ nlo h u * W < p <= nhi h u * W).
Proof.
  pose proof inner_eq as IE. pose proof meds_le as ML. pose proof (pow_pos h) as PH.
  induction fuel; intros v F V A L; [lia|]. cbn [up_left]. destruct (Nat.eqb_spec v 0) as [->|N].
  - rewrite nlo_root in L. exists 0. split; [reflexivity|]. split; [exact V|]. left. lia.
  - assert (Vp : exists u, u < inner /\ (v = 2 * u + 1 \/ v = 2 * u + 2)).
    { exists ((v - 1) / 2). pose proof (Nat.div_mod (v - 1) 2 ltac:(lia)). pose proof (Nat.mod_upper_bound (v - 1) 2 ltac:(lia)). split; lia. }
    destruct Vp as (u & U & Vu). rewrite IE in U. destruct (children h u U) as (C1 & C2 & C3). rewrite <- IE in U.
    destruct Vu as [-> | ->].
    + replace ((2 * u + 1) mod 2) with 1 by (rewrite Nat.add_comm, Nat.mul_comm, Nat.mod_add by lia; reflexivity). cbn [Nat.eqb].
      replace ((2 * u + 1 - 1) / 2) with u by (symmetry; apply div_range; lia). rewrite C1 in A, L. apply IHfuel; [lia|lia|exact A|exact L].
    + replace ((2 * u + 2) mod 2) with 0 by (replace (2 * u + 2) with (0 + (u + 1) * 2) by lia; rewrite Nat.mod_add by lia; reflexivity). cbn [Nat.eqb].
      replace (2 * u + 2 - 1) with (2 * u + 1) by lia. rewrite <- C2 in A, L.
      rewrite cont_bwd; [|lia|exact A|exact L]. cbn [obind]. destruct (Nat.ltb_spec (nlo h (2 * u + 1) * W) p) as [Q|Q].
      * exists (2 * u + 1). split; [reflexivity|]. split; [lia|]. right. split; [lia|]. split; [exact A|]. lia.
      * replace ((2 * u + 1 - 1) / 2) with u by (symmetry; apply div_range; lia). pose proof (nlo_nhi h (2 * u + 1)) as NH. rewrite C1 in Q, NH. apply IHfuel; [lia|lia| |exact Q].
        assert (nlo h u * W <= nhi h (2 * u + 1) * W) by (apply Nat.mul_le_mono_r; lia). lia.
Qed.
Lemma downr_ok : forall fuel v, inner < fuel + v -> v < meds + inner -> nhi h v * W <= a -> nlo h v * W < p <= nhi h v * W -> 0 < fuel ->
  down_right fuel n t v T = Some (inner + (p - 1) / W).
Proof.
  pose proof inner_eq as IE. pose proof meds_le as ML. pose proof (pow_pos h) as PH. pose proof W_pos as WP. pose proof (meds_lt a Han) as AM. pose proof (blk a W WP) as AW.
  induction fuel; intros v F V A L FP; [lia|]. cbn [down_right]. fold inner. destruct (Nat.leb_spec inner v) as [Q|Q].
  - destruct (leaf_range h (v - inner)) as [R1 R2]; [lia|]. rewrite <- IE in R1, R2. replace (inner + (v - inner)) with v in R1, R2 by lia. rewrite R1, R2 in L.
    assert (X : 0 <= (v - inner) * W) by apply Nat.le_0_l. rewrite (div_range (p - 1) (v - inner) W) by lia. f_equal. lia.
  - pose proof Q as U. rewrite IE in U. destruct (children h v U) as (C1 & C2 & C3).
    assert (V2 : 2 * v + 2 < meds + inner).
    { destruct (Nat.lt_ge_cases (2 * v + 2) inner) as [|G]; [lia|]. destruct (leaf_range h (2 * v + 2 - inner)) as [_ R]; [lia|]. rewrite <- IE in R. replace (inner + (2 * v + 2 - inner)) with (2 * v + 2) in R by lia.
      rewrite R in C3. assert (2 * v + 2 - inner + 1 <= a / W) by (apply Nat.div_le_lower_bound; [lia|]; rewrite C3; lia). lia. }
    rewrite cont_bwd; [|exact V2|rewrite C3; exact A|rewrite C3; lia]. cbn [obind]. destruct (Nat.ltb_spec (nlo h (2 * v + 2) * W) p) as [J|J].
    + apply IHfuel; [lia|exact V2|rewrite C3; exact A|rewrite C3; lia|lia].
    + rewrite <- C2 in J. pose proof (nlo_nhi h (2 * v + 2)) as NH. rewrite <- C2, C3 in NH. assert (X : nhi h (2 * v + 1) * W <= nhi h v * W) by (apply Nat.mul_le_mono_r; lia).
      apply IHfuel; [lia|lia|lia|rewrite C1; lia|lia].
Qed.
End Bwd.

Theorem bwd_excess_ok : forall i p rel, 2 <= deg -> 0 < i < n -> p <= i -> ex f p = (ex f (S i) + rel)%Z -> (forall k, p < k <= i -> (ex f k > ex f (S i) + rel)%Z) ->
  bwd_excess g B deg bp t i rel = Some (Z.of_nat p - 1)%Z.
Proof.
  intros i p rel D2 I P E M. pose proof B_pos as BP. pose proof W_pos as WP. unfold bwd_excess. fold n. rewrite (proj2 (Nat.eqb_neq i 0)) by lia.
  set (T := (ex f (S i) + rel)%Z) in *. assert (Si : S (S (i - 1)) = S i) by lia. assert (Si1 : S (i - 1) = i) by lia.
  replace rel with (T - ex f (S (S (i - 1))))%Z by (rewrite Si; lia).
  destruct (Nat.lt_ge_cases p ((i - 1) / B * B)) as [Q|Q].
  2: { pose proof (near_bwd_hit g bp B c HB Hc T (i - 1) p) as X. fold f in X. rewrite X; clear X; [|rewrite Si1; split; [exact P|split; [exact E|exact M]]|exact Q|rewrite Si1; fold n; lia].
       cbn [obind]. rewrite (proj2 (Z.ltb_lt _ _)) by lia. reflexivity. }
  pose proof (near_bwd_miss g bp B c HB Hc T (i - 1)) as X. fold f in X. rewrite X; clear X; [|rewrite Si1; intros k K; apply M; lia|rewrite Si1; fold n; lia].
  cbn [obind]. assert (Q0 : (i - 1) / B <> 0) by (intros Q0; rewrite Q0 in Q; lia). rewrite (proj2 (Nat.eqb_neq ((i - 1) / B * B) 0)) by nia. cbn [andb].
  replace (Z.of_nat (i - 1) + 1)%Z with (Z.of_nat i) by lia. rewrite Z.ltb_irrefl. rewrite (proj2 (Z.eqb_neq _ _)) by lia. cbn [orb].
  rewrite (exc_ok g) by (fold n; lia). cbn [obind]. fold f. rewrite Si. replace (ex f (i + 1) + (T - ex f (S i)))%Z with T by (rewrite Nat.add_1_r; lia).
  unfold bwd_excess_in_med_block. fold W. rewrite med_of_sml.
  pose proof (blk i B BP) as IB. assert (IB1 : 1 <= i / B). { assert ((i - 1) / B <= i / B) by (apply Nat.div_le_mono; lia). lia. }
  set (first := (i / B - 1) / deg * deg). pose proof (blk (i / B - 1) deg ltac:(lia)) as DF. fold first in DF.
  assert (FN : first <> 1). { unfold first. intros X. apply Nat.eq_mul_1 in X. lia. }
  assert (MM : p = 0 \/ 0 < p) by lia.
  destruct (Nat.lt_ge_cases (first * B) p) as [Q2|Q2].
  - replace (i / B) with (S (i / B - 1)) at 1 by lia.
    rewrite (bm_hit T p i ltac:(lia) ltac:(lia) (fun _ => E) M); [|nia|lia| |].
    + cbn [obind]. rewrite (proj2 (Z.eqb_neq _ _)) by lia. reflexivity.
    + assert ((p - 1) / B < i / B); [|lia]. apply Nat.div_lt_upper_bound; [lia|]. pose proof (blk (i - 1) B BP). assert ((i - 1) / B * B <= i / B * B) by (apply Nat.mul_le_mono_r, Nat.div_le_mono; lia). lia.
    + apply Nat.div_le_lower_bound; lia.
  - rewrite (bm_miss T p i ltac:(lia) ltac:(lia) (fun _ => E) M); [|lia|lia|exact Q2|exact FN]. cbn [obind]. rewrite Z.eqb_refl. cbn [negb].
    assert (FW : first * B <= i / W * W).
    { assert ((i / B - 1) / deg <= i / W) by (rewrite <- sml_med; apply Nat.div_le_mono; lia). unfold first. assert (WE : i / W * W = i / W * deg * B) by (generalize (i / W); intros; unfold W; ring). rewrite WE. apply Nat.mul_le_mono_r, Nat.mul_le_mono_r. assumption. }
    pose proof (blk i W WP) as IW. destruct (Nat.eqb_spec (i / W) 0) as [Z0|Z0].
    { assert (p = 0) by (rewrite Z0 in FW; lia). subst p. cbn [ex] in E. rewrite <- E. reflexivity. }
    pose proof inner_eq as IE. pose proof meds_le as ML. pose proof (meds_lt i ltac:(lia)) as IM. fold meds inner.
    destruct (leaf_range h (i / W)) as [R1 R2]; [lia|]. rewrite <- IE in R1, R2.
    destruct (upl_ok T p i ltac:(lia) ltac:(lia) (fun _ => E) M (inner + meds + 1) (inner + i / W)) as (u & U1 & U2 & U3); [lia|lia|rewrite R1; lia|rewrite R1; lia|].
    rewrite U1. cbn [obind]. destruct U3 as [[-> P0]|(U3 & U4 & U5)].
    { cbn [Nat.eqb negb]. subst p. cbn [ex] in E. rewrite <- E. reflexivity. }
    rewrite (proj2 (Nat.eqb_neq u 0) U3). cbn [negb].
    rewrite (downr_ok T p i ltac:(lia) ltac:(lia) (fun _ => E) M); [|lia|exact U2|exact U4|exact U5|lia]. cbn [obind]. rewrite (csub_some _ _ ((p - 1) / W)) by lia. cbn [obind].
    set (b := (p - 1) / W). replace (b * deg + (deg - 1) + 1) with (S (b * deg + (deg - 1))) by lia. replace (S (b * deg + (deg - 1)) - 1) with (b * deg + (deg - 1)) by lia.
    rewrite med_of_sml. rewrite (div_range (b * deg + (deg - 1)) b deg) by lia.
    pose proof (blk (p - 1) W WP) as PW. fold b in PW. pose proof (blk ((p - 1) / B) deg ltac:(lia)) as PD. rewrite sml_med in PD. fold b in PD.
    apply (bm_hit T p i ltac:(lia) ltac:(lia) (fun _ => E) M); [|lia|lia|lia].
    assert (X : b + 1 <= i / W). { assert (p - 1 < i / W * W) by lia. assert (b < i / W); [|lia]. apply Nat.div_lt_upper_bound; [lia|]. lia. }
    assert ((b + 1) * W <= i / W * W) by (apply Nat.mul_le_mono_r; exact X). replace ((b * deg + (deg - 1) + 1) * B) with ((b + 1) * W); [lia|]. unfold W. replace (b * deg + (deg - 1) + 1) with ((b + 1) * deg) by lia. ring.
Qed.
(** no position to the left *)
Theorem bwd_excess_none : forall i rel, 2 <= deg -> i < n -> (rel < -1)%Z -> (forall k, k <= i -> (ex f k > ex f (S i) + rel)%Z) ->
  bwd_excess g B deg bp t i rel = Some (Z.of_nat n).
Proof.
  intros i rel D2 I R M. pose proof B_pos as BP. pose proof W_pos as WP. unfold bwd_excess. fold n. destruct (Nat.eqb_spec i 0) as [->|I0].
  { rewrite (proj2 (Z.eqb_neq rel 0)) by lia. reflexivity. }
  set (T := (ex f (S i) + rel)%Z) in *. assert (Si : S (S (i - 1)) = S i) by lia. assert (Si1 : S (i - 1) = i) by lia.
  assert (TN : (T < 0)%Z) by (specialize (M 0 ltac:(lia)); cbn [ex] in M; lia).
  replace rel with (T - ex f (S (S (i - 1))))%Z by (rewrite Si; lia).
  pose proof (near_bwd_miss g bp B c HB Hc T (i - 1)) as X. fold f in X. rewrite X; clear X; [|rewrite Si1; intros k K; apply M; lia|rewrite Si1; fold n; lia].
  cbn [obind]. rewrite Si. rewrite (proj2 (Z.eqb_neq (T - ex f (S i)) (-1))) by lia. rewrite andb_false_r.
  replace (Z.of_nat (i - 1) + 1)%Z with (Z.of_nat i) by lia. rewrite Z.ltb_irrefl. rewrite (proj2 (Z.eqb_neq _ _)) by lia. cbn [orb].
  rewrite (exc_ok g) by (fold n; lia). cbn [obind]. fold f. replace (ex f (i + 1) + (T - ex f (S i)))%Z with T by (rewrite Nat.add_1_r; lia).
  assert (M' : forall k, 0 < k <= i -> (ex f k > T)%Z) by (intros; apply M; lia).
  unfold bwd_excess_in_med_block. fold W. rewrite med_of_sml. pose proof (blk i B BP) as IB.
  rewrite (bm_miss T 0 i ltac:(lia) ltac:(lia) ltac:(lia) M').
  2: { destruct (i / B) as [|q]; [rewrite Nat.div_0_l; lia|]. pose proof (blk (S q - 1) deg ltac:(lia)). lia. } 2: { lia. } 2: { apply Nat.le_0_l. }
  2: { intros Y. apply Nat.eq_mul_1 in Y. lia. }
  cbn [obind]. rewrite Z.eqb_refl. cbn [negb]. rewrite (proj2 (Z.eqb_neq T 0)) by lia. destruct (i / W =? 0); [reflexivity|].
  pose proof (blk i W WP) as IW. pose proof inner_eq as IE. pose proof meds_le as ML. pose proof (meds_lt i ltac:(lia)) as IM. fold meds inner.
  destruct (leaf_range h (i / W)) as [R1 R2]; [lia|]. rewrite <- IE in R1, R2.
  destruct (upl_ok T 0 i ltac:(lia) ltac:(lia) ltac:(lia) M' (inner + meds + 1) (inner + i / W)) as (u & U1 & U2 & U3); [lia|lia|rewrite R1; lia|apply Nat.le_0_l|].
  rewrite U1. cbn [obind]. destruct U3 as [[-> P0]|(U3 & U4 & U5)]; [reflexivity|lia].
Qed.
End Q.
