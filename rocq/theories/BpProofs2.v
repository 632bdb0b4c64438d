(** * Proofs about the construction of bp_support_sada *)
From Coq Require Import NArith ZArith List Bool Arith Lia.
From Verif Require Import Base SpecBits AbsVec WtBase WtProofs Bp BpProofs.
Import ListNotations.
Open Scope Z_scope.

(** ** Minimum and maximum of the excess over the positions a+1 .. b *)
Definition rmn (f : nat -> bool) (base : Z) (a b : nat) : Z := fold_right Z.min base (map (ex f) (seq (S a) (b - a))).
Definition rmx (f : nat -> bool) (base : Z) (a b : nat) : Z := - rmn (fun i => negb (f i)) (- base) a b.

Lemma ex_negb : forall f p, ex (fun i => negb (f i)) p = - ex f p.
Proof. induction p; [reflexivity|]. rewrite !ex_S, IHp. destruct (f p); simpl; lia. Qed.
Lemma fold_min : forall l x y, fold_right Z.min (Z.min x y) l = Z.min x (fold_right Z.min y l).
Proof. induction l; intros; cbn [fold_right]; [reflexivity|]. rewrite IHl. lia. Qed.
Lemma fold_le : forall l x, fold_right Z.min x l <= x.
Proof. induction l; intros; cbn [fold_right]; [lia|]. specialize (IHl x). lia. Qed.
Lemma rmn_app : forall f base a b c, (a <= b <= c)%nat -> rmn f base a c = Z.min (rmn f base a b) (rmn f base b c).
Proof.
  intros. unfold rmn. replace (c - a)%nat with ((b - a) + (c - b))%nat by lia. rewrite seq_app, map_app, fold_right_app.
  replace (S a + (b - a))%nat with (S b) by lia.
  rewrite <- (Z.min_l _ _ (fold_le (map (ex f) (seq (S b) (c - b))) base)) at 1. rewrite fold_min. lia.
Qed.
Lemma rmn_nil : forall f base a, rmn f base a a = base.
Proof. intros. unfold rmn. rewrite Nat.sub_diag. reflexivity. Qed.
Lemma rmn_S : forall f base a b, (a <= b)%nat -> rmn f base a (S b) = Z.min (rmn f base a b) (ex f (S b)).
Proof.
  intros. rewrite (rmn_app f base a b (S b)) by lia. unfold rmn at 2. replace (S b - b)%nat with 1%nat by lia. cbn [seq map fold_right].
  pose proof (fold_le (map (ex f) (seq (S a) (b - a))) base). fold (rmn f base a b) in H0. lia.
Qed.
Lemma rmn_le : forall f base a b p, (a < p <= b)%nat -> rmn f base a b <= ex f p.
Proof.
  intros. unfold rmn. assert (I : In (ex f p) (map (ex f) (seq (S a) (b - a)))) by (apply in_map, in_seq; lia).
  revert I. generalize (map (ex f) (seq (S a) (b - a))). induction l; intros I; [destruct I|]. cbn [fold_right]. destruct I as [->|I]; [lia|specialize (IHl I); lia].
Qed.
Lemma rmn_in : forall f base a b, rmn f base a b = base \/ exists p, (a < p <= b)%nat /\ ex f p = rmn f base a b.
Proof.
  intros. unfold rmn. assert (I : forall x, In x (map (ex f) (seq (S a) (b - a))) -> exists p, (a < p <= b)%nat /\ ex f p = x).
  { intros x X. apply in_map_iff in X. destruct X as (p & E & P). apply in_seq in P. exists p. split; [lia|exact E]. }
  revert I. generalize (map (ex f) (seq (S a) (b - a))). induction l; intros I; [left; reflexivity|]. cbn [fold_right].
  destruct (Z_le_gt_dec a0 (fold_right Z.min base l)).
  - right. rewrite Z.min_l by lia. apply I. left. reflexivity.
  - rewrite Z.min_r by lia. apply IHl. intros; apply I; right; auto.
Qed.
Lemma rmn_base : forall f b1 b2 a b, (a < b)%nat -> ex f (S a) <= b1 -> ex f (S a) <= b2 -> rmn f b1 a b = rmn f b2 a b.
Proof.
  intros f b1 b2 a b L A B. rewrite (rmn_app f b1 a (S a) b), (rmn_app f b2 a (S a) b) by lia.
  assert (X : forall c, rmn f c (S a) b = Z.min c (rmn f (Z.max b1 b2) (S a) b) \/ Z.max b1 b2 < c).
  { intros c. destruct (Z_le_gt_dec c (Z.max b1 b2)); [left|right; lia]. unfold rmn. rewrite <- fold_min. f_equal. lia. }
  rewrite !rmn_S, !rmn_nil by lia. destruct (X b1); [|lia]. destruct (X b2); lia.
Qed.
Lemma rmn_bound : forall f a b k, (a <= b <= k)%nat -> - Z.of_nat k <= rmn f (Z.of_nat k) a b <= Z.of_nat k.
Proof.
  intros. split; [|apply fold_le]. destruct (rmn_in f (Z.of_nat k) a b) as [->|(p & P & <-)]; [lia|]. pose proof (ex_bound f p). lia.
Qed.
Lemma rmx_app : forall f base a b c, (a <= b <= c)%nat -> rmx f base a c = Z.max (rmx f base a b) (rmx f base b c).
Proof. intros. unfold rmx. rewrite (rmn_app _ _ a b c) by lia. lia. Qed.
Lemma rmx_nil : forall f base a, rmx f base a a = base.
Proof. intros. unfold rmx. rewrite rmn_nil. lia. Qed.
Lemma rmx_S : forall f base a b, (a <= b)%nat -> rmx f base a (S b) = Z.max (rmx f base a b) (ex f (S b)).
Proof. intros. unfold rmx. rewrite rmn_S, ex_negb by lia. lia. Qed.
Lemma rmx_ge : forall f base a b p, (a < p <= b)%nat -> ex f p <= rmx f base a b.
Proof. intros. unfold rmx. pose proof (rmn_le (fun i => negb (f i)) (- base) a b p H). rewrite ex_negb in H0. lia. Qed.
Lemma rmx_in : forall f base a b, rmx f base a b = base \/ exists p, (a < p <= b)%nat /\ ex f p = rmx f base a b.
Proof.
  intros. unfold rmx. destruct (rmn_in (fun i => negb (f i)) (- base) a b) as [E|(p & P & E)].
  - left. lia. - right. exists p. split; [exact P|]. rewrite ex_negb in E. lia.
Qed.
Lemma rmx_base : forall f b1 b2 a b, (a < b)%nat -> b1 <= ex f (S a) -> b2 <= ex f (S a) -> rmx f b1 a b = rmx f b2 a b.
Proof. intros. unfold rmx. f_equal. apply rmn_base; rewrite ?ex_negb; lia. Qed.
Lemma rmx_bound : forall f a b k, (a <= b <= k)%nat -> - Z.of_nat k <= rmx f (- Z.of_nat k) a b <= Z.of_nat k.
Proof. intros. unfold rmx. replace (- - Z.of_nat k) with (Z.of_nat k) by lia. pose proof (rmn_bound (fun i => negb (f i)) a b k H). lia. Qed.
Lemma rmn_ge : forall f base a b T, T <= base -> (forall p, (a < p <= b)%nat -> T <= ex f p) -> T <= rmn f base a b.
Proof. intros. destruct (rmn_in f base a b) as [->|(p & P & <-)]; auto. Qed.

(** a value lies between minimum and maximum iff it occurs *)
Lemma occurs : forall f k a b T, (a <= b <= k)%nat -> (0 < k)%nat -> rmn f (Z.of_nat k) a b <= T -> T <= rmx f (- Z.of_nat k) a b -> exists p, (a < p <= b)%nat /\ ex f p = T.
Proof.
  intros f k a b T L K A B. destruct (Nat.eq_dec a b) as [->|N]. - rewrite rmn_nil in A. rewrite rmx_nil in B. lia.
  - assert (X : exists p, (a < p <= b)%nat /\ ex f p <= T).
    { destruct (rmn_in f (Z.of_nat k) a b) as [E|(p & P & E)]; [|exists p; split; [exact P|lia]]. exists b. split; [lia|]. pose proof (ex_bound f b). lia. }
    assert (Y : exists p, (a < p <= b)%nat /\ ex f p >= T).
    { destruct (rmx_in f (- Z.of_nat k) a b) as [E|(p & P & E)]; [|exists p; split; [exact P|lia]]. exists b. split; [lia|]. pose proof (ex_bound f b). lia. }
    destruct X as (p & P & X), Y as (q & Q & Y). destruct (Nat.le_ge_cases p q).
    + destruct (ivt_up f T p (q - p) X) as (j & J & E); [replace (p + (q - p))%nat with q by lia; exact Y|]. exists j. split; [lia|exact E].
    + destruct (ivt_dn f T q (p - q) Y) as (j & J & E); [replace (q + (p - q))%nat with p by lia; exact X|]. exists j. split; [lia|exact E].
Qed.

(** ** Interleaved arrays *)
Definition pairs (l : list Z) (k : nat) (F G : nat -> Z) : Prop :=
  length l = (2 * k)%nat /\ forall u, (u < k)%nat -> nth_error l (2 * u) = Some (F u) /\ nth_error l (2 * u + 1) = Some (G u).
Lemma pairs_zero : forall k, pairs (repeat 0 (2 * k)) k (fun _ => 0) (fun _ => 0).
Proof.
  intros. split; [apply repeat_length|]. intros u U.
  assert (X : forall i, (i < 2 * k)%nat -> nth_error (repeat 0 (2 * k)) i = Some 0).
  { intros i I. rewrite (nth_error_nth' _ 0) by (rewrite repeat_length; exact I). rewrite nth_repeat. reflexivity. }
  split; apply X; lia.
Qed.
Lemma pairs_ext : forall l k F G F' G', pairs l k F G -> (forall u, (u < k)%nat -> F u = F' u /\ G u = G' u) -> pairs l k F' G'.
Proof. intros l k F G F' G' [L H] E. split; [exact L|]. intros u U. destruct (H u U) as [A B]. destruct (E u U) as [C D]. rewrite A, B, C, D. auto. Qed.
Lemma pairs_even : forall l k F G v x, pairs l k F G -> (v < k)%nat -> exists l', aset l (2 * v) x = Some l' /\ pairs l' k (fun u => if (u =? v)%nat then x else F u) G.
Proof.
  intros l k F G v x [L H] V. exists (upd l (2 * v) x). split; [apply aset_some; lia|]. split; [rewrite upd_length; exact L|]. intros u U. destruct (H u U) as [A B]. split.
  - destruct (Nat.eqb_spec u v) as [->|N]. + apply nth_error_upd_eq. lia. + rewrite nth_error_upd_neq by lia. exact A.
  - rewrite nth_error_upd_neq by lia. exact B.
Qed.
Lemma pairs_odd : forall l k F G v x, pairs l k F G -> (v < k)%nat -> exists l', aset l (2 * v + 1) x = Some l' /\ pairs l' k F (fun u => if (u =? v)%nat then x else G u).
Proof.
  intros l k F G v x [L H] V. exists (upd l (2 * v + 1) x). split; [apply aset_some; lia|]. split; [rewrite upd_length; exact L|]. intros u U. destruct (H u U) as [A B]. split.
  - rewrite nth_error_upd_neq by lia. exact A.
  - destruct (Nat.eqb_spec u v) as [->|N]. + apply nth_error_upd_eq. lia. + rewrite nth_error_upd_neq by lia. exact B.
Qed.
Lemma pairs_even_max : forall l k F G v x, pairs l k F G -> (v < k)%nat ->
  exists l', (if F v <? x then aset l (2 * v) x else Some l) = Some l' /\ pairs l' k (fun u => if (u =? v)%nat then Z.max (F v) x else F u) G.
Proof.
  intros. destruct (Z.ltb_spec (F v) x).
  - rewrite Z.max_r by lia. apply pairs_even; assumption.
  - exists l. split; [reflexivity|]. eapply pairs_ext; [eassumption|]. intros u U. cbv beta. destruct (Nat.eqb_spec u v) as [->|N]; split; lia.
Qed.
Lemma pairs_odd_max : forall l k F G v x, pairs l k F G -> (v < k)%nat ->
  exists l', (if G v <? x then aset l (2 * v + 1) x else Some l) = Some l' /\ pairs l' k F (fun u => if (u =? v)%nat then Z.max (G v) x else G u).
Proof.
  intros. destruct (Z.ltb_spec (G v) x).
  - rewrite Z.max_r by lia. apply pairs_odd; assumption.
  - exists l. split; [reflexivity|]. eapply pairs_ext; [eassumption|]. intros u U. cbv beta. destruct (Nat.eqb_spec u v) as [->|N]; split; lia.
Qed.

Lemma ceil_lt : forall n i K, (0 < K)%nat -> (i < n)%nat -> (i / K < (n + K - 1) / K)%nat.
Proof.
  intros n i K P I. apply Nat.div_le_lower_bound; [lia|]. pose proof (Nat.div_mod i K ltac:(lia)). pose proof (Nat.mod_upper_bound i K ltac:(lia)). nia.
Qed.
Lemma ceil_ge : forall n K, (0 < K)%nat -> (n <= (n + K - 1) / K * K)%nat.
Proof. intros n K P. pose proof (Nat.div_mod (n + K - 1) K ltac:(lia)). pose proof (Nat.mod_upper_bound (n + K - 1) K ltac:(lia)). nia. Qed.

(** ** Filling the leaves *)
Section C.
Variable g : padding.
Variable bp : list bool.
Variables B deg inner : nat.
Let n := length bp.
Let f := xb g bp.
Let W := (B * deg)%nat.
Hypothesis HB : (0 < B)%nat.
Hypothesis Hd : (0 < deg)%nat.
Let smls := ((n + B - 1) / B)%nat.
Let meds := ((n + W - 1) / W)%nat.
Let ws := (Nat.log2 (B + 2) + 1)%nat.
Let wm := (Nat.log2 (2 * n + 2) + 1)%nat.

Definition smin (s : nat) : Z := rmn f (ex f (s * B) + 1) (s * B) (Nat.min ((s + 1) * B) n) - ex f (s * B).
Definition smax (s : nat) : Z := rmx f (ex f (s * B) - 1) (s * B) (Nat.min ((s + 1) * B) n) - ex f (s * B).
Definition SF (D s : nat) : Z := if (s <? D)%nat then 1 - smin s else 0.
Definition SG (D s : nat) : Z := if (s <? D)%nat then smax s + 1 else 0.
(** medium blocks of the first c parentheses *)
Definition MF (c v : nat) : Z := if (v <? inner)%nat then 0 else Z.of_nat n - rmn f (Z.of_nat n) (Nat.min ((v - inner) * W) c) (Nat.min ((v - inner + 1) * W) c).
Definition MG (c v : nat) : Z := if (v <? inner)%nat then 0 else rmx f (- Z.of_nat n) (Nat.min ((v - inner) * W) c) (Nat.min ((v - inner + 1) * W) c) + Z.of_nat n.

Lemma pow_log : forall x k, (k <= x)%nat -> Z.of_nat k < 2 ^ Z.of_nat (Nat.log2 x + 1).
Proof.
  intros x k H. rewrite Nat.add_1_r. destruct (Nat.eq_dec x 0) as [->|N].
  - assert (k = 0)%nat by lia. subst. reflexivity.
  - pose proof (Nat.log2_spec x ltac:(lia)) as [_ L]. assert (X : Z.of_nat (2 ^ S (Nat.log2 x)) = 2 ^ Z.of_nat (S (Nat.log2 x))) by (rewrite Nat2Z.inj_pow; reflexivity).
    rewrite <- X. lia.
Qed.
Lemma modw : forall x, 0 <= x <= Z.of_nat (B + 2) -> x mod 2 ^ Z.of_nat ws = x.
Proof. intros. apply Z.mod_small. split; [lia|]. pose proof (pow_log (B + 2) (B + 2) ltac:(lia)). unfold ws. lia. Qed.
Lemma modm : forall x, 0 <= x <= Z.of_nat (2 * n) -> x mod 2 ^ Z.of_nat wm = x.
Proof. intros. apply Z.mod_small. split; [lia|]. pose proof (pow_log (2 * n + 2) (2 * n) ltac:(lia)). unfold wm. lia. Qed.

(** the extension of one medium block by the small block a .. b *)
Lemma leaf_step : forall a b, (a < b)%nat -> (b <= n)%nat -> (a mod B = 0)%nat -> (b <= a + B)%nat -> forall v, (inner <= v)%nat ->
  MF b v = (if (v =? inner + a / B / deg)%nat then Z.max (MF a v) (Z.of_nat n - rmn f (ex f a + 1) a b) else MF a v) /\
  MG b v = (if (v =? inner + a / B / deg)%nat then Z.max (MG a v) (rmx f (ex f a - 1) a b + Z.of_nat n) else MG a v).
Proof.
  intros a b L BN AB LB v V. unfold MF, MG. rewrite (proj2 (Nat.ltb_ge v inner) V). set (k := (v - inner)%nat).
  assert (AD : (a = a / B * B)%nat) by (pose proof (Nat.div_mod a B ltac:(lia)); lia).
  set (q := (a / B / deg)%nat). assert (Q : (q * W <= a)%nat /\ (a + B <= (q + 1) * W)%nat).
  { unfold q, W. pose proof (Nat.div_mod (a / B) deg ltac:(lia)) as D. pose proof (Nat.mod_upper_bound (a / B) deg ltac:(lia)) as M. set (r := ((a / B) mod deg)%nat) in *. set (q' := (a / B / deg)%nat) in *.
    rewrite AD. rewrite D. split; nia. }
  assert (E1 : ex f (S a) <= ex f a + 1 /\ ex f a - 1 <= ex f (S a)) by (pose proof (ex_step f a); lia).
  pose proof (ex_bound f (S a)) as E2.
  destruct (Nat.eqb_spec v (inner + q)) as [E|E].
  - assert (K : k = q) by (unfold k; lia). rewrite K. rewrite (Nat.min_l (q * W) b), (Nat.min_l (q * W) a), (Nat.min_r ((q + 1) * W) b), (Nat.min_r ((q + 1) * W) a) by lia.
    rewrite (rmn_app f _ (q * W) a b), (rmx_app f _ (q * W) a b) by lia.
    rewrite (rmn_base f (ex f a + 1) (Z.of_nat n)) by lia. rewrite (rmx_base f (ex f a - 1) (- Z.of_nat n)) by lia. lia.
  - assert (K : (k < q \/ q < k)%nat) by (unfold k; lia). destruct K as [K|K].
    + assert ((k + 1) * W <= q * W)%nat by (apply Nat.mul_le_mono_r; lia). assert (k * W <= (k + 1) * W)%nat by (apply Nat.mul_le_mono_r; lia).
      rewrite (Nat.min_l (k * W) b), (Nat.min_l (k * W) a), (Nat.min_l ((k + 1) * W) b), (Nat.min_l ((k + 1) * W) a) by lia. auto.
    + assert ((q + 1) * W <= k * W)%nat by (apply Nat.mul_le_mono_r; lia). assert (k * W <= (k + 1) * W)%nat by (apply Nat.mul_le_mono_r; lia).
      rewrite (Nat.min_r (k * W) b), (Nat.min_r (k * W) a), (Nat.min_r ((k + 1) * W) b), (Nat.min_r ((k + 1) * W) a) by lia. rewrite !rmn_nil, !rmx_nil. auto.
Qed.
Lemma inner_same : forall c c' v, (v < inner)%nat -> MF c v = MF c' v /\ MG c v = MG c' v.
Proof. intros. unfold MF, MG. rewrite (proj2 (Nat.ltb_lt v inner) H). auto. Qed.

Definition Inv (i : nat) (s : cst) : Prop :=
  let a := (i / B * B)%nat in
  c_abs s = ex f a /\ c_rel s = ex f i - ex f a /\ c_min s = rmn f (ex f a + 1) a i - ex f a /\ c_max s = rmx f (ex f a - 1) a i - ex f a /\
  pairs (c_sml s) smls (SF (i / B)) (SG (i / B)) /\ pairs (c_med s) (meds + inner) (MF a) (MG a).

Lemma rel_bounds : forall a b, (a < b)%nat -> (b <= a + B)%nat -> - Z.of_nat B <= rmn f (ex f a + 1) a b - ex f a <= 1 /\ -1 <= rmx f (ex f a - 1) a b - ex f a <= Z.of_nat B.
Proof.
  intros a b L1 L2. split.
  - pose proof (fold_le (map (ex f) (seq (S a) (b - a))) (ex f a + 1)) as X. fold (rmn f (ex f a + 1) a b) in X. split; [|lia].
    destruct (rmn_in f (ex f a + 1) a b) as [->|(p & P & <-)]; [lia|]. pose proof (ex_lip f a (p - a)) as Y. replace (a + (p - a))%nat with p in Y by lia. lia.
  - pose proof (rmx_ge f (ex f a - 1) a b (S a) ltac:(lia)) as X. pose proof (ex_step f a). split; [lia|].
    destruct (rmx_in f (ex f a - 1) a b) as [->|(p & P & <-)]; [lia|]. pose proof (ex_lip f a (p - a)) as Y. replace (a + (p - a))%nat with p in Y by lia. lia.
Qed.

Lemma blk_next : forall i, ((i + 1) mod B = 0)%nat -> ((i + 1) / B = i / B + 1)%nat /\ (i + 1 = (i / B + 1) * B)%nat.
Proof.
  intros i M. pose proof (Nat.div_mod (i + 1) B ltac:(lia)) as D. rewrite M in D.
  pose proof (Nat.div_mod i B ltac:(lia)) as D2. pose proof (Nat.mod_upper_bound i B ltac:(lia)) as M2.
  assert ((i + 1) / B = i / B + 1)%nat by nia. split; [assumption|]. nia.
Qed.
Lemma blk_same : forall i, ((i + 1) mod B <> 0)%nat -> ((i + 1) / B = i / B)%nat.
Proof.
  intros i M. pose proof (Nat.div_mod (i + 1) B ltac:(lia)) as D. pose proof (Nat.mod_upper_bound (i + 1) B ltac:(lia)).
  pose proof (Nat.div_mod i B ltac:(lia)) as D2. pose proof (Nat.mod_upper_bound i B ltac:(lia)) as M2. nia.
Qed.

Lemma smls_last : forall i, S i = n -> smls = (i / B + 1)%nat.
Proof.
  intros i Sn. unfold smls. rewrite <- Sn. replace (S i + B - 1)%nat with (i + 1 * B)%nat by (clear - HB; lia). apply Nat.div_add. clear - HB. lia.
Qed.
(** the tables after the last parenthesis *)
Lemma fill_ok : forall bits i s, (i + length bits = n)%nat -> bits <> [] -> (forall k, (k < length bits)%nat -> nth k bits false = f (i + k)%nat) -> Inv i s ->
  exists s', fill_loop n B deg inner ws wm bits i s = Some s' /\ pairs (c_sml s') smls (SF smls) (SG smls) /\ pairs (c_med s') (meds + inner) (MF n) (MG n).
Proof.
  induction bits as [|b bits IH]; intros i s L NE N (A1 & A2 & A3 & A4 & A5 & A6); [congruence|]. cbn [length] in L. cbn [fill_loop].
  set (a := (i / B * B)%nat) in *.
  assert (Bb : b = f i) by (specialize (N 0%nat); cbn [length nth] in N; rewrite Nat.add_0_r in N; apply N; lia).
  assert (HR : c_rel s + stp b = ex f (S i) - ex f a) by (rewrite A2, Bb, ex_S; lia).
  pose proof (blk i B HB) as Ai. fold a in Ai.
  assert (HM : Z.min (c_min s) (c_rel s + stp b) = rmn f (ex f a + 1) a (S i) - ex f a) by (rewrite HR, A3, rmn_S by lia; lia).
  assert (HX : Z.max (c_max s) (c_rel s + stp b) = rmx f (ex f a - 1) a (S i) - ex f a) by (rewrite HR, A4, rmx_S by lia; lia).
  cbv zeta. rewrite HM, HX, HR.
  assert (N' : forall k, (k < length bits)%nat -> nth k bits false = f (i + 1 + k)%nat).
  { intros k K. specialize (N (S k)). cbn [length nth] in N. rewrite N by lia. f_equal. lia. }
  destruct (((i + 1) mod B =? 0)%nat || (i + 1 =? n)%nat) eqn:Cn.
  - assert (Ce : S i = Nat.min ((i / B + 1) * B) n).
    { apply orb_true_iff in Cn. destruct Cn as [Cn|Cn]; apply Nat.eqb_eq in Cn.
      - pose proof (blk_next i Cn). lia. - lia. }
    pose proof (rel_bounds a (S i) ltac:(lia) ltac:(unfold a in *; nia)) as [R1 R2].
    assert (SL : (i / B < smls)%nat) by (apply ceil_lt; lia).
    rewrite modw by lia. destruct (pairs_even _ _ _ _ (i / B) (- (rmn f (ex f a + 1) a (S i) - ex f a - 1)) A5 SL) as (l1 & Q1 & P1). rewrite Q1. cbn [obind].
    rewrite modw by lia. destruct (pairs_odd _ _ _ _ (i / B) (rmx f (ex f a - 1) a (S i) - ex f a + 1) P1 SL) as (l2 & Q2 & P2). rewrite Q2. cbn [obind].
    assert (AB : (a mod B = 0)%nat) by (unfold a; apply Nat.mod_mul; lia).
    assert (aB : (a / B = i / B)%nat) by (unfold a; apply Nat.div_mul; lia).
    pose proof (leaf_step a (S i) ltac:(lia) ltac:(lia) AB ltac:(unfold a in *; nia)) as LS. rewrite aB in LS.
    set (v := (inner + i / B / deg)%nat) in *.
    assert (VL : (v < meds + inner)%nat).
    { unfold v. rewrite Nat.div_div by lia. fold W. pose proof (ceil_lt n i W ltac:(unfold W; nia) ltac:(lia)). fold meds in H. lia. }
    destruct A6 as [A6l A6]. destruct (A6 v VL) as [X1 X2]. rewrite X1. cbn [obind].
    assert (E1 : ex f (S a) <= ex f a + 1 /\ ex f a - 1 <= ex f (S a)) by (pose proof (ex_step f a); lia). pose proof (ex_bound f (S a)) as E2.
    assert (Ba : (0 <= - (c_abs s + (rmn f (ex f a + 1) a (S i) - ex f a)) + Z.of_nat n <= Z.of_nat (2 * n))).
    { rewrite A1. rewrite (rmn_base f (ex f a + 1) (Z.of_nat n)) by lia. pose proof (rmn_bound f a (S i) n ltac:(lia)). lia. }
    assert (Bx : (0 <= c_abs s + (rmx f (ex f a - 1) a (S i) - ex f a) + Z.of_nat n <= Z.of_nat (2 * n))).
    { rewrite A1. rewrite (rmx_base f (ex f a - 1) (- Z.of_nat n)) by lia. pose proof (rmx_bound f a (S i) n ltac:(lia)). lia. }
    rewrite (modm _ Ba).
    destruct (pairs_even_max _ _ _ _ v (- (c_abs s + (rmn f (ex f a + 1) a (S i) - ex f a)) + Z.of_nat n) (conj A6l A6) VL) as (m1 & Q3 & P3). rewrite Q3. cbn [obind].
    destruct P3 as [P3l P3]. destruct (P3 v VL) as [_ X3]. rewrite X3. cbn [obind]. rewrite (modm _ Bx).
    destruct (pairs_odd_max _ _ _ _ v (c_abs s + (rmx f (ex f a - 1) a (S i) - ex f a) + Z.of_nat n) (conj P3l P3) VL) as (m2 & Q4 & P4). rewrite Q4. cbn [obind].
    assert (PS : pairs l2 smls (SF (i / B + 1)) (SG (i / B + 1))).
    { eapply pairs_ext; [exact P2|]. intros u U. cbv beta. unfold SF, SG, smin, smax. destruct (Nat.eqb_spec u (i / B)) as [->|NU].
      - rewrite (proj2 (Nat.ltb_lt (i / B) (i / B + 1))) by lia. fold a. rewrite <- Ce. lia.
      - destruct (Nat.ltb_spec u (i / B)) as [Z1|Z1]; destruct (Nat.ltb_spec u (i / B + 1)) as [Z2|Z2]; try (split; reflexivity); exfalso; clear - Z1 Z2 NU; lia. }
    assert (PM : pairs m2 (meds + inner) (MF (S i)) (MG (S i))).
    { eapply pairs_ext; [exact P4|]. intros u U. cbv beta. destruct (Nat.lt_ge_cases u inner) as [UI|UI].
      - assert (NV : (u =? v)%nat = false) by (apply Nat.eqb_neq; unfold v; generalize (i / B / deg)%nat; clear - UI; intros; lia). rewrite NV. apply inner_same. exact UI.
      - destruct (LS u UI) as [LS1 LS2]. rewrite LS1, LS2, A1. destruct (Nat.eqb_spec u v) as [->|NU]; [|split; reflexivity]. split; f_equal; clear; lia. }
    destruct bits as [|b2 bits].
    + cbn [fill_loop]. eexists. split; [reflexivity|]. cbn [c_sml c_med]. cbn [length] in L. assert (Sn : S i = n) by (clear - L; lia). rewrite Sn in PM. split; [|exact PM].
      pose proof (smls_last i Sn) as SE.
      rewrite SE at 2 3. exact PS.
    + apply IH; [cbn [length] in *; lia|discriminate|exact N'|]. cbn [length] in L.
      assert (M0 : ((i + 1) mod B = 0)%nat). { apply orb_true_iff in Cn. destruct Cn as [Cn|Cn]; apply Nat.eqb_eq in Cn; [exact Cn|lia]. }
      destruct (blk_next i M0) as [D1 D2]. unfold Inv. cbv zeta. cbn [c_abs c_rel c_min c_max c_sml c_med]. rewrite D1, <- D2.
      rewrite rmn_nil, rmx_nil. replace (i + 1)%nat with (S i) by lia. rewrite A1. split; [clear; lia|]. split; [clear; lia|]. split; [clear; lia|]. split; [clear; lia|]. split; [exact PS|exact PM].
  - apply orb_false_iff in Cn. destruct Cn as [C1 C2]. apply Nat.eqb_neq in C1, C2.
    apply IH; [lia| |exact N'|].
    + intros ->. cbn [length] in L. lia.
    + pose proof (blk_same i C1) as D. unfold Inv. cbv zeta. cbn [c_abs c_rel c_min c_max c_sml c_med]. rewrite D. fold a. replace (i + 1)%nat with (S i) by lia.
      repeat split; try assumption; try reflexivity; try apply A5; try apply A6; assumption.
Qed.
End C.
