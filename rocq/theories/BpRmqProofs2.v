(** * rmq of bp_support_sada: small blocks and the min-max tree *)
From Coq Require Import NArith ZArith List Bool Arith Lia.
From Verif Require Import Base SpecBits AbsVec WtBase WtProofs Bp BpProofs BpProofs2 BpProofs3 BpProofs4 BpRmq BpRmqProofs CsaProofs2.
Import ListNotations.
Open Scope nat_scope.

Lemma nd_next : forall h v, nd v <= h -> nhi h v < 2 ^ h -> nd (v + 1) = nd v /\ nlo h (v + 1) = nhi h v.
Proof.
  intros h v D H. pose proof (nd_spec v) as S. unfold nhi in H.
  assert (P : 2 ^ h = 2 ^ nd v * 2 ^ (h - nd v)) by (rewrite <- Nat.pow_add_r; f_equal; lia). pose proof (pow_pos (h - nd v)) as PP. rewrite P in H. apply Nat.mul_lt_mono_pos_r in H; auto.
  assert (E : nd (v + 1) = nd v). { unfold nd. apply Nat.log2_unique; [lia|]. fold (nd v). rewrite Nat.pow_succ_r'. lia. }
  split; auto. unfold nlo, nhi. rewrite E. f_equal. lia.
Qed.
Lemma nd_size : forall h v, nhi h v = nlo h v + 2 ^ (h - nd v).
Proof. intros. unfold nhi, nlo. lia. Qed.

Lemma node_inner : forall h v, nd v < h -> v < 2 ^ h - 1.
Proof. intros h v D. pose proof (nd_spec v) as S. assert (P : 2 * 2 ^ nd v <= 2 ^ h) by (rewrite <- Nat.pow_succ_r'; apply Nat.pow_le_mono_r; lia). lia. Qed.
(** the part in front of block [bb] is covered; [v] starts there, or its left child ends there *)
Definition at_node (h v bb : nat) : Prop := bb = nlo h v \/ (nd v < h /\ bb = nhi h (2 * v + 1)).
Lemma at_le : forall h v bb, at_node h v bb -> nlo h v <= bb <= nhi h v.
Proof.
  intros h v bb [->|[D ->]]. { pose proof (nlo_nhi h v). lia. }
  destruct (children h v (node_inner h v D)) as (C1 & C2 & C3). pose proof (nlo_nhi h (2 * v + 1)). pose proof (nlo_nhi h (2 * v + 2)). lia.
Qed.

Section Q.
Variable g : padding.
Variable bp : list bool.
Variables B deg h c : nat.
Variable t : bps.
Let n := length bp.
Let f := xb g bp.
Let W := B * deg.
Hypothesis HB : B = 8 * c.
Hypothesis Hc : 0 < c.
Hypothesis Hd : 0 < deg.
Hypothesis Hn : 0 < n.
Hypothesis OK : bp_ok g B deg h bp t.
Let smls := b_smls t.
Let meds := b_meds t.
Let inner := b_inner t.

(** where the minimum is *)
Definition loc_in (tgt a : nat) (x : loc) (p : nat) : Prop :=
  match x with
  | POS q => q = p
  | SML s => a <= s * B /\ s * B <= p < (s + 1) * B
  | MED v => nd v <= h /\ nhi h v <= tgt /\ a <= nlo h v * W /\ nlo h v * W <= p < nhi h v * W
  end.
Definition cov (tgt a b : nat) (s : Z * loc) : Prop := exists p, lastarg f a b (fst s) p /\ loc_in tgt a (snd s) p.

(** the minimum of a small block *)
Lemma sml_min : forall i, (i + 1) * B <= n -> exists a p, exc bp (i * B) = Some (ex f (i * B)) /\ nth_error (b_sml t) (2 * i) = Some a /\
  lastarg f (i * B) ((i + 1) * B) (ex f (i * B) + (1 - a)) p.
Proof.
  intros i L. assert (HB0 : 0 < B) by lia. assert (SL : i < smls) by (rewrite <- (Nat.div_mul i B) by lia; apply (smls_lt g bp B deg h c t HB Hc Hd Hn OK); fold n; lia).
  destruct OK as (_ & _ & _ & _ & [_ P] & _). specialize (P i SL). cbv beta in P. destruct P as [P1 _].
  assert (L2 : i * B < (i + 1) * B) by lia.
  destruct (la_rmn f (ex f (i * B) + 1) (i * B) ((i + 1) * B) L2) as (p & A). { pose proof (ex_step f (i * B)). lia. }
  exists (1 - smin g bp B i)%Z, p. split; [apply exc_ok; fold n; lia|]. split; [exact P1|].
  unfold smin. fold f n. rewrite Nat.min_l by lia.
  replace (ex f (i * B) + (1 - (1 - (rmn f (ex f (i * B) + 1) (i * B) ((i + 1) * B) - ex f (i * B)))))%Z with (rmn f (ex f (i * B) + 1) (i * B) ((i + 1) * B)) by lia. exact A.
Qed.
Lemma med_fresh : forall tgt k i s a, (i + k) * B <= n -> a <= i * B -> cov tgt a (i * B) s -> exists s', med_loop B bp t (seq i k) s = Some s' /\ cov tgt a ((i + k) * B) s'.
Proof.
  intros tgt. induction k; intros i s a L A C; cbn [seq med_loop].
  { rewrite Nat.add_0_r. eauto. }
  destruct (sml_min i ltac:(lia)) as (x & q & -> & -> & M). cbn [obind]. destruct C as (p & C1 & C2).
  replace (i + S k) with (S i + k) by lia. apply IHk; try lia. replace (S i * B) with ((i + 1) * B) by lia.
  pose proof (la_merge _ _ _ _ _ _ _ _ _ C1 M ltac:(lia) ltac:(lia)) as MG. destruct (Z.leb_spec (ex f (i * B) + (1 - x)) (fst s)).
  - exists q. split; [exact MG|]. cbn [snd loc_in]. destruct M as (M & _). lia.
  - exists p. split; auto.
Qed.
Lemma med_again : forall tgt k i s a b p, lastarg f a b (fst s) p -> a <= i * B -> (i + k) * B <= b -> b <= n -> loc_in tgt a (snd s) p \/ i * B <= p ->
  exists s', med_loop B bp t (seq i k) s = Some s' /\ fst s' = fst s /\ (loc_in tgt a (snd s') p \/ (i + k) * B <= p).
Proof.
  intros tgt. induction k; intros i s a b p A L1 L2 L3 D; cbn [seq med_loop].
  { rewrite Nat.add_0_r. eauto. }
  destruct (sml_min i ltac:(lia)) as (x & q & -> & -> & M). cbn [obind]. replace (i + S k) with (S i + k) by lia.
  pose proof A as (A1 & A2 & A3 & A4). pose proof M as (M1 & M2 & M3 & M4). destruct (Z.leb_spec (ex f (i * B) + (1 - x)) (fst s)).
  - pose proof (A3 q ltac:(lia)) as Q. assert (EQ : (ex f (i * B) + (1 - x))%Z = fst s) by lia.
    destruct (IHk (S i) ((ex f (i * B) + (1 - x))%Z, SML i) a b p) as (s' & E & F & G); try lia; auto.
    + cbn [fst]. rewrite EQ. auto.
    + cbn [snd loc_in]. destruct (Nat.lt_ge_cases p q) as [PQ|PQ]. { pose proof (A4 q ltac:(lia)). lia. }
      destruct (Nat.lt_ge_cases p ((i + 1) * B)); [left|right]; lia.
    + exists s'. split; [exact E|]. split; [rewrite F; auto|exact G].
  - apply (IHk (S i) s a b p); try lia; auto. destruct D as [D|D]; auto. right. destruct (Nat.lt_ge_cases p (S i * B)); [|lia]. pose proof (M3 p ltac:(lia)). lia.
Qed.

(** ** The tree *)
Variable tgt : nat.
Hypothesis Ht : (tgt + 1) * W <= n.
Hypothesis Htm : tgt + 1 < meds.

Lemma node_ex : forall v, nd v <= h -> nlo h v < meds -> v < meds + inner.
Proof.
  intros v D L. pose proof (inner_eq g bp B deg h t OK) as IE. fold inner in IE. destruct (Nat.eq_dec (nd v) h) as [E|E].
  - unfold nlo in L. rewrite E, Nat.sub_diag in L. change (2 ^ 0) with 1 in L. lia.
  - pose proof (nd_spec v) as S. assert (P : 2 * 2 ^ nd v <= 2 ^ h) by (rewrite <- Nat.pow_succ_r'; apply Nat.pow_le_mono_r; lia). lia.
Qed.
Lemma node_min : forall v, nd v <= h -> nhi h v <= tgt + 1 -> exists a p, min_value n (b_med t) v = Some a /\ lastarg f (nlo h v * W) (nhi h v * W) a p.
Proof.
  intros v D H. pose proof (nlo_nhi h v) as LH. assert (V : v < meds + inner) by (apply node_ex; lia).
  destruct OK as (_ & _ & _ & _ & _ & _ & P). specialize (P v V). cbv beta in P. destruct P as [P1 _]. unfold min_value. rewrite P1. cbn [obind]. fold n.
  assert (HW : 0 < W) by (apply (W_pos g bp B deg c t HB Hc Hd Hn)).
  assert (L : nlo h v * W < nhi h v * W) by (apply Nat.mul_lt_mono_pos_r; auto). assert (L2 : nhi h v * W <= n) by nia.
  destruct (la_rmn f (Z.of_nat n) (nlo h v * W) (nhi h v * W) L) as (p & A). { pose proof (ex_bound f (S (nlo h v * W))). lia. }
  exists (nmin g bp B deg h v), p. split; [f_equal; lia|]. unfold nmin, clip. fold f n W. rewrite !Nat.min_l by lia. exact A.
Qed.
Lemma upd_ok : forall v s a bb, nd v <= h -> nhi h v <= tgt + 1 -> a <= nlo h v * W -> nlo h v <= bb <= nhi h v -> cov (tgt + 1) a (bb * W) s ->
  exists s', upd n t v s = Some s' /\ cov (tgt + 1) a (nhi h v * W) s'.
Proof.
  intros v s a bb D H A L (p & C1 & C2). unfold upd. destruct (node_min v D H) as (x & q & -> & M). cbn [obind]. eexists. split; [reflexivity|].
  pose proof (la_merge _ _ _ _ _ _ _ _ _ C1 M ltac:(nia) ltac:(nia)) as MG. destruct (Z.leb_spec x (fst s)).
  - exists q. split; [exact MG|]. cbn [snd loc_in]. destruct M as (M & _). auto.
  - exists p. split; auto.
Qed.
Lemma up_min_ok : forall fuel v rcb s a bb, tgt < fuel + rcb -> 0 < fuel -> nd v <= h -> nhi h v = rcb + 1 -> a <= nlo h v * W -> at_node h v bb -> bb <= tgt -> cov (tgt + 1) a (bb * W) s ->
  exists v' rcb' s' bb', up_min fuel n t tgt v rcb (h - nd v) s = Some (v', rcb', h - nd v', s') /\
    nd v' <= h /\ nhi h v' = rcb' + 1 /\ a <= nlo h v' * W /\ at_node h v' bb' /\ bb' <= tgt /\ tgt <= rcb' /\ cov (tgt + 1) a (bb' * W) s'.
Proof.
  induction fuel; intros v rcb s a bb F F0 D R A AT BT C; [lia|]. cbn [up_min]. destruct (Nat.ltb_spec rcb tgt) as [L|L].
  2: { exists v, rcb, s, bb. repeat (split; [auto|]). auto. }
  pose proof (at_le h v bb AT) as AL. destruct (upd_ok v s a bb D ltac:(lia) A AL C) as (s' & -> & C'). cbn [obind].
  pose proof (meds_le g bp B deg h t OK) as ML. fold meds in ML.
  assert (V0 : v <> 0). { intros ->. rewrite nhi_root in R. lia. }
  rewrite csub_le by lia. cbn [obind]. pose proof (Nat.div_mod v 2 ltac:(lia)) as DM. pose proof (Nat.mod_upper_bound v 2 ltac:(lia)) as MU.
  pose proof (nd_size h v) as SZ.
  destruct (Nat.eqb_spec (v mod 2) 0) as [EV|OD].
  - set (u := v / 2 - 1). assert (EU : (v - 1) / 2 = u). { apply div_range. unfold u. lia. } rewrite EU. assert (VU : v = 2 * u + 2) by (unfold u; lia).
    assert (ND : nd v = S (nd u)) by (rewrite VU; apply nd_right). destruct (children h u (node_inner h u ltac:(lia))) as (C1 & C2 & C3). rewrite <- VU in *.
    destruct (nd_next h u) as (N1 & N2); [lia|lia|]. replace (h - nd v + 1) with (h - nd (u + 1)) by lia. pose proof (nd_size h (u + 1)) as SZ1.
    destruct (IHfuel (u + 1) (rcb + 2 ^ (h - nd (u + 1))) s' a (nhi h v)) as (v' & rcb' & s2 & bb' & E & X); try lia; auto.
    all: try (pose proof (pow_pos (h - nd (u + 1))); lia).
    all: try (left; lia).
    all: try (pose proof (nlo_nhi h v); nia).
    exists v', rcb', s2, bb'. split; auto.
  - set (u := v / 2). assert (VU : v = 2 * u + 1) by (unfold u; lia). assert (EU : (v - 1) / 2 = u). { rewrite VU. apply div_range. lia. } rewrite EU.
    assert (ND : nd v = S (nd u)) by (rewrite VU; apply nd_left). destruct (children h u (node_inner h u ltac:(lia))) as (C1 & C2 & C3). rewrite <- VU in *.
    replace (h - nd v + 1) with (h - nd u) by lia. pose proof (nd_size h u) as SZ1. assert (PW : 2 ^ (h - nd u) = 2 * 2 ^ (h - nd v)) by (rewrite <- Nat.pow_succ_r'; f_equal; lia).
    destruct (IHfuel u (rcb + 2 ^ (h - nd v)) s' a (nhi h v)) as (v' & rcb' & s2 & bb' & E & X); try lia; auto.
    all: try (pose proof (pow_pos (h - nd v)); lia).
    all: try (right; split; [lia|]; rewrite <- VU; reflexivity).
    all: try (rewrite <- C1; exact A).
    exists v', rcb', s2, bb'. split; auto.
Qed.
Lemma down_min_ok : forall fuel v rcb s a bb, h - nd v < fuel -> nd v <= h -> nhi h v = rcb + 1 -> a <= nlo h v * W -> cov (tgt + 1) a (bb * W) s ->
  ((tgt < rcb /\ at_node h v bb /\ bb <= tgt) \/ (rcb <= tgt < rcb + 2 ^ (h - nd v) /\ bb = nhi h v)) ->
  exists s', down_min fuel n t tgt v rcb (h - nd v) s = Some s' /\ cov (tgt + 1) a ((tgt + 1) * W) s'.
Proof.
  induction fuel; intros v rcb s a bb F D R A C H; [lia|]. cbn [down_min]. destruct (Nat.eqb_spec rcb tgt) as [E|E].
  { exists s. split; auto. destruct H as [H|[H HB2]]; [lia|]. subst bb. rewrite R, E in C. exact C. }
  pose proof (nd_size h v) as SZ. pose proof (meds_le g bp B deg h t OK) as ML. fold meds in ML.
  assert (HH : nd v < h).
  { destruct (Nat.eq_dec (nd v) h) as [EH|]; [exfalso|lia]. rewrite EH, Nat.sub_diag in *. change (2 ^ 0) with 1 in *.
    destruct H as [[H [AT BT]]|[H HB2]]; [|lia]. apply at_le in AT. lia. }
  rewrite csub_le by lia. cbn [obind]. assert (PW : 2 ^ (h - nd v) = 2 * 2 ^ (h - nd v - 1)) by (rewrite <- Nat.pow_succ_r'; f_equal; lia).
  destruct (children h v (node_inner h v HH)) as (C1 & C2 & C3).
  destruct (Nat.ltb_spec tgt rcb) as [L|L].
  - destruct H as [[_ [AT BT]]|[H HB2]]; [|lia]. pose proof (nd_left v) as NL. pose proof (nd_size h (2 * v + 1)) as SL. rewrite NL in SL. replace (h - S (nd v)) with (h - nd v - 1) in SL by lia.
    rewrite csub_le by lia. cbn [obind]. set (w := 2 * v + 1) in *. replace (h - nd v - 1) with (h - nd w) in * by lia. set (rc := rcb - 2 ^ (h - nd w)) in *.
    assert (RC : nhi h w = rc + 1) by (unfold rc; lia). assert (AW : nlo h w <= bb <= nhi h w).
    { destruct AT as [->|[_ ->]]; fold w; pose proof (nlo_nhi h w); lia. }
    destruct (Nat.leb_spec rc tgt) as [L2|L2].
    + destruct (upd_ok w s a bb ltac:(lia) ltac:(lia) ltac:(rewrite C1; exact A) AW C) as (s' & -> & C'). cbn [obind].
      apply (IHfuel w rc s' a (nhi h w)); try lia; auto; right; split; auto; unfold rc in *; lia.
    + cbn [obind]. apply (IHfuel w rc s a bb); try lia; auto. left. split; auto. split; auto. left. destruct AT as [AT|[_ AT]]; [lia|]. fold w in AT. lia.
  - destruct H as [[H _]|[H HB2]]; [lia|]. cbn [obind]. pose proof (nd_right v) as NR.
    destruct (nd_next h (2 * v + 2)) as (N1 & N2); [lia|lia|]. set (w := 2 * v + 2 + 1) in *. pose proof (nd_size h w) as SW.
    replace (h - nd v - 1) with (h - nd w) in * by lia. set (rc := rcb + 2 ^ (h - nd w)) in *. assert (RC : nhi h w = rc + 1) by (unfold rc; lia).
    assert (NW : nlo h w = bb) by lia. assert (AW : a <= nlo h w * W) by (rewrite NW, HB2; pose proof (nlo_nhi h v); nia).
    destruct (Nat.leb_spec rc tgt) as [L2|L2].
    + destruct (upd_ok w s a bb ltac:(lia) ltac:(lia) AW ltac:(pose proof (nlo_nhi h w); lia) C) as (s' & -> & C'). cbn [obind].
      apply (IHfuel w rc s' a (nhi h w)); try lia; auto; right; split; auto; unfold rc in *; lia.
    + cbn [obind]. apply (IHfuel w rc s a bb); try lia; auto. left. split; auto. split; [left; lia|]. lia.
Qed.
Lemma desc_ok : forall fuel v e p, h - nd v < fuel -> nd v <= h -> nhi h v <= tgt + 1 -> lastarg f (nlo h v * W) (nhi h v * W) e p ->
  exists m, desc_min fuel n t v e = Some (inner + m) /\ m * W <= p < (m + 1) * W /\ nlo h v <= m < nhi h v.
Proof.
  pose proof (inner_eq g bp B deg h t OK) as IE. fold inner in IE.
  induction fuel; intros v e p F D H A; [lia|]. cbn [desc_min]. fold inner. pose proof (nd_spec v) as NS. destruct (Nat.leb_spec inner v) as [L|L].
  - assert (E : nd v = h). { destruct (Nat.eq_dec (nd v) h); auto. pose proof (node_inner h v ltac:(lia)). lia. }
    pose proof (pow_pos h). exists (nlo h v). pose proof (nd_size h v) as SZ. rewrite E, Nat.sub_diag in SZ. change (2 ^ 0) with 1 in SZ. split; [|split; [|lia]].
    + f_equal. unfold nlo. rewrite E, Nat.sub_diag. change (2 ^ 0) with 1. rewrite E in NS. lia.
    + destruct A as (A & _). rewrite SZ in A. exact A.
  - assert (DV : nd v < h) by (apply nd_inner; lia). destruct (children h v ltac:(lia)) as (C1 & C2 & C3). pose proof (nd_left v) as NL. pose proof (nd_right v) as NR.
    pose proof (nlo_nhi h (2 * v + 1)) as X1. pose proof (nlo_nhi h (2 * v + 2)) as X2.
    assert (V : 2 * v + 2 < meds + inner) by (apply node_ex; lia). fold meds. rewrite (proj2 (Nat.ltb_lt _ _)) by lia.
    destruct (node_min (2 * v + 2) ltac:(lia) ltac:(lia)) as (x & q & -> & M). cbn [obind].
    pose proof A as (A1 & A2 & A3 & A4). pose proof M as (M1 & M2 & M3 & M4). rewrite <- C2 in M1, M3.
    assert (XW : nhi h (2 * v + 1) * W <= q < nhi h v * W /\ nlo h v * W <= nhi h (2 * v + 1) * W) by (rewrite <- C3; nia).
    destruct (Z.ltb_spec e x) as [L2|L2].
    + replace (2 * v + 2 - 1) with (2 * v + 1) by lia. assert (PL : p < nhi h (2 * v + 1) * W).
      { destruct (Nat.lt_ge_cases p (nhi h (2 * v + 1) * W)); auto. pose proof (M3 p ltac:(rewrite C3; lia)). lia. }
      destruct (IHfuel (2 * v + 1) e p) as (m & E & P1 & P2); try lia. { apply (la_sub _ _ _ _ _ _ _ A); rewrite ?C1; lia. }
      exists m. split; auto. split; auto. lia.
    + assert (PG : nhi h (2 * v + 1) * W <= p). { destruct (Nat.lt_ge_cases p q); [|lia]. pose proof (A4 q ltac:(lia)). lia. }
      destruct (IHfuel (2 * v + 2) e p) as (m & E & P1 & P2); try lia. { apply (la_sub _ _ _ _ _ _ _ A); rewrite <- ?C2, ?C3; lia. }
      exists m. split; auto. split; auto. lia.
Qed.
End Q.
