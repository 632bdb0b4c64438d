(** * rmq of bp_support_sada *)
From Coq Require Import NArith ZArith List Bool Arith Lia.
From Verif Require Import Base SpecBits AbsVec WtBase WtProofs Bp BpProofs BpProofs2 BpProofs3 BpProofs4 BpRmq BpRmqProofs BpRmqProofs2 CsaProofs2.
Import ListNotations.
Open Scope nat_scope.

Lemma leaf_nd : forall h b, b < 2 ^ h -> nd (2 ^ h - 1 + b) = h.
Proof. intros h b L. unfold nd. apply Nat.log2_unique; [lia|]. pose proof (pow_pos h). rewrite Nat.pow_succ_r'. lia. Qed.

Lemma dv : forall x K, 0 < K -> x / K * K <= x < (x / K + 1) * K.
Proof. intros x K H. pose proof (Nat.div_mod x K ltac:(lia)). pose proof (Nat.mod_upper_bound x K ltac:(lia)). lia. Qed.
Definition leafy (t : bps) (x : loc) : Prop := match x with MED v => b_inner t <= v | _ => True end.
Lemma leafy_loop : forall B bp t is s s', med_loop B bp t is s = Some s' -> leafy t (snd s) -> leafy t (snd s').
Proof.
  intros B bp t. induction is as [|i is IH]; intros s s' H L; cbn [med_loop] in H; [congruence|].
  destruct (exc bp (i * B)) as [e|]; [|discriminate]. destruct (nth_error (b_sml t) (2 * i)) as [a|]; [|discriminate]. cbn [obind] in H.
  apply IH in H; auto. destruct (_ <=? _)%Z; auto. exact I.
Qed.
Lemma pos_loop : forall B bp t is s s', med_loop B bp t is s = Some s' -> match snd s with MED _ => False | _ => True end -> match snd s' with MED _ => False | _ => True end.
Proof.
  intros B bp t. induction is as [|i is IH]; intros s s' H L; cbn [med_loop] in H. { injection H as <-. exact L. }
  destruct (exc bp (i * B)) as [e|]; [|discriminate]. destruct (nth_error (b_sml t) (2 * i)) as [a|]; [|discriminate]. cbn [obind] in H.
  apply IH in H; auto. destruct (_ <=? _)%Z; auto. exact I.
Qed.

Section Q.
Variable g : padding.
Variable bp : list bool.
Variables B deg h c : nat.
Variable t : bps.
Let n := length bp.
Let f := xb g bp.
Let W := B * deg.
Hypothesis HB : B = 8 * c.
Hypothesis Hc : 0 < c.
Hypothesis Hd : 0 < deg.
Hypothesis Hn : 0 < n.
Hypothesis OK : bp_ok g B deg h bp t.
Let inner := b_inner t.
Notation cov := (cov g bp B deg h).
Notation loc_in := (loc_in B deg h).

Lemma med_eq : forall x y s, med_rmq B bp t x y s = med_loop B bp t (seq x (y + 1 - x)) s.
Proof.
  intros x y s. unfold med_rmq. destruct (Nat.eqb_spec x 0) as [->|]; auto. replace (y + 1 - 0) with (S y) by lia. cbn [seq med_loop].
  replace (y + 1 - 1) with y by lia. change (0 * B) with 0. change (2 * 0) with 0. rewrite (exc_ok g bp 0) by lia. cbn [obind].
  destruct (nth_error (b_sml t) 0) as [a|]; [|reflexivity]. cbn [obind]. change (ex (xb g bp) 0) with 0%Z. rewrite Z.add_0_l. reflexivity.
Qed.
Lemma tree_ok : forall mbl mbr s a, mbl + 1 < mbr -> mbr * W < n -> a <= (mbl + 1) * W -> cov mbr a ((mbl + 1) * W) s ->
  exists s', tree_rmq n t mbl mbr s = Some s' /\ cov mbr a (mbr * W) s' /\ leafy t (snd s').
Proof.
  intros mbl mbr s a L LN A C. unfold tree_rmq. rewrite (proj2 (Nat.ltb_lt _ _)) by lia. set (tgt := mbr - 1).
  assert (HW : 0 < W) by (apply (W_pos g bp B deg c t HB Hc Hd Hn)).
  assert (MM : mbr < b_meds t). { rewrite <- (Nat.div_mul mbr W) by lia. apply (meds_lt g bp B deg h c t HB Hc Hd Hn OK). exact LN. }
  pose proof (meds_le g bp B deg h t OK) as ML. pose proof (inner_eq g bp B deg h t OK) as IE. fold inner in IE.
  assert (T1 : mbr = tgt + 1) by (unfold tgt; lia). assert (HT : (tgt + 1) * W <= n) by (rewrite <- T1; lia). assert (HM : tgt + 1 < b_meds t) by lia.
  rewrite T1 in C. destruct (leaf_range h (mbl + 1)) as (LR1 & LR2); [lia|]. pose proof (leaf_nd h (mbl + 1) ltac:(lia)) as ND.
  replace (mbl + 1 + b_inner t) with (2 ^ h - 1 + (mbl + 1)) by (fold inner; lia).
  destruct (up_min_ok g bp B deg h c t HB Hc Hd Hn OK tgt HT HM (mbr - mbl + 1) (2 ^ h - 1 + (mbl + 1)) (mbl + 1) s a (mbl + 1)) as (v & rcb & s1 & bb & E & D1 & R1 & A1 & AT & BT & TR & C1); try lia; auto.
  { left. lia. }
  rewrite ND, Nat.sub_diag in E. fold n in E. rewrite E. cbn [obind]. clear E.
  assert (X : exists s2 bb2, (if rcb <=? tgt then upd n t v s1 else Some s1) = Some s2 /\ cov (tgt + 1) a (bb2 * W) s2 /\
    ((tgt < rcb /\ at_node h v bb2 /\ bb2 <= tgt) \/ (rcb <= tgt < rcb + 2 ^ (h - nd v) /\ bb2 = nhi h v))).
  { destruct (Nat.leb_spec rcb tgt) as [LL|LL].
    - destruct (upd_ok g bp B deg h c t HB Hc Hd Hn OK tgt HT HM v s1 a bb) as (s2 & E & C2); auto; try lia. { apply at_le. exact AT. }
      exists s2, (nhi h v). split; [exact E|]. split; [exact C2|]. right. split; auto. pose proof (pow_pos (h - nd v)). lia.
    - exists s1, bb. split; [reflexivity|]. split; [exact C1|]. left. auto. }
  destruct X as (s2 & bb2 & -> & C2 & D2). cbn [obind].
  destruct (down_min_ok g bp B deg h c t HB Hc Hd Hn OK tgt HT HM (h - nd v + 1) v rcb s2 a bb2) as (s3 & E3 & C3); try lia; auto.
  fold n in E3. rewrite E3. cbn [obind]. rewrite T1. destruct C3 as (p & P1 & P2). destruct (snd s3) as [q|m|w] eqn:ES.
  - exists s3. split; auto. rewrite ES. split; [exists p; rewrite ES; auto|exact I].
  - exists s3. split; auto. rewrite ES. split; [exists p; rewrite ES; auto|exact I].
  - destruct P2 as (Q1 & Q2 & Q3 & Q4).
    destruct (desc_ok g bp B deg h c t HB Hc Hd Hn OK tgt HT HM (inner + 1) w (fst s3) p) as (m & EM & M1 & M2); try lia.
    + rewrite IE. pose proof (Nat.pow_gt_lin_r 2 h ltac:(lia)). lia.
    + apply (la_sub _ _ _ _ _ _ _ P1). { fold W. lia. } fold W. split; [apply Q4|]. apply Nat.mul_le_mono_r. lia.
    + fold n in EM. fold inner. rewrite EM. cbn [obind]. eexists. split; [reflexivity|]. cbn [fst snd leafy]. split; [|fold inner; lia].
      destruct (leaf_range h m) as (LM1 & LM2); [lia|]. pose proof (leaf_nd h m ltac:(lia)) as NM. rewrite <- IE in *. fold inner.
      exists p. cbn [fst snd]. split; auto. cbn [BpRmqProofs2.loc_in]. rewrite LM1, LM2, NM. repeat split; try lia. apply (Nat.le_trans _ _ _ Q3). apply Nat.mul_le_mono_r. lia.
Qed.
Theorem rmq_ok : forall l r, l <= r < n -> exists p e, bp_rmq g B deg bp t l r = Some p /\ lastarg f l (r + 1) e p.
Proof.
  intros l r LR. unfold bp_rmq. set (sbl := l / B). set (sbr := r / B). fold W. set (mbl := l / W). set (mbr := r / W).
  assert (HB0 : 0 < B) by lia. assert (HW : 0 < W) by (apply (W_pos g bp B deg c t HB Hc Hd Hn)).
  assert (SL : sbl * B <= l < (sbl + 1) * B) by (apply dv; exact HB0).
  assert (SR : sbr * B <= r < (sbr + 1) * B) by (apply dv; exact HB0).
  assert (MLl : mbl * deg <= sbl < (mbl + 1) * deg).
  { pose proof (sml_med g bp B deg c t HB Hc Hd Hn l) as E. fold sbl W mbl in E. rewrite <- E. apply dv. exact Hd. }
  assert (MRr : mbr * deg <= sbr < (mbr + 1) * deg).
  { pose proof (sml_med g bp B deg c t HB Hc Hd Hn r) as E. fold sbr W mbr in E. rewrite <- E. apply dv. exact Hd. }
  assert (WB : forall m, m * W = m * deg * B) by (intros; unfold W; lia).
  destruct (Nat.eqb_spec sbl sbr) as [E|NE].
  { destruct (near_rmq_ok g bp l r LR) as (p & mn & -> & A). cbn [obind fst]. eauto. }
  assert (SLR : sbl <= sbr) by (apply Nat.div_le_mono; lia). assert (SS : sbl < sbr) by lia. assert (MM : mbl <= mbr) by (apply Nat.div_le_mono; lia).
  assert (SB : forall x y, x <= y -> x * B <= y * B) by (intros; apply Nat.mul_le_mono_r; auto). assert (DB : forall x y, x <= y -> x * deg <= y * deg) by (intros; apply Nat.mul_le_mono_r; auto).
  assert (MB1 : mbr * W <= sbr * B) by (rewrite WB; apply SB; lia). pose proof (SB (sbl + 1) sbr ltac:(lia)) as SB1.
  destruct (near_rmq_ok g bp l ((sbl + 1) * B - 1)) as (p0 & mn & -> & A0). { fold n. lia. }
  cbn [obind fst snd]. rewrite (exc_ok g bp (l + 1)) by (fold n; lia). cbn [obind]. rewrite csub_le by lia. cbn [obind].
  replace (l + 1) with (S l) by lia. replace ((sbl + 1) * B - 1 + 1) with ((sbl + 1) * B) in A0 by lia. rewrite Z.add_comm in A0.
  set (X1 := Nat.min ((mbl + 1) * deg) sbr).
  assert (XE : sbl + 1 + (X1 - (sbl + 1)) = X1) by (unfold X1; lia). assert (XB : X1 * B <= n) by (pose proof (SB X1 sbr ltac:(unfold X1; lia)); lia).
  assert (C0 : cov mbr l ((sbl + 1) * B) ((ex (xb g bp) (S l) + mn)%Z, POS p0)) by (exists p0; split; [exact A0|reflexivity]).
  rewrite med_eq. replace (Nat.min ((mbl + 1) * deg - 1) (sbr - 1) + 1 - (sbl + 1)) with (X1 - (sbl + 1)) by (unfold X1; lia).
  destruct (med_fresh g bp B deg h c t HB Hc Hd Hn OK mbr (X1 - (sbl + 1)) (sbl + 1) _ l ltac:(rewrite XE; exact XB) ltac:(lia) C0) as (s1 & E1 & C1).
  pose proof (pos_loop _ _ _ _ _ _ E1 I) as PL. rewrite E1. cbn [obind]. clear E1. rewrite XE in C1.
  assert (LF1 : leafy t (snd s1)) by (destruct (snd s1); cbn; tauto). fold n.
  assert (TR : exists s2 s3, tree_rmq n t mbl mbr s1 = Some s2 /\ med_rmq B bp t (Nat.max (mbr * deg) (sbl + 1)) (sbr - 1) s2 = Some s3 /\ cov mbr l (sbr * B) s3 /\ leafy t (snd s3)).
  { destruct (Nat.eq_dec mbl mbr) as [EM|NM].
    - assert (EX : X1 = sbr) by (unfold X1; rewrite EM; lia). exists s1. unfold tree_rmq. rewrite (proj2 (Nat.ltb_ge _ _)) by lia.
      rewrite Nat.max_r by lia. rewrite med_eq. replace (sbr - 1 + 1 - (sbl + 1)) with (sbr - (sbl + 1)) by lia. rewrite EX in C1. destruct C1 as (p & P1 & P2).
      destruct (med_again g bp B deg h c t HB Hc Hd Hn OK mbr (sbr - (sbl + 1)) (sbl + 1) s1 l (sbr * B) p P1 ltac:(lia) ltac:(replace (sbl + 1 + (sbr - (sbl + 1))) with sbr by lia; lia) ltac:(fold n; lia) (or_introl P2)) as (s3 & E3 & F3 & L3).
      exists s3. split; auto. split; auto. split; [|apply (leafy_loop _ _ _ _ _ _ E3 LF1)]. exists p. rewrite F3. split; auto. destruct L3 as [L3|L3]; auto. exfalso. destruct P1 as (P1 & _).
      replace (sbl + 1 + (sbr - (sbl + 1))) with sbr in L3 by lia. lia.
    - assert (EX : X1 = (mbl + 1) * deg) by (unfold X1; pose proof (DB (mbl + 1) mbr ltac:(lia)); lia). rewrite EX, <- WB in C1.
      assert (T2 : exists s2, tree_rmq n t mbl mbr s1 = Some s2 /\ cov mbr l (mbr * W) s2 /\ leafy t (snd s2)).
      { destruct (Nat.eq_dec mbr (mbl + 1)) as [EM|NM2].
        - exists s1. unfold tree_rmq. rewrite (proj2 (Nat.ltb_ge _ _)) by lia. rewrite EM at 2. auto.
        - apply tree_ok; auto; try lia; rewrite WB; pose proof (SB (sbl + 1) ((mbl + 1) * deg) ltac:(lia)); lia. }
      destruct T2 as (s2 & E2 & C2 & LF2). rewrite WB in C2. exists s2. rewrite Nat.max_l by (pose proof (DB (mbl + 1) mbr ltac:(lia)); lia). rewrite med_eq.
      replace (sbr - 1 + 1 - mbr * deg) with (sbr - mbr * deg) by lia.
      destruct (med_fresh g bp B deg h c t HB Hc Hd Hn OK mbr (sbr - mbr * deg) (mbr * deg) s2 l) as (s3 & E3 & C3); auto.
      { fold n. replace (mbr * deg + (sbr - mbr * deg)) with sbr by lia. lia. } { pose proof (SB (sbl + 1) (mbr * deg) ltac:(pose proof (DB (mbl + 1) mbr ltac:(lia)); lia)). lia. }
      exists s3. split; auto. split; auto. replace (mbr * deg + (sbr - mbr * deg)) with sbr in C3 by lia. split; auto. apply (leafy_loop _ _ _ _ _ _ E3 LF2). }
  destruct TR as (s2 & s3 & -> & E3 & C3 & LF3). cbn [obind]. rewrite E3. cbn [obind].
  destruct (near_rmq_ok g bp (sbr * B) r) as (p4 & mn4 & -> & A4). { fold n. lia. }
  cbn [obind fst snd]. rewrite (exc_ok g bp (sbr * B + 1)) by (fold n; lia). cbn [obind]. replace (sbr * B + 1) with (S (sbr * B)) by lia.
  destruct C3 as (p & P1 & P2). rewrite Z.add_comm in A4. pose proof (la_merge _ _ _ _ _ _ _ _ _ P1 A4 ltac:(lia) ltac:(lia)) as MG.
  destruct (_ <=? _)%Z. { eauto. }
  (* the position inside a small block *)
  assert (FIN : forall m, l <= m * B -> m * B <= p < (m + 1) * B -> exists q, near_rmq g bp (m * B) ((m + 1) * B - 1) = Some q /\ fst q = p).
  { intros m M1 M2. assert (MS : m < sbr). { destruct P1 as (P1 & _). destruct (Nat.lt_ge_cases m sbr) as [|X]; auto. pose proof (SB _ _ X). lia. }
    pose proof (SB (m + 1) sbr ltac:(lia)) as MB.
    destruct (near_rmq_ok g bp (m * B) ((m + 1) * B - 1)) as (q & mq & -> & AQ). { fold n. lia. }
    exists (q, mq). split; auto. replace ((m + 1) * B - 1 + 1) with ((m + 1) * B) in AQ by lia.
    assert (PS : lastarg f (m * B) ((m + 1) * B) (fst s3) p) by (apply (la_sub _ _ _ _ _ _ _ P1); [lia|lia]).
    destruct (la_unique _ _ _ _ _ _ _ AQ PS) as (_ & ->). reflexivity. }
  destruct (snd s3) as [q|m|v] eqn:ES; cbn [obind]; rewrite ?ES.
  - cbn in P2. subst q. exists p, (fst s3). auto.
  - destruct P2 as (M1 & M2). destruct (FIN m M1 M2) as (q & -> & <-). cbn [obind]. exists (fst q), (fst s3). auto.
  - destruct P2 as (Q1 & Q2 & Q3 & Q4). cbn [leafy] in LF3. rewrite csub_le by exact LF3. cbn [obind].
    pose proof (inner_eq g bp B deg h t OK) as IE. pose proof (nd_spec v) as NS. pose proof (pow_pos h) as PH.
    assert (ND : nd v = h). { destruct (Nat.eq_dec (nd v) h); auto. pose proof (node_inner h v ltac:(lia)). lia. }
    set (m := v - b_inner t). assert (NL : nlo h v = m). { unfold nlo. rewrite ND, Nat.sub_diag. change (2 ^ 0) with 1. rewrite ND in NS. unfold m. lia. }
    pose proof (nd_size h v) as SZ. rewrite ND, Nat.sub_diag in SZ. change (2 ^ 0) with 1 in SZ. rewrite SZ, NL in *. fold W in Q3, Q4. rewrite !WB in *.
    rewrite med_eq. replace ((m + 1) * deg - 1 + 1 - m * deg) with deg by lia.
    destruct (med_again g bp B deg h c t HB Hc Hd Hn OK 0 deg (m * deg) s3 l (sbr * B) p P1) as (s5 & E5 & F5 & L5).
    { exact Q3. } { replace (m * deg + deg) with ((m + 1) * deg) by lia. rewrite <- WB. apply (Nat.le_trans _ (mbr * W)); [apply Nat.mul_le_mono_r; exact Q2|rewrite WB; exact MB1]. } { fold n. lia. } { right. lia. }
    rewrite E5. cbn [obind]. destruct L5 as [L5|L5]. 2: { replace (m * deg + deg) with ((m + 1) * deg) in L5 by lia. lia. }
    destruct (snd s5) as [q|i|w].
    + cbn in L5. subst q. exists p, (fst s3). auto.
    + destruct L5 as (M1 & M2). destruct (FIN i M1 M2) as (q & -> & <-). cbn [obind]. exists (fst q), (fst s3). auto.
    + destruct L5 as (_ & X & _). pose proof (nlo_nhi h w). lia.
Qed.
End Q.
