(** * intersect and restricted_unique_range_values *)
From Coq Require Import NArith ZArith List Lia Bool Arith Permutation Sorted.
From Verif Require Import Base Bits SpecBits RankSelect AbsVec WtBase SpecWt SpecWtAlg WtProofs WtInt WtIntProofs WtIntProofs2 WmInt WmIntProofs WtAlg WtAlgProofs WtAlgProofs2.
Import ListNotations.

(* the occurrences of c in the range r, the number of ranges with c, the sum *)
Definition crng (b : bool) (d : nat) (T : list N) (r : rng) : rng := (cnt (fb b d) T (fst r), cnt (fb b d) T (snd r)).
Definition ne (r : rng) : bool := negb (rempty r).

Lemma rcount_child : forall T c d r, fst r <= snd r -> rcount T c r = rcount (filter (fb (tb c d) d) T) c (crng (tb c d) d T r).
Proof. intros. unfold rcount, crng. cbn [fst snd]. rewrite slice_child by auto. apply count_split. Qed.
Lemma rcount_le : forall T c r, fst r <= snd r -> rcount T c r <= rsize r.
Proof.
  intros. unfold rcount, rsize, count, slice. etransitivity; [apply filter_le|]. rewrite firstn_length. lia.
Qed.
Lemma hits_ne : forall T c rs, Forall (fun r => fst r <= snd r) rs -> hits T (filter ne rs) c = hits T rs c /\ total T (filter ne rs) c = total T rs c.
Proof.
  unfold hits, total. induction rs as [|r rs]; intros H; auto. inversion H; subst. destruct (IHrs H3) as [A B]. cbn [filter].
  replace (ne r) with (negb (fst r =? snd r)) by reflexivity. destruct (Nat.eqb_spec (fst r) (snd r)) as [E|E]; cbn [negb].
  - pose proof (rcount_le T c r H2) as X. unfold rsize in X. assert (rcount T c r = 0) by lia. simpl. rewrite H0. simpl. auto.
  - cbn [filter map]. destruct (0 <? rcount T c r); simpl; auto.
Qed.
Lemma hits_child : forall T c d rs, Forall (fun r => fst r <= snd r) rs ->
  hits (filter (fb (tb c d) d) T) (map (crng (tb c d) d T) rs) c = hits T rs c /\
  total (filter (fb (tb c d) d) T) (map (crng (tb c d) d T) rs) c = total T rs c.
Proof.
  unfold hits, total. induction rs as [|r rs]; intros H; auto. inversion H; subst. destruct (IHrs H3) as [A B]. cbn [filter map].
  rewrite <- (rcount_child T c d r H2). destruct (0 <? rcount T c r); simpl; auto.
Qed.
Lemma hits_In : forall T rs c, 1 <= hits T rs c -> In c T.
Proof.
  intros. unfold hits in H. destruct (filter _ rs) as [|r l] eqn:E; [simpl in H; lia|].
  assert (I : In r (filter (fun r => 0 <? rcount T c r) rs)) by (rewrite E; left; auto). apply filter_In in I. destruct I as [_ I]. apply Nat.ltb_lt in I.
  unfold rcount, count in I. destruct (filter (N.eqb c) _) as [|x l'] eqn:E2; [simpl in I; lia|].
  assert (J : In x (filter (N.eqb c) (slice T (fst r) (snd r)))) by (rewrite E2; left; auto). apply filter_In in J. destruct J as [J1 J2].
  apply N.eqb_eq in J2. subst. eapply In_slice; eauto.
Qed.
Lemma crng_le : forall b d T rs, Forall (rok T) rs -> Forall (rok (filter (fb b d) T)) (map (crng b d T) rs).
Proof.
  induction 1; simpl; constructor; auto. destruct H as [H1 H2]. split. apply cnt_mono; auto. apply cnt_le_all.
Qed.
Lemma crng_sum : forall d T rs, Forall (rok T) rs ->
  list_sum (map rsize (map (crng false d T) rs)) + list_sum (map rsize (map (crng true d T) rs)) = list_sum (map rsize rs).
Proof.
  induction 1; simpl; auto. destruct H as [H1 H2]. destruct x as [s e]. cbn [fst snd] in *. unfold crng, rsize in *. cbn [fst snd] in *.
  pose proof (split_slice d T s e H1 H2 false) as (_ & A & _). pose proof (split_slice d T s e H1 H2 true) as (_ & B & _).
  pose proof (fsl d (slice T s e)) as F. rewrite slice_len in F by auto. lia.
Qed.
Lemma ne_sum : forall rs, list_sum (map rsize (filter ne rs)) <= list_sum (map rsize rs) /\ (Forall (fun r => fst r <= snd r) rs -> length (filter ne rs) <= list_sum (map rsize (filter ne rs))).
Proof.
  induction rs as [|r rs]; [simpl; auto|]. destruct IHrs as [A B]. cbn [filter]. replace (ne r) with (negb (fst r =? snd r)) by reflexivity.
  destruct (Nat.eqb_spec (fst r) (snd r)); cbn [negb map list_sum fold_right].
  - split. { simpl. unfold list_sum in *. lia. } intros H. inversion H; subst. auto.
  - split. { simpl. unfold list_sum in *. lia. } intros H. inversion H; subst. specialize (B H3). simpl. unfold list_sum, rsize in *. lia.
Qed.

Section A.
Variable p : ptree. Variable S0 : list N.
Hypothesis HP : p_ok p S0.
Hypothesis HNE : S0 <> [].
Notation L := (p_L p).

Lemma expand_rs_ok : forall d v T rs, nrep p (S d) v T -> Forall (rok T) rs ->
  p_expand_rs p v rs = Some (map (crng false d T) rs, map (crng true d T) rs).
Proof.
  induction rs as [|[s e] rs]; intros R H; auto. inversion H; subst. destruct H2 as [H2 H2']. cbn [fst snd] in *. cbn [p_expand_rs map].
  rewrite (expand_r_ok p S0 HP d v T s e R) by auto. cbn [obind]. rewrite IHrs by auto. reflexivity.
Qed.

Lemma isx_ok : forall t d v T rs, 1 <= t -> nrep p d v T -> Forall (rok T) rs -> (d = 0 -> Forall (fun r => fst r < snd r) rs) ->
  exists k out, k <= 1 + list_sum (map rsize rs) * d /\
    (forall f st res, isx_loop (k + f) p t ((v, rs) :: st) res = isx_loop f p t st (res ++ out)) /\ isx_spec T t rs out.
Proof.
  intros t. induction d; intros v T rs Ht R Hrs H0.
  - destruct (leaf_t p v T R) as [EL A]. specialize (H0 eq_refl). exists 1, (if t <=? length rs then [(nd_sym v, list_sum (map rsize rs))] else []).
    split; [lia|]. split. { intros. cbn [Nat.add isx_loop]. rewrite EL. destruct (t <=? length rs); rewrite ?app_nil_r; auto. }
    assert (RC : forall c, (c = nd_sym v -> hits T rs c = length rs /\ total T rs c = list_sum (map rsize rs)) /\ (c <> nd_sym v -> hits T rs c = 0)).
    { clear - A H0 Hrs. unfold hits, total. intros c. induction rs as [|[s e] rs]; [simpl; auto|]. inversion Hrs; subst. inversion H0; subst. destruct (IHrs H3 H5) as [B1 B2].
      destruct H2 as [H2 H2']. cbn [fst snd] in *.
      cbn [filter map]. assert (X : (c = nd_sym v -> rcount T c (s, e) = rsize (s, e)) /\ (c <> nd_sym v -> rcount T c (s, e) = 0)).
      { unfold rcount, rsize. cbn [fst snd]. split; intros.
        - destruct (count_const c (slice T s e)) as [-> _]. { intros y Hy. subst c. apply A. eapply In_slice; eauto. } apply slice_len; auto.
        - unfold count. rewrite filter_nil; auto. intros y Hy. apply N.eqb_neq. rewrite (A y) by (eapply In_slice; eauto). auto. }
      destruct X as [X1 X2]. split; intros C.
      - rewrite X1 by auto. unfold rsize at 1. cbn [fst snd]. destruct (Nat.ltb_spec 0 (e - s)); [|lia]. destruct (B1 C) as [B3 B4]. simpl in *. unfold list_sum in *. rewrite B3, B4. auto.
      - rewrite X2 by auto. simpl. auto. }
    split. { destruct (t <=? length rs); repeat constructor. }
    intros c n. destruct (RC c) as [C1 C2]. destruct (N.eq_dec c (nd_sym v)) as [E|E].
    + destruct (C1 E) as [-> ->]. destruct (Nat.leb_spec t (length rs)); simpl; split.
      * intros [X|[]]. inversion X. auto. * intros [_ ->]. left. congruence. * intros []. * lia.
    + rewrite (C2 E). destruct (t <=? length rs); simpl; split; try lia; intros []; [congruence|contradiction].
  - destruct (expand_ok p S0 HP HNE d v T R) as (v0 & v1 & EX & R0 & R1 & _).
    assert (LE : Forall (fun r => fst r <= snd r) rs) by (eapply Forall_impl; [|exact Hrs]; intros a Ha; unfold rok in Ha; lia).
    assert (CHILD : forall (b : bool) vb, nrep p d vb (filter (fb b d) T) -> exists k out,
       k <= list_sum (map rsize (map (crng b d T) rs)) * S d /\
       (forall f st res, isx_loop (k + f) p t (isx_push t vb (map (crng b d T) rs) st) res = isx_loop f p t st (res ++ out)) /\
       StronglySorted N.lt (map fst out) /\ forall c n, In (c, n) out <-> tb c d = b /\ t <= hits T rs c /\ n = total T rs c).
    { intros b vb RB. set (cr := map (crng b d T) rs). unfold isx_push. fold ne. pose proof (crng_le b d T rs Hrs) as CL. fold cr in CL.
      assert (LC : Forall (fun r => fst r <= snd r) cr) by (eapply Forall_impl; [|exact CL]; intros a Ha; unfold rok in Ha; lia).
      destruct (ne_sum cr) as [NS1 NS2]. specialize (NS2 LC).
      assert (HC : forall c, tb c d = b -> hits (filter (fb b d) T) (filter ne cr) c = hits T rs c /\ total (filter (fb b d) T) (filter ne cr) c = total T rs c).
      { intros c Hc. destruct (hits_ne (filter (fb b d) T) c cr LC) as [-> ->]. unfold cr. subst b. apply hits_child. auto. }
      destruct (Nat.leb_spec t (length (filter ne cr))) as [Z|Z].
      - destruct (IHd vb (filter (fb b d) T) (filter ne cr) Ht RB) as (k & out & K1 & K2 & K3 & K4).
        + rewrite Forall_forall in *. intros r Hr. apply filter_In in Hr. apply CL. tauto.
        + intros _. rewrite Forall_forall in *. intros r Hr. apply filter_In in Hr. destruct Hr as [Hr1 Hr2]. specialize (LC r Hr1). unfold ne, rempty in Hr2.
          apply negb_true_iff, Nat.eqb_neq in Hr2. lia.
        + exists k, out. split. { nia. } split; auto. split; auto. intros c n. rewrite K4. split.
          * intros (X1 & X2). assert (TB : tb c d = b) by (apply (kid_In d c T b); apply (hits_In _ (filter ne cr)); lia).
            destruct (HC c TB) as [<- <-]. auto.
          * intros (X1 & X2 & X3). destruct (HC c X1) as [-> ->]. auto.
      - exists 0, []. split; [lia|]. split. { intros. now rewrite app_nil_r. } split. constructor.
        intros c n. split; [intros []|]. intros (X1 & X2 & X3). destruct (HC c X1) as [X4 _]. rewrite <- X4 in X2. unfold hits in X2.
        pose proof (filter_le _ (fun r => 0 <? rcount (filter (fb b d) T) c r) (filter ne cr)). lia. }
    destruct (CHILD false v0 R0) as (k0 & o0 & A1 & A2 & A3 & A4). destruct (CHILD true v1 R1) as (k1 & o1 & B1 & B2 & B3 & B4).
    exists (1 + k0 + k1), (o0 ++ o1). split. { pose proof (crng_sum d T rs Hrs). nia. } split.
    { intros. cbn [Nat.add isx_loop]. rewrite (leaf_f p d v T R), EX. cbn [obind]. rewrite (expand_rs_ok d v T rs R Hrs). cbn [obind fst snd].
      rewrite <- Nat.add_assoc, A2, B2. now rewrite app_assoc. }
    split.
    + rewrite map_app. apply SSorted_app; auto. intros x y Hx Hy. rewrite in_map_iff in Hx, Hy. destruct Hx as ([x' n] & <- & Hx). destruct Hy as ([y' m] & <- & Hy).
      cbn [fst]. rewrite A4 in Hx. rewrite B4 in Hy. destruct Hx as (X1 & X2 & _). destruct Hy as (Y1 & Y2 & _).
      pose proof R as (_ & _ & R3 & _). rewrite Forall_forall in R3. apply (bit_lt x' y' d); auto. rewrite (R3 x'), (R3 y'); auto; apply (hits_In _ rs); lia.
    + intros c n. rewrite in_app_iff, A4, B4. destruct (tb c d) eqn:Ec; intuition congruence.
Qed.
Theorem intersect_ok : forall rs t, Forall (rok S0) rs -> exists out, intersect p rs t = Some out /\
  isx_spec S0 (if t =? 0 then Nat.max 1 (length rs) else t) rs out.
Proof.
  intros rs t H. unfold intersect. destruct rs as [|r rs].
  - exists []. split; auto. split. constructor. intros. split; [intros []|]. intros (X & _). cbn in X. destruct (Nat.eqb_spec t 0); lia.
  - set (t' := if t =? 0 then length (r :: rs) else t). replace (if t =? 0 then Nat.max 1 _ else t) with t'.
    2:{ unfold t'. destruct (t =? 0); auto. }
    set (l := r :: rs) in *. pose proof (L_range p S0 HP) as LR.
    destruct (isx_ok t' L (p_root p) S0 l) as (k & out & K1 & K2 & K3). { unfold t', l. destruct (Nat.eqb_spec t 0); simpl; lia. }
    { apply root_rep; auto. } { auto. } { lia. }
    exists out. split; auto. replace (2 + list_sum (map rsize l) * L) with (k + (2 + list_sum (map rsize l) * L - k)) by lia.
    rewrite K2. destruct (2 + list_sum (map rsize l) * L - k) eqn:E; [lia|]. reflexivity.
Qed.

(** ** restricted_unique_range_values *)
Definition rur_spec (T : list N) (s e : nat) (lo hi : N) (out : list N) : Prop :=
  StronglySorted N.lt out /\ forall x, In x out <-> In x (slice T s e) /\ (lo <= x)%N /\ (x <= hi)%N.

Lemma cmp_path : forall path lv d bv, lv + 1 + d = L -> L <= 63 -> compare_path path (lv + 1) (L, bv) = Some (N.compare path (shr bv d)).
Proof.
  intros. unfold compare_path. cbn [fst snd]. destruct (Nat.ltb_spec L (lv + 1)); [lia|].
  destruct (Nat.ltb_spec (lv + 1) L).
  - unfold shr_c. replace (L - (lv + 1)) with d by lia. destruct (Nat.ltb_spec d 64); [|lia]. reflexivity.
  - assert (d = 0) by lia. subst d. cbn [obind]. now rewrite shr_0.
Qed.
Lemma rur_ok : forall lo hi, L <= 63 -> is_word hi -> forall d v T s e, nrep p d v T -> s < e -> e <= length T ->
  (shr lo d <= nd_sym v)%N -> (nd_sym v <= shr hi d)%N ->
  exists k out, k <= 1 + (e - s) * d /\
    (forall f st res, rur_loop (k + f) p (L, lo) (L, hi) ((v, (s, e), nd_sym v, nd_level v) :: st) res = rur_loop f p (L, lo) (L, hi) st (res ++ out)) /\
    rur_spec T s e lo hi out.
Proof.
  intros lo hi HL HW. induction d; intros v T s e R Hs He Plo Phi.
  - destruct (leaf_t p v T R) as [EL A]. exists 1, [nd_sym v]. split; [lia|]. split. { intros. cbn [Nat.add rur_loop]. rewrite EL. auto. }
    rewrite !shr_0 in *. split. { repeat constructor. }
    intros x. simpl. split.
    + intros [<-|[]]. split; auto. pose proof (slice_len T s e ltac:(lia) He) as SL. destruct (slice T s e) as [|a l] eqn:SE; [simpl in SL; lia|].
      left. apply A. eapply (In_slice T s e). rewrite SE. left. auto.
    + intros (X & _). left. symmetry. apply A. eapply In_slice; eauto.
  - destruct (expand_ok p S0 HP HNE d v T R) as (v0 & v1 & EX & R0 & R1 & SY0 & SY1).
    assert (S1 : (nd_sym v < 2 ^ 63)%N).
    { rewrite shr_div in Phi. eapply N.le_lt_trans; [exact Phi|]. rewrite Nat2N.inj_succ, N.pow_succ_r'. unfold is_word in HW. rewrite W64_pow in HW.
      apply N.div_lt_upper_bound. { pose proof (N.pow_nonzero 2 (N.of_nat d)). nia. } pose proof (N.pow_nonzero 2 (N.of_nat d) ltac:(lia)).
      change (2 ^ N.of_nat 64)%N with (2 * 2 ^ 63)%N in HW. nia. }
    assert (D0 : shl (nd_sym v) 1 = (2 * nd_sym v)%N).
    { unfold shl. rewrite N.shiftl_mul_pow2. change (2 ^ N.of_nat 1)%N with 2%N. rewrite N.mod_small. lia. unfold W64. lia. }
    assert (D1 : N.lor (shl (nd_sym v) 1) 1 = (2 * nd_sym v + 1)%N).
    { rewrite D0. destruct (nd_sym v) as [|[]]; reflexivity. }
    pose proof R as (RL & _ & R3 & _). rewrite Forall_forall in R3.
    assert (BIT : forall x, In x T -> shr x d = (2 * nd_sym v + (if tb x d then 1 else 0))%N).
    { intros x Hx. rewrite <- (R3 x Hx), shr_S_div. replace (tb x d) with (N.odd (shr x d)).
      2:{ rewrite <- N.bit0_odd. change (N.testbit (shr x d) 0) with (tb (shr x d) 0). rewrite tb_shr. auto. }
      rewrite <- N.div2_div. pose proof (N.div2_odd (shr x d)) as DO. rewrite DO at 1. destruct (N.odd (shr x d)); auto. }
    assert (LV : nd_level v0 = nd_level v + 1 /\ nd_level v1 = nd_level v + 1). { destruct R0 as (Q0 & _). destruct R1 as (Q1 & _). lia. }
    destruct LV as [LV0 LV1].
    assert (CHILD : forall (b : bool) vb (ok : bool), nrep p d vb (filter (fb b d) T) -> nd_level vb = nd_level v + 1 ->
       (ok = true -> (shr lo d <= nd_sym vb)%N /\ (nd_sym vb <= shr hi d)%N) ->
       (ok = false -> forall x, In x T -> tb x d = b -> ~ ((lo <= x)%N /\ (x <= hi)%N)) ->
       exists k out, k <= (cnt (fb b d) T e - cnt (fb b d) T s) * S d /\
       (forall f st res, rur_loop (k + f) p (L, lo) (L, hi) (rur_push vb (cnt (fb b d) T s, cnt (fb b d) T e) (nd_sym vb) (nd_level v + 1) ok st) res
          = rur_loop f p (L, lo) (L, hi) st (res ++ out)) /\
       StronglySorted N.lt out /\ forall x, In x out <-> tb x d = b /\ In x (slice T s e) /\ (lo <= x)%N /\ (x <= hi)%N).
    { intros b vb ok RB LVB OK1 OK0. destruct (split_slice d T s e ltac:(lia) He b) as (C1 & C2 & C3 & C4).
      assert (NIL : forall P : N -> Prop, (forall x, tb x d = b -> In x (slice T s e) -> (lo <= x)%N -> (x <= hi)%N -> False) ->
        forall x, In x [] <-> tb x d = b /\ In x (slice T s e) /\ (lo <= x)%N /\ (x <= hi)%N).
      { intros _ Q x. split; [intros []|]. intros (Q1 & Q2 & Q3 & Q4). exfalso. eauto. }
      unfold rur_push, rempty. cbn [fst snd]. destruct ok; cbn [andb].
      - destruct (Nat.eqb_spec (cnt (fb b d) T s) (cnt (fb b d) T e)) as [Z|Z]; cbn [negb].
        + exists 0, []. split; [apply Nat.le_0_l|]. split. { intros. now rewrite app_nil_r. } split. constructor. apply NIL. exact (fun _ => True).
          intros x X1 X2 _ _. assert (F : filter (fb b d) (slice T s e) = []). { apply length_zero_iff_nil. lia. }
          assert (I : In x (filter (fb b d) (slice T s e))). { apply filter_In. split; auto. subst b. apply fb_self. } rewrite F in I. destruct I.
        + destruct (OK1 eq_refl) as [O1 O2]. destruct (IHd vb (filter (fb b d) T) (cnt (fb b d) T s) (cnt (fb b d) T e) RB ltac:(lia) C4 O1 O2) as (k & out & K1 & K2 & K3 & K4).
          exists k, out. split. { nia. } split. { rewrite LVB in K2. auto. } split; auto. intros x. rewrite K4, C1, filter_In. unfold fb.
          split; [intros ((X1 & X2) & X3); apply eqb_prop in X2; tauto|intros (X1 & X2 & X3); rewrite X1, eqb_reflx; tauto].
      - exists 0, []. split; [apply Nat.le_0_l|]. split. { intros. now rewrite app_nil_r. } split. constructor. apply NIL. exact (fun _ => True).
        intros x X1 X2 X3 X4. apply (OK0 eq_refl x); auto. eapply In_slice; eauto. }
    rewrite shr_S_div in Plo, Phi.
    assert (PL2 : (shr lo d <= 2 * nd_sym v + 1)%N). { pose proof (N.div_mod (shr lo d) 2 ltac:(lia)). pose proof (N.mod_upper_bound (shr lo d) 2 ltac:(lia)). lia. }
    assert (PH2 : (2 * nd_sym v <= shr hi d)%N). { pose proof (N.div_mod (shr hi d) 2 ltac:(lia)). lia. }
    destruct (CHILD false v0 (match N.compare (2 * nd_sym v) (shr lo d) with Lt => false | _ => true end) R0 LV0) as (k0 & o0 & A1 & A2 & A3 & A4).
    { rewrite SY0, D0. destruct (N.compare_spec (2 * nd_sym v) (shr lo d)); intros; try discriminate; lia. }
    { destruct (N.compare_spec (2 * nd_sym v) (shr lo d)) as [| C |]; intros; try discriminate. intros [Q1 Q2].
      pose proof (shr_mono lo x d Q1) as M. rewrite (BIT x) in M by auto. rewrite H1 in M. lia. }
    destruct (CHILD true v1 (match N.compare (2 * nd_sym v + 1) (shr hi d) with Gt => false | _ => true end) R1 LV1) as (k1 & o1 & B1 & B2 & B3 & B4).
    { rewrite SY1, D1. destruct (N.compare_spec (2 * nd_sym v + 1) (shr hi d)); intros; try discriminate; lia. }
    { destruct (N.compare_spec (2 * nd_sym v + 1) (shr hi d)) as [| |C]; intros; try discriminate. intros [Q1 Q2].
      pose proof (shr_mono x hi d Q2) as M. rewrite (BIT x) in M by auto. rewrite H1 in M. lia. }
    rewrite SY0, D0 in A2. rewrite SY1, D1 in B2.
    exists (1 + k0 + k1), (o0 ++ o1). split.
    { pose proof (split_slice d T s e ltac:(lia) He false) as (_ & C0 & _). pose proof (split_slice d T s e ltac:(lia) He true) as (_ & C1 & _).
      pose proof (fsl d (slice T s e)) as F. rewrite slice_len in F by lia. nia. }
    split.
    { intros. cbn [Nat.add rur_loop]. rewrite (leaf_f p d v T R), EX. cbn [obind]. rewrite (expand_r_ok p S0 HP d v T s e R) by lia. cbn [obind fst snd].
      rewrite D1, D0. rewrite !(cmp_path _ _ d) by lia. cbn [obind]. rewrite <- Nat.add_assoc, A2, B2. now rewrite app_assoc. }
    split.
    + apply SSorted_app; auto. intros x y Hx Hy. rewrite A4 in Hx. rewrite B4 in Hy. destruct Hx as (X1 & X2 & _). destruct Hy as (Y1 & Y2 & _).
      apply (bit_lt x y d); auto. rewrite (R3 x), (R3 y); auto; eapply In_slice; eauto.
    + intros x. rewrite in_app_iff, A4, B4. destruct (tb x d) eqn:Ec; intuition congruence.
Qed.
Theorem restricted_unique_ok : forall xi xj yi yj, L <= 63 -> exists out, restricted_unique p xi xj yi yj = Some out /\
  StronglySorted N.lt out /\ forall x, In x out <-> In x (slice S0 xi (Nat.min xj (length S0 - 1) + 1)) /\ (yi <= x)%N /\ (x <= yj)%N.
Proof.
  intros xi xj yi yj HL. unfold restricted_unique. rewrite (n_len p S0 HP). pose proof (len_pos p S0 HP HNE) as LP.
  rewrite (csub_some _ _ (length S0 - 1)) by lia. cbn [obind].
  replace (if length S0 - 1 <? xj then length S0 - 1 else xj) with (Nat.min xj (length S0 - 1)) by (destruct (Nat.ltb_spec (length S0 - 1) xj); lia).
  set (xj' := Nat.min xj (length S0 - 1)).
  assert (NIL : (forall x, In x (slice S0 xi (xj' + 1)) -> (yi <= x)%N -> (x <= yj)%N -> False) ->
    exists out, Some [] = Some out /\ StronglySorted N.lt out /\ forall x, In x out <-> In x (slice S0 xi (xj' + 1)) /\ (yi <= x)%N /\ (x <= yj)%N).
  { intros H. exists []. split; auto. split. constructor. intros. split; [intros []|]. intros (X1 & X2 & X3). exfalso. eauto. }
  destruct (Nat.ltb_spec xj' xi) as [Z|Z]; cbn [orb].
  { apply NIL. intros x Hx _ _. unfold slice in Hx. replace (xj' + 1 - xi) with 0 in Hx by lia. destruct Hx. }
  destruct (N.ltb_spec yj yi) as [Y|Y]. { apply NIL. intros. lia. }
  destruct (symbol_gte_ok p S0 HP HNE HL yi) as ([g lo] & -> & G). cbn [obind].
  destruct (symbol_lte_ok p S0 HP HNE HL yj) as ([h hi] & -> & H). cbn [obind fst snd].
  assert (IS : forall x, In x (slice S0 xi (xj' + 1)) -> In x S0) by (intros; eapply In_slice; eauto).
  destruct g; cbn [negb orb]. 2:{ apply NIL. intros x Hx X1 X2. destruct G as [_ G]. specialize (G x (IS x Hx)). lia. }
  destruct h; cbn [negb orb]. 2:{ apply NIL. intros x Hx X1 X2. destruct H as [_ H]. specialize (H x (IS x Hx)). lia. }
  destruct G as (G1 & G2 & G3). destruct H as (H1 & H2 & H3).
  destruct (N.ltb_spec hi lo) as [V|V].
  { apply NIL. intros x Hx X1 X2. specialize (G3 x (IS x Hx) X1). specialize (H3 x (IS x Hx) X2). lia. }
  pose proof (S_small p S0 HP) as SS. rewrite Forall_forall in SS. pose proof (S_word p S0 HP) as SW. rewrite Forall_forall in SW.
  destruct (rur_ok lo hi HL (SW hi H1) L (p_root p) S0 xi (xj' + 1)) as (k & out & K1 & K2 & K3 & K4).
  { apply root_rep; auto. } { lia. } { unfold xj'. lia. }
  { cbn [p_root nd_sym]. rewrite shr_small by auto. lia. } { cbn [p_root nd_sym]. lia. }
  exists out. split.
  - replace (2 + (xj' + 1 - xi) * L) with (k + (2 + (xj' + 1 - xi) * L - k)) by lia. specialize (K2 (2 + (xj' + 1 - xi) * L - k) [] []). cbn [p_root nd_sym nd_level] in K2.
    unfold p_root in *. rewrite K2. destruct (2 + (xj' + 1 - xi) * L - k) eqn:E; [lia|]. reflexivity.
  - split; auto. intros x. rewrite K4. split; intros (X1 & X2 & X3); split; auto.
    + split; [lia|]. lia.
Qed.
End A.
