(** * symbol_lte and symbol_gte *)
From Coq Require Import NArith ZArith List Lia Bool Arith Permutation Sorted.
From Verif Require Import Base Bits SpecBits RankSelect AbsVec WtBase SpecWt SpecWtAlg WtProofs WtInt WtIntProofs WtIntProofs2 WmInt WmIntProofs WtAlg WtAlgProofs BitsMem.
Import ListNotations.

Lemma shr_pow : forall a b, b <= a -> shr (2 ^ N.of_nat a) b = (2 ^ N.of_nat (a - b))%N.
Proof. intros. rewrite shr_div, <- N.pow_sub_r by lia. f_equal. lia. Qed.
Lemma shr_lt_lt : forall x y d, (shr x d < shr y d)%N -> (x < y)%N.
Proof. intros. destruct (N.lt_ge_cases x y); auto. pose proof (shr_mono y x d H0). lia. Qed.
Lemma shr_S_div : forall x d, shr x (S d) = (shr x d / 2)%N.
Proof. intros. rewrite !shr_div, Nat2N.inj_succ, N.pow_succ_r', N.mul_comm, N.div_div by (try apply N.pow_nonzero; lia). auto. Qed.
Lemma shr_lt_down : forall x y d, (shr x (S d) < shr y (S d))%N -> (shr x d < shr y d)%N.
Proof. intros. rewrite !shr_S_div in H. destruct (N.lt_ge_cases (shr x d) (shr y d)); auto. pose proof (N.div_le_mono (shr y d) (shr x d) 2 ltac:(lia) H0). lia. Qed.
Lemma bit_shr_lt : forall x y d, shr x (S d) = shr y (S d) -> tb x d = false -> tb y d = true -> (shr x d < shr y d)%N.
Proof.
  intros. pose proof (bit_lt x y d H H0 H1) as A. destruct (N.lt_ge_cases (shr x d) (shr y d)); auto.
  pose proof (shr_mono x y d ltac:(lia)). assert (E : shr x d = shr y d) by lia. apply shr_step_inv in E. destruct E. congruence.
Qed.

Section A.
Variable p : ptree. Variable S0 : list N.
Hypothesis HP : p_ok p S0.
Hypothesis HNE : S0 <> [].
Notation L := (p_L p).
Hypothesis HL : L <= 63.
Notation MASK := (2 ^ N.of_nat (L - 1))%N.

Lemma lev_mask : forall d v T c, nrep p (S d) v T -> hit c (shr MASK (nd_level v)) = tb c d.
Proof. intros d v T c (H1 & _). rewrite shr_pow by lia. replace (L - 1 - nd_level v) with d by lia. apply hit_pow. Qed.
Lemma kids_ne : forall d (T : list N), T <> [] -> filter (fb false d) T = [] -> filter (fb true d) T <> [].
Proof. intros d T H E F. pose proof (fsl d T) as X. rewrite E, F in X. destruct T; [congruence|discriminate]. Qed.
Lemma size_ne : forall d v (T : list N), nrep p d v T -> (0 <? nd_size v) = match T with [] => false | _ => true end.
Proof. intros d v T (_ & H & _). rewrite H. destruct T; auto. Qed.
Lemma In_kid : forall d y T, In y T -> In y (filter (fb (tb y d) d) T).
Proof. intros. apply filter_In. split; auto. apply fb_self. Qed.
Lemma kid_In : forall d y T b, In y (filter (fb b d) T) -> In y T /\ tb y d = b.
Proof. intros. apply filter_In in H. destruct H as [A B]. unfold fb in B. apply eqb_prop in B. auto. Qed.

(* the largest / smallest symbol of a node *)
Lemma max_ok : forall d v T pr f, nrep p d v T -> T <> [] -> d < f -> d <= 63 ->
  exists x, lte_loop f p v pr (lo_set 64) MASK = Some (true, x) /\ In x T /\ forall y, In y T -> (y <= x)%N.
Proof.
  induction d; intros v T pr f R HT Hf Hd; (destruct f as [|f]; [lia|]); cbn [lte_loop].
  - destruct (leaf_t p v T R) as [-> A]. exists (nd_sym v). split; auto. destruct T as [|y T]; [congruence|]. split.
    + left. apply A. left. auto. + intros z Hz. rewrite (A z Hz). lia.
  - rewrite (leaf_f p d v T R). destruct (expand_ok p S0 HP HNE d v T R) as (v0 & v1 & -> & R0 & R1 & _). cbn [obind].
    rewrite (lev_mask d v T _ R), tb_lo_set. destruct (Nat.ltb_spec d 64); [|lia]. 
    rewrite (size_ne _ _ _ R1), (size_ne _ _ _ R0). pose proof R as (_ & _ & R3 & _). rewrite Forall_forall in R3.
    destruct (filter (fb true d) T) as [|a l] eqn:E1.
    + assert (E0 : filter (fb false d) T <> []). { intro E0. eapply (kids_ne d T HT); eauto. }
      destruct (IHd v0 _ pr f R0 E0 ltac:(lia) ltac:(lia)) as (x & X1 & X2 & X3). exists x. split; auto. split. apply kid_In in X2; tauto.
      intros y Hy. pose proof (In_kid d y T Hy) as Y. destruct (tb y d); [rewrite E1 in Y; destruct Y|auto].
    + rewrite <- E1 in R1. assert (E1' : filter (fb true d) T <> []) by congruence.
      match goal with |- context [lte_loop f p v1 ?q _ _] => destruct (IHd v1 _ q f R1 E1' ltac:(lia) ltac:(lia)) as (x & X1 & X2 & X3) end. exists x. split; [exact X1|].
      apply kid_In in X2. destruct X2 as [X2 X4]. split; auto.
      intros y Hy. pose proof (In_kid d y T Hy) as Y. destruct (tb y d) eqn:Ey; [auto|].
      assert (y < x)%N; [|lia]. eapply bit_lt; eauto. rewrite (R3 y Hy), (R3 x X2). auto.
Qed.
Lemma min_ok : forall d v T pr f, nrep p d v T -> T <> [] -> d < f ->
  exists x, gte_loop f p v pr 0 MASK = Some (true, x) /\ In x T /\ forall y, In y T -> (x <= y)%N.
Proof.
  induction d; intros v T pr f R HT Hf; (destruct f as [|f]; [lia|]); cbn [gte_loop].
  - destruct (leaf_t p v T R) as [-> A]. exists (nd_sym v). split; auto. destruct T as [|y T]; [congruence|]. split.
    + left. apply A. left. auto. + intros z Hz. rewrite (A z Hz). lia.
  - rewrite (leaf_f p d v T R). destruct (expand_ok p S0 HP HNE d v T R) as (v0 & v1 & -> & R0 & R1 & _). cbn [obind].
    rewrite (lev_mask d v T _ R). change (tb 0 d) with (N.testbit 0 (N.of_nat d)). rewrite N.bits_0.
    rewrite (size_ne _ _ _ R1), (size_ne _ _ _ R0). pose proof R as (_ & _ & R3 & _). rewrite Forall_forall in R3.
    destruct (filter (fb false d) T) as [|a l] eqn:E0.
    + assert (E1 : filter (fb true d) T <> []) by (apply kids_ne; auto).
      destruct (IHd v1 _ pr f R1 E1 ltac:(lia)) as (x & X1 & X2 & X3). exists x. split; auto. split. apply kid_In in X2; tauto.
      intros y Hy. pose proof (In_kid d y T Hy) as Y. destruct (tb y d); [auto|rewrite E0 in Y; destruct Y].
    + rewrite <- E0 in R0. assert (E0' : filter (fb false d) T <> []) by congruence.
      match goal with |- context [gte_loop f p v0 ?q _ _] => destruct (IHd v0 _ q f R0 E0' ltac:(lia)) as (x & X1 & X2 & X3) end. exists x. split; [exact X1|].
      apply kid_In in X2. destruct X2 as [X2 X4]. split; auto.
      intros y Hy. pose proof (In_kid d y T Hy) as Y. destruct (tb y d) eqn:Ey; [|auto].
      assert (x < y)%N; [|lia]. eapply bit_lt; eauto. rewrite (R3 y Hy), (R3 x X2). auto.
Qed.

Local Notation lte_spec := (SpecWtAlg.lte_spec S0).
Local Notation gte_spec := (SpecWtAlg.gte_spec S0).

(* what is known about the predecessor subtree *)
Definition pred_inv (d : nat) (c : N) (pr : nd) : Prop :=
  (nd_off pr = 0 /\ forall y, In y S0 -> (y <= c)%N -> shr y d = shr c d) \/
  (exists d' T', nrep p d' pr T' /\ T' <> [] /\ 0 < nd_off pr /\ (forall z, In z T' -> In z S0 /\ (shr z d < shr c d)%N) /\
     forall y, In y S0 -> (y <= c)%N -> shr y d = shr c d \/ exists z, In z T' /\ (y <= z)%N).

Lemma lte_ok : forall d v T pr c f, nrep p d v T -> T <> [] -> (forall y, In y T <-> In y S0 /\ shr y d = shr c d) ->
  pred_inv d c pr -> d + L + 1 < f -> exists r, lte_loop f p v pr c MASK = Some r /\ lte_spec c r.
Proof.
  induction d; intros v T pr c f R HT HI HPr Hf; (destruct f as [|f]; [lia|]); cbn [lte_loop].
  - destruct (leaf_t p v T R) as [-> A]. destruct T as [|y T]; [congruence|].
    pose proof (proj1 (HI y) (or_introl eq_refl)) as [Y1 Y2]. rewrite !shr_0 in Y2. rewrite <- (A y (or_introl eq_refl)). subst y.
    eexists. split; [reflexivity|]. split; auto. split; [lia|auto].
  - rewrite (leaf_f p d v T R). destruct (expand_ok p S0 HP HNE d v T R) as (v0 & v1 & -> & R0 & R1 & _). cbn [obind].
    rewrite (lev_mask d v T _ R), (size_ne _ _ _ R1), (size_ne _ _ _ R0).
    assert (LV : forall d v T, nrep p d v T -> d <= L) by (intros ? ? ? (? & _); lia).
    assert (CH : forall b y, In y (filter (fb b d) T) <-> In y S0 /\ shr y (S d) = shr c (S d) /\ tb y d = b).
    { intros. rewrite filter_In, HI. unfold fb. split; [intros [X1 X2]; apply eqb_prop in X2; tauto|intros (X1 & X2 & <-); rewrite eqb_reflx; tauto]. }
    assert (CS : forall y, In y (filter (fb (tb c d) d) T) <-> In y S0 /\ shr y d = shr c d).
    { intros. rewrite CH. split; [intros (X1 & X2 & X3); split; auto; apply shr_step; auto|intros (X1 & X2); apply shr_step_inv in X2; tauto]. }
    destruct (tb c d) eqn:Ec.
    + destruct (filter (fb true d) T) as [|a1 l1] eqn:E1.
      * (* dead end: the largest of the left child *)
        assert (E0 : filter (fb false d) T <> []). { intro E0. eapply (kids_ne d T HT); eauto. }
        destruct (max_ok d v0 _ pr f R0 E0 ltac:(lia)) as (x & X1 & X2 & X3). { pose proof (LV _ _ _ R0). lia. }
        exists (true, x). split; auto. rewrite CH in X2. destruct X2 as (X2 & X4 & X5). split; auto. split.
        { assert (x < c)%N by (eapply bit_lt; eauto). lia. }
        intros y Hy Hyc. assert (Q : shr y (S d) = shr c (S d) -> (y <= x)%N).
        { intros Q. apply X3. rewrite CH. split; auto. split; auto. destruct (tb y d) eqn:Ey; auto. exfalso.
          assert (Z : In y []) by (rewrite CS; split; auto; apply shr_step; congruence). destruct Z. }
        destruct HPr as [(_ & P)|(d' & T' & P1 & P2 & P3 & P4 & P5)]; [auto|]. destruct (P5 y Hy Hyc) as [|(z & Z1 & Z2)]; auto.
        destruct (P4 z Z1) as [_ Z3]. rewrite <- X4 in Z3. apply shr_lt_lt in Z3. lia.
      * rewrite <- E1 in R1. rewrite <- E1 in CS. apply (IHd v1 (filter (fb true d) T)); auto; try lia. { congruence. }
        destruct (filter (fb false d) T) as [|a0 l0] eqn:E0.
        -- destruct HPr as [(P1 & P)|(d' & T' & P1 & P2 & P3 & P4 & P5)].
           ++ left. split; auto. intros y Hy Hyc. specialize (P y Hy Hyc). apply shr_step; auto. destruct (tb y d) eqn:Ey; [congruence|].
              assert (Z : In y []) by (rewrite <- E0, CH; auto). destruct Z.
           ++ right. exists d', T'. split; auto. split; auto. split; auto. split.
              { intros z Hz. destruct (P4 z Hz). split; auto. apply shr_lt_down. auto. }
              intros y Hy Hyc. destruct (P5 y Hy Hyc) as [Q|Q]; auto. left. apply shr_step; auto. destruct (tb y d) eqn:Ey; [congruence|].
              assert (Z : In y []) by (rewrite <- E0, CH; auto). destruct Z.
        -- right. rewrite <- E0 in *. exists d, (filter (fb false d) T). split; auto. split. { congruence. }
           split. { destruct R0 as (Q1 & _ & _ & _ & _ & [Q2|Q2]); auto. destruct R as (Q3 & _). lia. }
           split. { intros z Hz. rewrite CH in Hz. destruct Hz as (Z1 & Z2 & Z3). split; auto. apply bit_shr_lt; auto. }
           assert (Q : forall y, In y S0 -> shr y (S d) = shr c (S d) -> shr y d = shr c d \/ exists z, In z (filter (fb false d) T) /\ (y <= z)%N).
           { intros y Hy Q. destruct (tb y d) eqn:Ey. left. apply shr_step; congruence. right. exists y. rewrite CH. split; auto. lia. }
           intros y Hy Hyc. destruct HPr as [(P1 & P)|(d' & T' & P1 & P2 & P3 & P4 & P5)]; [auto|]. destruct (P5 y Hy Hyc) as [|(z & Z1 & Z2)]; auto.
           right. assert (A0 : In a0 (filter (fb false d) T)) by (rewrite E0; left; auto). exists a0. split; auto. rewrite CH in A0. destruct A0 as (_ & A0 & _).
           destruct (P4 z Z1) as [_ Z3]. rewrite <- A0 in Z3. apply shr_lt_lt in Z3. lia.
    + assert (RG : forall y, In y S0 -> (y <= c)%N -> shr y (S d) = shr c (S d) -> shr y d = shr c d).
      { intros y Hy Hyc Q. apply shr_step; auto. destruct (tb y d) eqn:Ey; auto. assert (c < y)%N by (eapply bit_lt; eauto). lia. }
      destruct (filter (fb false d) T) as [|a0 l0] eqn:E0.
      * assert (NO : forall y, In y S0 -> (y <= c)%N -> shr y (S d) = shr c (S d) -> False).
        { intros y Hy Hyc Q. assert (Z : In y []) by (rewrite CS; auto). destruct Z. }
        destruct HPr as [(P1 & P)|(d' & T' & P1 & P2 & P3 & P4 & P5)].
        -- change (nd_off (p_root p)) with 0. rewrite P1. cbn [Nat.eqb]. eexists. split; [reflexivity|]. split; auto.
           intros y Hy. destruct (N.lt_ge_cases c y); auto. exfalso. eauto.
        -- change (nd_off (p_root p)) with 0. destruct (Nat.eqb_spec (nd_off pr) 0); [lia|].
           pose proof (LV _ _ _ P1) as LV1. destruct (max_ok d' pr T' pr f P1 P2 ltac:(lia) ltac:(lia)) as (x & X1 & X2 & X3).
           exists (true, x). split; auto. destruct (P4 x X2) as [X4 X5]. split; auto. split. { apply shr_lt_lt in X5. lia. }
           intros y Hy Hyc. destruct (P5 y Hy Hyc) as [|(z & Z1 & Z2)]; [exfalso; eauto|]. specialize (X3 z Z1). lia.
      * rewrite <- E0 in *. apply (IHd v0 (filter (fb false d) T)); auto; try lia. { congruence. }
        destruct HPr as [(P1 & P)|(d' & T' & P1 & P2 & P3 & P4 & P5)].
        -- left. split; auto.
        -- right. exists d', T'. split; auto. split; auto. split; auto. split.
           { intros z Hz. destruct (P4 z Hz). split; auto. apply shr_lt_down. auto. }
           intros y Hy Hyc. destruct (P5 y Hy Hyc) as [Q|Q]; auto.
Qed.
Theorem symbol_lte_ok : forall c, exists r, symbol_lte p c = Some r /\ lte_spec c r.
Proof.
  intros c. pose proof (L_range p S0 HP) as LR. pose proof (S_small p S0 HP) as SS. rewrite Forall_forall in SS. unfold symbol_lte.
  rewrite shl_c_pow by lia. cbn [obind]. rewrite (csub_some _ _ (L - 1)) by lia. cbn [obind]. rewrite shl_c_pow by lia. cbn [obind].
  assert (G : forall c, (c < 2 ^ N.of_nat L)%N -> exists r, lte_loop (2 * L + 2) p (p_root p) (p_root p) c MASK = Some r /\ lte_spec c r).
  { intros c' Hc. apply (lte_ok L _ S0); auto; try lia. apply root_rep; auto.
    - intros. split; intros; [|tauto]. split; auto. rewrite !shr_small; auto.
    - left. split; auto. intros. rewrite !shr_small; auto. }
  destruct (N.leb_spec (2 ^ N.of_nat L) c) as [Z|Z]; [|apply G; auto].
  assert (LS : lo_set L = (2 ^ N.of_nat L - 1)%N) by (apply lo_set_val).
  assert (PP : (2 ^ N.of_nat L <> 0)%N) by (apply N.pow_nonzero; lia). destruct (G (lo_set L) ltac:(rewrite LS; lia)) as (r & E1 & E2). exists r. split; auto.
  rewrite LS in E2. destruct r as [[|] x]; cbn [lte_spec] in *.
  - destruct E2 as (X1 & X2 & X3). split; auto. split; [lia|]. intros y Hy _. apply X3; auto. specialize (SS y Hy). lia.
  - destruct E2 as (X1 & X2). split; auto. intros y Hy. specialize (X2 y Hy). specialize (SS y Hy). lia.
Qed.

Definition succ_inv (d : nat) (c : N) (pr : nd) : Prop :=
  (nd_off pr = 0 /\ forall y, In y S0 -> (c <= y)%N -> shr y d = shr c d) \/
  (exists d' T', nrep p d' pr T' /\ T' <> [] /\ 0 < nd_off pr /\ (forall z, In z T' -> In z S0 /\ (shr c d < shr z d)%N) /\
     forall y, In y S0 -> (c <= y)%N -> shr y d = shr c d \/ exists z, In z T' /\ (z <= y)%N).
Lemma gte_ok : forall d v T pr c f, nrep p d v T -> T <> [] -> (forall y, In y T <-> In y S0 /\ shr y d = shr c d) ->
  succ_inv d c pr -> d + L + 1 < f -> exists r, gte_loop f p v pr c MASK = Some r /\ gte_spec c r.
Proof.
  induction d; intros v T pr c f R HT HI HPr Hf; (destruct f as [|f]; [lia|]); cbn [gte_loop].
  - destruct (leaf_t p v T R) as [-> A]. destruct T as [|y T]; [congruence|].
    pose proof (proj1 (HI y) (or_introl eq_refl)) as [Y1 Y2]. rewrite !shr_0 in Y2. rewrite <- (A y (or_introl eq_refl)). subst y.
    eexists. split; [reflexivity|]. split; auto. split; [lia|auto].
  - rewrite (leaf_f p d v T R). destruct (expand_ok p S0 HP HNE d v T R) as (v0 & v1 & -> & R0 & R1 & _). cbn [obind].
    rewrite (lev_mask d v T _ R), (size_ne _ _ _ R1), (size_ne _ _ _ R0).
    assert (LV : forall d v T, nrep p d v T -> d <= L) by (intros ? ? ? (? & _); lia).
    assert (CH : forall b y, In y (filter (fb b d) T) <-> In y S0 /\ shr y (S d) = shr c (S d) /\ tb y d = b).
    { intros. rewrite filter_In, HI. unfold fb. split; [intros [X1 X2]; apply eqb_prop in X2; tauto|intros (X1 & X2 & <-); rewrite eqb_reflx; tauto]. }
    assert (CS : forall y, In y (filter (fb (tb c d) d) T) <-> In y S0 /\ shr y d = shr c d).
    { intros. rewrite CH. split; [intros (X1 & X2 & X3); split; auto; apply shr_step; auto|intros (X1 & X2); apply shr_step_inv in X2; tauto]. }
    destruct (tb c d) eqn:Ec.
    + assert (RG : forall y, In y S0 -> (c <= y)%N -> shr y (S d) = shr c (S d) -> shr y d = shr c d).
      { intros y Hy Hyc Q. apply shr_step; auto. destruct (tb y d) eqn:Ey; auto. assert (y < c)%N by (eapply bit_lt; eauto). lia. }
      destruct (filter (fb true d) T) as [|a0 l0] eqn:E0.
      * assert (NO : forall y, In y S0 -> (c <= y)%N -> shr y (S d) = shr c (S d) -> False).
        { intros y Hy Hyc Q. assert (Z : In y []) by (rewrite CS; auto). destruct Z. }
        destruct HPr as [(P1 & P)|(d' & T' & P1 & P2 & P3 & P4 & P5)].
        -- change (nd_off (p_root p)) with 0. rewrite P1. cbn [Nat.eqb]. eexists. split; [reflexivity|]. split; auto.
           intros y Hy. destruct (N.lt_ge_cases y c); auto. exfalso. eauto.
        -- change (nd_off (p_root p)) with 0. destruct (Nat.eqb_spec (nd_off pr) 0); [lia|].
           pose proof (LV _ _ _ P1) as LV1. destruct (min_ok d' pr T' pr f P1 P2 ltac:(lia)) as (x & X1 & X2 & X3).
           exists (true, x). split; auto. destruct (P4 x X2) as [X4 X5]. split; auto. split. { apply shr_lt_lt in X5. lia. }
           intros y Hy Hyc. destruct (P5 y Hy Hyc) as [|(z & Z1 & Z2)]; [exfalso; eauto|]. specialize (X3 z Z1). lia.
      * rewrite <- E0 in *. apply (IHd v1 (filter (fb true d) T)); auto; try lia. { congruence. }
        destruct HPr as [(P1 & P)|(d' & T' & P1 & P2 & P3 & P4 & P5)].
        -- left. split; auto.
        -- right. exists d', T'. split; auto. split; auto. split; auto. split.
           { intros z Hz. destruct (P4 z Hz). split; auto. apply shr_lt_down. auto. }
           intros y Hy Hyc. destruct (P5 y Hy Hyc) as [Q|Q]; auto.
    + destruct (filter (fb false d) T) as [|a1 l1] eqn:E1.
      * (* dead end: the smallest of the right child *)
        assert (E0 : filter (fb true d) T <> []) by (apply kids_ne; auto).
        destruct (min_ok d v1 _ pr f R1 E0 ltac:(lia)) as (x & X1 & X2 & X3).
        exists (true, x). split; auto. rewrite CH in X2. destruct X2 as (X2 & X4 & X5). split; auto. split.
        { assert (c < x)%N by (eapply bit_lt; eauto). lia. }
        intros y Hy Hyc. assert (Q : shr y (S d) = shr c (S d) -> (x <= y)%N).
        { intros Q. apply X3. rewrite CH. split; auto. split; auto. destruct (tb y d) eqn:Ey; auto. exfalso.
          assert (Z : In y []) by (rewrite CS; split; auto; apply shr_step; congruence). destruct Z. }
        destruct HPr as [(_ & P)|(d' & T' & P1 & P2 & P3 & P4 & P5)]; [auto|]. destruct (P5 y Hy Hyc) as [|(z & Z1 & Z2)]; auto.
        destruct (P4 z Z1) as [_ Z3]. rewrite <- X4 in Z3. apply shr_lt_lt in Z3. lia.
      * rewrite <- E1 in R0. rewrite <- E1 in CS. apply (IHd v0 (filter (fb false d) T)); auto; try lia. { congruence. }
        destruct (filter (fb true d) T) as [|a0 l0] eqn:E0.
        -- destruct HPr as [(P1 & P)|(d' & T' & P1 & P2 & P3 & P4 & P5)].
           ++ left. split; auto. intros y Hy Hyc. specialize (P y Hy Hyc). apply shr_step; auto. destruct (tb y d) eqn:Ey; [|congruence].
              assert (Z : In y []) by (rewrite <- E0, CH; auto). destruct Z.
           ++ right. exists d', T'. split; auto. split; auto. split; auto. split.
              { intros z Hz. destruct (P4 z Hz). split; auto. apply shr_lt_down. auto. }
              intros y Hy Hyc. destruct (P5 y Hy Hyc) as [Q|Q]; auto. left. apply shr_step; auto. destruct (tb y d) eqn:Ey; [|congruence].
              assert (Z : In y []) by (rewrite <- E0, CH; auto). destruct Z.
        -- right. rewrite <- E0 in *. exists d, (filter (fb true d) T). split; auto. split. { congruence. }
           split. { destruct R1 as (Q1 & _ & _ & _ & _ & [Q2|Q2]); auto. destruct R as (Q3 & _). lia. }
           split. { intros z Hz. rewrite CH in Hz. destruct Hz as (Z1 & Z2 & Z3). split; auto. apply bit_shr_lt; auto. }
           assert (Q : forall y, In y S0 -> shr y (S d) = shr c (S d) -> shr y d = shr c d \/ exists z, In z (filter (fb true d) T) /\ (z <= y)%N).
           { intros y Hy Q. destruct (tb y d) eqn:Ey. right. exists y. rewrite CH. split; auto. lia. left. apply shr_step; congruence. }
           intros y Hy Hyc. destruct HPr as [(P1 & P)|(d' & T' & P1 & P2 & P3 & P4 & P5)]; [auto|]. destruct (P5 y Hy Hyc) as [|(z & Z1 & Z2)]; auto.
           right. assert (A0 : In a0 (filter (fb true d) T)) by (rewrite E0; left; auto). exists a0. split; auto. rewrite CH in A0. destruct A0 as (_ & A0 & _).
           destruct (P4 z Z1) as [_ Z3]. rewrite <- A0 in Z3. apply shr_lt_lt in Z3. lia.
Qed.
Theorem symbol_gte_ok : forall c, exists r, symbol_gte p c = Some r /\ gte_spec c r.
Proof.
  intros c. pose proof (L_range p S0 HP) as LR. pose proof (S_small p S0 HP) as SS. rewrite Forall_forall in SS. unfold symbol_gte.
  rewrite shl_c_pow by lia. cbn [obind]. 
  destruct (N.leb_spec (2 ^ N.of_nat L) c) as [Z|Hc].
  - exists (false, 0%N). split; auto. split; auto. intros y Hy. specialize (SS y Hy). lia.
  - rewrite (csub_some _ _ (L - 1)) by lia. cbn [obind]. rewrite shl_c_pow by lia. cbn [obind].
    apply (gte_ok L _ S0); auto; try lia. apply root_rep; auto.
    + intros. split; intros; [|tauto]. split; auto. rewrite !shr_small; auto.
    + left. split; auto. intros. rewrite !shr_small; auto.
Qed.
End A.
