(** * child, edge, suffix links and Weiner links of cst_sct3: the operations *)
From Coq Require Import NArith List Bool Arith Lia Permutation.
From Verif Require Import Base SpecBits RankSelect AbsVec WtBase WtProofs SpecCsa Alphabet AlphabetProofs Csa CsaProofs CsaProofs2 SpecLcp LcpProofs Bp BpRmq SpecCst SpecCstText Cst CstProofs CstProofs2 CstProofs5 CstProofs4 CstProofs6 CstProofs7 CstText CstTextProofs CstTextProofs2.
Import ListNotations.
Open Scope nat_scope.

Lemma nth_firstn_n : forall (s : list nat) k q, q < k -> nth q (firstn k s) 0 = nth q s 0.
Proof. induction s; intros [|k] [|q] H; try lia; auto. cbn [firstn nth]. apply IHs. lia. Qed.
Lemma nth_skipn_n : forall (s : list nat) p q, nth q (skipn p s) 0 = nth (p + q) s 0.
Proof. intros s p. revert s. induction p; intros s q; [reflexivity|]. destruct s; [destruct q; reflexivity|]. apply IHp. Qed.
Section Y.
Variable g : padding.
Variables B deg : nat.
Hypothesis HB : B mod 8 = 0.
Hypothesis HB0 : 0 < B.
Hypothesis Hd : 2 <= deg.
Variables T sa L : list nat.
Hypothesis TOK : text_ok T.
Hypothesis SA : is_sa T sa.
Hypothesis LC : is_lcp T sa L.
Variable M : nat.
Variable x : csa.
Hypothesis COK : csa_ok M T sa x.
Hypothesis MT : forall c, In c T -> c < M.
Variable dens : nat.
Notation n := (CsaProofs.n T). Notation tx := (tx T). Notation sx := (sx T). Notation row := (row sa). Notation isa := (isa T).
Local Notation A := (map N.of_nat L).
Let AO := co_al _ _ _ _ COK.
Variable c : cst.
Hypothesis MK0 : cst_make B deg A (al_sigma (c_al x)) sa = Some c.
Local Notation node_ := (mknode g B deg c).
Lemma MK : cst_make B deg A (zero_count A) sa = Some c.
Proof. rewrite (text_zeros T sa L TOK SA LC), <- (ao_sigma _ _ _ AO). exact MK0. Qed.
Let OK : lcp_ok A := text_lcp_ok T sa L TOK SA LC.
Let AL : length A = n := A_len T sa L LC.
Local Notation char_pos := (char_pos_ok T sa SA M x COK MT dens).
Local Notation lo_iff := (pos_lo T sa TOK SA M MT).
Local Notation hi_iff := (pos_hi T sa TOK SA M MT).

(** ** edge *)
Lemma edge_loop_ok : forall s order fuel b e, In s T -> less T s <= order < less T (S s) -> b <= dless T s + 1 <= e -> e <= dist T + 1 -> e - b < fuel -> edge_loop x fuel order b e = Some (dless T s + 1).
Proof.
  intros s order. induction fuel; intros b e I O BE E F; [lia|]. cbn [edge_loop]. destruct (Nat.ltb_spec b e) as [LT|GE]; [|f_equal; lia].
  assert (MB : b <= (b + e) / 2 < e) by (split; [apply Nat.div_le_lower_bound; lia|apply Nat.div_lt_upper_bound; lia]). set (mid := (b + e) / 2) in *.
  destruct (C_at M T (c_al x) AO mid ltac:(lia)) as (y & Y). rewrite Y. cbn [obind]. pose proof (C_le_iff M T (c_al x) AO s order mid y I O ltac:(lia) Y) as CI.
  destruct (Nat.leb_spec y order) as [C1|C1]; apply IHfuel; auto; try lia.
Qed.
Lemma edge_row : forall i d w, i < n -> lb w = i -> 1 <= d -> row i + (d - 1) < n -> edge x dens w d = Some (tx (row i + (d - 1))).
Proof.
  intros i d w I LB D R. unfold edge. rewrite csub_le by auto. cbn [obind]. unfold lb in LB. rewrite LB, char_pos by auto. cbn [obind]. set (p := row i + (d - 1)) in *. assert (IT : In (tx p) T) by (apply nth_In; auto).
  pose proof (dless_lt T (tx p) IT). rewrite (ao_sigma _ _ _ AO), (edge_loop_ok (tx p)); auto; try lia; [|apply (isa_sym T sa TOK SA); auto]. cbn [obind]. rewrite csub_le by lia. cbn [obind]. replace (dless T (tx p) + 1 - 1) with (dless T (tx p)) by lia. apply (ao_c2ch _ _ _ AO). auto.
Qed.

(** ** child *)
Section C.
Variables i j l : nat.
Hypothesis IN : inner A i j (N.of_nat l).
Variable P : list nat.
Hypothesis PO : occurs_at T P (row i).
Hypothesis PL : length P = l.
Variable ch : nat.
Local Notation fl_ := (fl A (N.of_nat l) i j).
Local Notation bo q := (nth q (borders A i j (N.of_nat l)) 0).
Local Notation dg := (length (borders A i j (N.of_nat l)) - 1).
Local Notation ss q := (tx (row (bo (q - 1)) + l)).
Lemma bo_fl : forall q e, 1 <= q <= length fl_ -> nth (q - 1) fl_ e = bo q.
Proof.
  intros q e Q. unfold borders. fold fl_. destruct q as [|q]; [lia|]. replace (S q - 1) with q by lia. cbn [nth]. change (min_positions A i j (N.of_nat l)) with fl_. rewrite app_nth1 by lia. apply nth_indep. lia.
Qed.
Lemma bo_room : forall q, 1 <= q <= dg -> i <= bo (q - 1) <= j /\ row (bo (q - 1)) + l < n.
Proof.
  intros q Q. destruct (bo_bord L i j l IN q Q) as (B1 & B2 & _). split; [lia|]. apply (room T sa L TOK SA LC i j l IN). lia.
Qed.
Lemma child_loop_ok : forall fuel a b, b - a < fuel -> 2 <= a <= b -> b <= dg -> (forall q, 2 <= q < a -> ss q < ch) -> (forall q, b <= q < dg -> ch < ss q) ->
  (exists q, 2 <= q < dg /\ ss q = ch /\ child_loop g B deg c x dens fuel (nd A i j) l (less T ch) (less T (S ch)) a b = Some (nd A (bo (q - 1)) (bo q - 1))) \/
  ((forall q, 2 <= q < dg -> ss q <> ch) /\ child_loop g B deg c x dens fuel (nd A i j) l (less T ch) (less T (S ch)) a b = root c).
Proof.
  pose proof (jn T sa L LC i j l IN) as JN. pose proof (bo_len A i j (N.of_nat l)) as BL. induction fuel; intros a b F AB BD HL HR; [lia|]. cbn [child_loop]. destruct (Nat.ltb_spec a b) as [LT|GE].
  2: { right. split; auto. intros q Q. destruct (Nat.lt_ge_cases q a) as [X|X]; [specialize (HL q ltac:(lia))|specialize (HR q ltac:(lia))]; lia. }
  assert (MB : a <= (a + b) / 2 < b) by (split; [apply Nat.div_le_lower_bound; lia|apply Nat.div_lt_upper_bound; lia]). set (mid := (a + b) / 2) in *. clearbody mid. rewrite csub_le by lia. cbn [obind].
  destruct (make_setup B deg HB0 Hd A sa OK c MK) as (bp & t & fc & nodes & EC & BI & TT & FL & FB & ND). pose proof OK as (N0 & A0 & A1 & SM).
  destruct (sel_l_ok g B deg HB HB0 Hd A N0 A0 bp t fc nodes sa BI TT FL FB i j (N.of_nat l) (mid - 1) IN ltac:(lia)) as (ck & E & CE). rewrite <- EC in E. rewrite E. cbn [obind]. specialize (CE ltac:(lia)). rewrite (bo_fl (mid - 1)) in * by lia. 
  destruct (bo_room mid ltac:(lia)) as (R1 & R2). rewrite char_pos by (auto; lia). cbn [obind]. pose proof (lo_iff (row (bo (mid - 1)) + l) ch R2) as CL. pose proof (hi_iff (row (bo (mid - 1)) + l) ch R2) as CH.
  destruct (Nat.ltb_spec (isa (row (bo (mid - 1)) + l)) (less T ch)) as [X|X].
  { apply CL in X. apply IHfuel; try lia; auto. intros q Q. destruct (Nat.eq_dec q mid) as [->|NE]; auto. pose proof (ss_mono T sa L TOK SA LC M MT i j l IN P PL q mid ltac:(lia) ltac:(lia)). lia. }
  destruct (Nat.leb_spec (less T (S ch)) (isa (row (bo (mid - 1)) + l))) as [Y|Y].
  { apply CH in Y. apply IHfuel; try lia; auto. intros q Q. destruct (Nat.eq_dec q mid) as [->|NE]; auto. pose proof (ss_mono T sa L TOK SA LC M MT i j l IN P PL mid q ltac:(lia) ltac:(lia)). lia. }
  left. exists mid. split; [lia|]. split; [lia|].
  destruct (l_all g B deg HB HB0 Hd A N0 A0 bp t fc nodes sa BI FL FB i j (N.of_nat l) IN) as (k1 & m & _ & _ & _ & _ & _ & _ & LM & XX).
  destruct (XX (mid - 1 - 1) ltac:(lia)) as (X1 & X2 & X3 & X4). destruct (XX (mid - 1) ltac:(lia)) as (Y1 & Y2 & Y3 & Y4). rewrite (bo_fl (mid - 1)) in * by lia. rewrite (bo_fl mid) in * by lia.
  assert (CC : cl A (bo mid) = ck - 1). { rewrite CE, !(cl_zi A A0) by lia. lia. }
  assert (C1 : 1 <= ck). { rewrite CE, (cl_zi A A0) by lia. lia. }
  rewrite csub_le by auto. cbn [obind]. rewrite <- CC, EC.
  rewrite (k_open g B deg HB HB0 Hd A A0 bp t fc nodes sa BI TT) by lia. cbn [obind]. rewrite (k_idx g B deg HB HB0 Hd A N0 A0 bp t fc nodes sa BI FL FB) by lia. cbn [obind]. rewrite csub_le by lia. cbn [obind].
  rewrite (k_csize A bp t fc nodes sa BI), csub_le by lia. cbn [obind]. rewrite (proj2 (Nat.ltb_lt (bo mid - 1) (length A - 1))) by lia. rewrite (k_sel A bp t fc nodes sa BI) by lia. cbn [obind].
  unfold nd. rewrite (np_lt A (bo (mid - 1))) by lia. rewrite CE. replace (bo mid - 1 + 1) with (bo mid) by lia. rewrite (np_lt A (bo mid)) by lia. reflexivity.
Qed.
Lemma nd_node : forall i j, i < n -> j < n -> node_ i j = Some (nd A i j).
Proof.
  intros i' j' I J. destruct (make_setup B deg HB0 Hd A sa OK c MK) as (bp & t & fc & nodes & EC & BI & TT & FL & FB & ND). pose proof OK as (N0 & A0 & A1 & SM). rewrite EC. apply (mknode_ok g B deg HB HB0 Hd A N0 A0 bp t fc nodes sa BI TT FL FB); rewrite AL; auto.
Qed.
Lemma deg2 : 2 <= dg.
Proof. rewrite bo_len. destruct IN as (_ & _ & (k & K & E) & _). assert (IK : In k fl_) by (apply fl_In; auto). destruct fl_; [contradiction|cbn [length]; lia]. Qed.
Lemma child_inner : ch < M -> (exists q, 1 <= q <= dg /\ ss q = ch /\ child g B deg c x dens (nd A i j) ch = Some (nd A (bo (q - 1)) (bo q - 1))) \/
  ((forall q, 1 <= q <= dg -> ss q <> ch) /\ child g B deg c x dens (nd A i j) ch = root c).
Proof.
  intros CM. pose proof (jn T sa L LC i j l IN) as JN. pose proof deg2 as D2. pose proof (bo_len A i j (N.of_nat l)) as BL. unfold child. cbn [is_leaf nd n_i n_j]. change (is_leaf (nd A i j)) with (i =? j). destruct (Nat.eqb_spec i j) as [EE|NIJ]; [lia|].
  destruct (in_dec Nat.eq_dec ch T) as [IT|NT].
  2: { rewrite (ao_abs _ _ _ AO) by auto. cbn [obind]. assert (NZ : ch <> 0) by (intros ->; apply NT; apply zero_in; auto). rewrite (proj2 (Nat.eqb_neq _ _) NZ). cbn [Nat.eqb andb negb]. right. split; auto. intros q Q E. destruct (bo_room q Q). apply NT. rewrite <- E. apply nth_In. auto. }
  rewrite (ao_c2c _ _ _ AO) by auto. cbn [obind]. assert (ZZ : (dless T ch =? 0) && negb (ch =? 0) = false). { assert (X : (dless T ch =? 0) && (0 <? ch) = false) by (eapply dless_pos; eauto). destruct ch; cbn [Nat.eqb negb Nat.ltb Nat.leb] in *; auto using andb_false_r. }
  rewrite ZZ. replace (1 + dless T ch) with (dless T ch + 1) by lia. rewrite (C_next M T (c_al x) AO ch IT). cbn [obind]. rewrite (ao_C _ _ _ AO) by auto. cbn [obind].
  destruct (p_depth g B deg HB HB0 Hd A sa OK c MK i j (nd A i j) ltac:(eapply inner_node; eauto) ltac:(lia) ltac:(apply nd_node; lia)) as (l' & DE & (V1 & k & K & V2)). rewrite DE. cbn [obind].
  assert (LL : l' = N.of_nat l). { destruct IN as (_ & H2 & (k' & K' & E') & _). unfold av in *. specialize (H2 k K). specialize (V1 k' K'). lia. } rewrite LL, Nat2N.id in *. clear LL V1 V2 DE l'.
  destruct (bo_room 1 ltac:(lia)) as (R0 & R1). change (bo (1 - 1)) with i in *. rewrite char_pos by (auto; lia). cbn [obind].
  destruct (make_setup B deg HB0 Hd A sa OK c MK) as (bp & t & fc & nodes & EC & BI & TT & FL & FB & ND). pose proof OK as (N0 & A0 & A1 & SM).
  assert (SC : forall q, 1 <= q <= dg -> select_child g B deg c (nd A i j) q = Some (nd A (bo (q - 1)) (bo q - 1))). { intros q Q. rewrite EC. apply (select_child_ok g B deg HB HB0 Hd A N0 A0 bp t fc nodes sa BI TT FL FB i j (N.of_nat l) q IN). rewrite <- BL. auto. }
  assert (MO : forall q q', 1 <= q < q' -> q' <= dg -> ss q < ss q') by (apply (ss_mono T sa L TOK SA LC M MT i j l IN P PL)).
  pose proof (lo_iff (row i + l) ch R1) as CL. pose proof (hi_iff (row i + l) ch R1) as CH.
  destruct (Nat.leb_spec (less T (S ch)) (isa (row i + l))) as [X|X].
  { apply CH in X. right. split; auto. intros q Q E. destruct (Nat.eq_dec q 1) as [->|NE]; [change (bo (1 - 1)) with i in E; lia|]. pose proof (MO 1 q ltac:(lia) ltac:(lia)) as MM. change (bo (1 - 1)) with i in MM. lia. }
  destruct (Nat.leb_spec (less T ch) (isa (row i + l))) as [Y|Y].
  { left. exists 1. split; [lia|]. change (bo (1 - 1)) with i. split; [lia|]. apply (SC 1). lia. }
  apply CL in Y. assert (DGE : degree g c (nd A i j) = Some dg). { rewrite EC, BL. apply (degree_ok g B deg HB HB0 Hd A N0 A0 bp t fc nodes sa BI FL FB). auto. } rewrite DGE. cbn [obind].
  pose proof (room T sa L TOK SA LC i j l IN j ltac:(lia)) as RJ. rewrite char_pos by (auto; lia). cbn [obind]. pose proof (lo_iff (row j + l) ch RJ) as CL2. pose proof (hi_iff (row j + l) ch RJ) as CH2. pose proof (ss_last T sa L TOK SA LC M MT i j l IN P PL D2) as SL.
  destruct (Nat.ltb_spec (isa (row j + l)) (less T ch)) as [Z|Z].
  { apply CL2 in Z. right. split; auto. intros q Q E. destruct (Nat.eq_dec q dg) as [->|NE]; [lia|]. pose proof (MO q dg ltac:(lia) ltac:(lia)). lia. }
  destruct (Nat.ltb_spec (isa (row j + l)) (less T (S ch))) as [U|U].
  { left. exists dg. split; [lia|]. split; [lia|]. apply SC. lia. }
  apply CH2 in U. destruct (child_loop_ok (S dg) 2 dg ltac:(lia) ltac:(lia) (le_n _) ltac:(intros; lia) ltac:(intros; lia)) as [(q & Q & E & R)|(N1 & R)].
  - left. exists q. split; [lia|]. auto.
  - right. split; auto. intros q Q. destruct (Nat.eq_dec q 1) as [->|]; [change (bo (1 - 1)) with i; lia|]. destruct (Nat.eq_dec q dg) as [->|]; [lia|]. apply N1. lia.
Qed.
End C.

(** ** the statements *)
Lemma node_bounds : forall i j, lcp_interval A i j -> i <= j < n.
Proof. intros i j H. pose proof (node_lt _ _ _ H). lia. Qed.
Lemma t_edge : forall i j w P d, lcp_interval A i j -> node_ i j = Some w -> node_label T sa i j P -> 1 <= d <= length P -> edge x dens w d = Some (nth (d - 1) P 0).
Proof.
  intros i j w P d H W LB D. pose proof (node_bounds i j H) as BB. rewrite nd_node in W by lia. injection W as <-. pose proof LB as (O & _). specialize (O i ltac:(lia)). fold (row i) in O. pose proof (row_lt T sa SA i ltac:(lia)) as RI.
  pose proof (occ_len T P (row i) RI O) as OL. rewrite (edge_row i) by (auto; lia). f_equal. unfold occurs_at in O. rewrite <- O at 1. rewrite nth_firstn_n, nth_skipn_n by lia. reflexivity.
Qed.
Lemma t_child : forall i j w P ch, lcp_interval A i j -> node_ i j = Some w -> node_label T sa i j P -> ch < M ->
  ((exists p, occurs_at T (P ++ [ch]) p) -> exists i' j' w', child g B deg c x dens w ch = Some w' /\ node_ i' j' = Some w' /\ parent_of A i' j' i j /\ lcp_interval A i' j' /\ sa_interval T sa (P ++ [ch]) i' (j' + 1)) /\
  (~ (exists p, occurs_at T (P ++ [ch]) p) -> child g B deg c x dens w ch = root c).
Proof.
  intros i j w P ch H W LB CM. pose proof (node_bounds i j H) as BB. rewrite nd_node in W by lia. injection W as <-. destruct (label_facts T sa L TOK SA LC i j P H LB) as (SI & LF & IF). pose proof LB as (O & _). specialize (O i ltac:(lia)). fold (row i) in O.
  assert (OC : forall p, occurs_at T (P ++ [ch]) p -> exists k, k < n /\ row k = p). { intros p OP. apply (occ_snoc T M MT) in OP. apply (row_ex T sa SA). lia. }
  destruct (Nat.eq_dec i j) as [<-|NE].
  - split; [|intros _; unfold child; change (is_leaf (nd A i i)) with (i =? i); rewrite Nat.eqb_refl; auto]. intros (p & OP). exfalso. destruct (OC p OP) as (k & K & <-). apply (occ_snoc T M MT) in OP. destruct OP as (O1 & O2 & _). apply (proj2 SI) in O1; auto. assert (k = i) by lia. subst k. rewrite LF in O2 by auto. lia.
  - specialize (IF ltac:(lia)). destruct (child_inner i j (length P) IF P eq_refl ch CM) as [(q & Q & E & R)|(N1 & R)].
    + pose proof (bo_bord L i j (length P) IF q Q) as BD. pose proof BD as (B1 & B2 & _). pose proof (child_iv T sa L TOK SA LC M MT i j (length P) IF P O eq_refl _ _ BD) as CI. rewrite E in CI. split.
      * intros _. exists (nth (q - 1) (borders A i j (N.of_nat (length P))) 0), (nth q (borders A i j (N.of_nat (length P))) 0 - 1). eexists. split; [exact R|]. split; [apply nd_node; lia|]. split; [eapply bord_parent; eauto|]. split; [eapply bord_node; eauto|].
        replace (nth q (borders A i j (N.of_nat (length P))) 0 - 1 + 1) with (nth q (borders A i j (N.of_nat (length P))) 0) by lia. exact CI.
      * intros NO. exfalso. apply NO. exists (row (nth (q - 1) (borders A i j (N.of_nat (length P))) 0)). apply (proj2 CI); [fold n; lia|lia].
    + split; auto. intros (p & OP). exfalso. destruct (OC p OP) as (k & K & <-). destruct (ss_all T sa L TOK SA LC M MT i j (length P) IF P O eq_refl ch k K OP) as (q & Q & E). apply (N1 q Q E).
Qed.

(** ** suffix links *)
Lemma occ_tl : forall a P p, occurs_at T (a :: P) p <-> p < n /\ tx p = a /\ occurs_at T P (p + 1).
Proof.
  intros a P p. unfold occurs_at. cbn [length]. split.
  - intros H. assert (PN : p < n). { destruct (Nat.lt_ge_cases p n) as [G|G]; auto. rewrite skipn_all2 in H by exact G. discriminate. } rewrite Nat.add_1_r. change (skipn p T) with (sx p) in H. rewrite (sx_cons T p PN) in H. cbn [firstn] in H. injection H as E1 E2. auto.
  - intros (PN & E & H). change (skipn p T) with (sx p). rewrite (sx_cons T p PN). cbn [firstn]. rewrite Nat.add_1_r in H. fold (sx (S p)) in H. rewrite H, E. reflexivity.
Qed.
Lemma t_sl_root : forall w, root c = Some w -> sl g B deg c x w = Some w.
Proof. intros w W. unfold sl. rewrite W. cbn [obind]. unfold node_eqb. rewrite !Nat.eqb_refl. reflexivity. Qed.
Lemma t_root : root c = Some (nd A 0 (n - 1)) /\ lcp_interval A 0 (n - 1).
Proof. pose proof (n_pos T TOK) as NP. destruct (p_root g B deg HB HB0 Hd A sa OK c MK) as (E & H & _). rewrite AL in *. split; auto. rewrite E. apply nd_node; lia. Qed.
Lemma root_label : 2 <= n -> node_label T sa 0 (n - 1) [].
Proof.
  intros N2. destruct t_root as (_ & H). destruct (node_has_label T sa L TOK SA LC 0 (n - 1) H) as (P & LB & _ & _ & IF). specialize (IF ltac:(lia)). pose proof OK as (N0 & A0 & A1 & SM). rewrite AL in A1. specialize (A1 N2). destruct IF as (_ & H2 & _). specialize (H2 1 ltac:(lia)). unfold av in H2. rewrite A1 in H2. destruct P; [exact LB|cbn [length] in H2; lia].
Qed.
Lemma lcp_cons_rows : forall p q, p < n -> q < n -> tx p = tx q -> lcp (sx p) (sx q) = S (lcp (sx (p + 1)) (sx (q + 1))).
Proof. intros p q PN QN E. rewrite (sx_cons T p PN), (sx_cons T q QN). cbn [lcp]. rewrite E, Nat.eqb_refl, !Nat.add_1_r. reflexivity. Qed.
Lemma t_sl : forall i j w P, lcp_interval A i j -> node_ i j = Some w -> (i, j) <> (0, n - 1) -> node_label T sa i j P ->
  exists i' j' w', sl g B deg c x w = Some w' /\ node_ i' j' = Some w' /\ lcp_interval A i' j' /\ node_label T sa i' j' (tl P).
Proof.
  intros i j w P H W NR LB. pose proof (node_bounds i j H) as BB. rewrite nd_node in W by lia. injection W as <-. destruct (label_facts T sa L TOK SA LC i j P H LB) as (SI & LF & IF). destruct t_root as (RE & RH). unfold sl. rewrite RE. cbn [obind].
  destruct (node_eqb (nd A i j) (nd A 0 (n - 1))) eqn:EQ. { exfalso. apply NR. unfold node_eqb in EQ. cbn [nd n_i n_j] in EQ. apply andb_true_iff in EQ. rewrite !Nat.eqb_eq in EQ. destruct EQ; subst; auto. }
  change (n_i (nd A i j)) with i. change (n_j (nd A i j)) with j. rewrite (co_psi _ _ _ _ COK) by (fold n; lia). cbn [obind]. change (is_leaf (nd A i j)) with (i =? j).
  pose proof (row0 T sa TOK SA n (Nat.lt_le_incl _ _ (Nat.pow_gt_lin_r 2 n Nat.lt_1_2))) as R0.
  destruct (Nat.eqb_spec i j) as [EIJ|NIJ].
  - subst j. specialize (LF eq_refl). destruct (Nat.eqb_spec i 0) as [->|NZ]; cbn [andb].
    + assert (N2 : 2 <= n) by (destruct (Nat.eq_dec n 1) as [E1|]; [exfalso; apply NR; rewrite E1; reflexivity|lia]). rewrite R0 in LF. exists 0, (n - 1). eexists. split; [reflexivity|]. split; [apply nd_node; lia|]. split; auto. destruct P as [|a [|b P]]; cbn [length tl] in *; try lia. apply root_label. auto.
    + assert (RN : row i <> n - 1) by (intros E; rewrite <- R0 in E; apply (row_inj T sa SA) in E; lia). pose proof (row_lt T sa SA i ltac:(lia)) as RI. pose proof (psiv_lt T sa SA i ltac:(lia)) as PI.
      assert (RP : row (psiv T sa i) = row i + 1) by (rewrite (row_psiv T sa SA) by lia; unfold nx; destruct (Nat.eqb_spec (row i) (n - 1)); lia).
      destruct (p_leaf g B deg HB HB0 Hd A sa OK c MK (psiv T sa i) ltac:(lia)) as (E1 & E2 & _). exists (psiv T sa i), (psiv T sa i). eexists. rewrite E1. split; [apply nd_node; lia|]. split; [apply nd_node; lia|]. split; auto. pose proof LB as (O & _). specialize (O i ltac:(lia)). fold (row i) in O. destruct P as [|a P]; cbn [length tl] in *; [lia|]. apply occ_tl in O. destruct O as (_ & _ & O). split.
      * intros k K. replace k with (psiv T sa i) by lia. fold (row (psiv T sa i)). rewrite RP. exact O.
      * intros Q HQ. specialize (HQ (psiv T sa i) ltac:(lia)). fold (row (psiv T sa i)) in HQ. apply occ_len in HQ; [|rewrite RP; lia]. lia.
  - specialize (IF ltac:(lia)). rewrite (co_psi _ _ _ _ COK) by (fold n; lia). cbn [obind]. set (l := length P) in *. pose proof IF as (_ & H2 & (k & K & EK) & H4 & H5). unfold av in *. rewrite A_at in EK.
    assert (LP : 1 <= l). { destruct H4 as [->|H4]; [|lia]. destruct H5 as [H5|H5]; [|lia]. exfalso. apply NR. f_equal. lia. }
    pose proof (room T sa L TOK SA LC i j l IF i ltac:(lia)) as RI. pose proof (room T sa L TOK SA LC i j l IF j ltac:(lia)) as RJ.
    assert (RPI : row (psiv T sa i) = row i + 1) by (rewrite (row_psiv T sa SA) by lia; unfold nx; destruct (Nat.eqb_spec (row i) (n - 1)); lia).
    assert (RPJ : row (psiv T sa j) = row j + 1) by (rewrite (row_psiv T sa SA) by lia; unfold nx; destruct (Nat.eqb_spec (row j) (n - 1)); lia).
    pose proof (psiv_lt T sa SA i ltac:(lia)) as PI. pose proof (psiv_lt T sa SA j ltac:(lia)) as PJ. pose proof LB as (O & OM). pose proof (O i ltac:(lia)) as OI. pose proof (O j ltac:(lia)) as OJ. fold (row i) in OI. fold (row j) in OJ.
    destruct P as [|a P]; [cbn in l; lia|]. cbn [tl]. pose proof OI as OI'. pose proof OJ as OJ'. apply occ_tl in OI', OJ'. destruct OI' as (_ & TI & OI'). destruct OJ' as (_ & TJ & OJ').
    assert (LT : psiv T sa i < psiv T sa j). { apply (row_lex T sa SA); auto. rewrite RPI, RPJ. pose proof (row_sx T sa SA i j ltac:(lia)) as X. rewrite (sx_cons T (row i)), (sx_cons T (row j)) in X by lia. cbn [lex_lt] in X. rewrite !Nat.add_1_r. destruct X as [X|(_ & X)]; [lia|exact X]. }
    assert (LE : lcp (sx (row i)) (sx (row j)) = l). { apply Nat.le_antisymm; [|apply (lcp_ge_l T sa L SA LC M MT i j l IF); lia]. apply Nat2N.inj in EK. rewrite <- EK. apply (proj1 (rows_ge T sa L SA LC _ j i ltac:(lia)) (le_n _)). lia. }
    rewrite (lcp_cons_rows (row i) (row j)) in LE by (auto; lia; congruence).
    destruct (make_setup B deg HB0 Hd A sa OK c MK) as (bp & t & fc & nodes & EC & BI & TT & FL & FB & ND). pose proof OK as (N0 & A0 & A1 & SM).
    destruct (around_min_ok g B deg HB HB0 Hd A N0 A0 bp t fc nodes sa BI TT FL FB (psiv T sa i) (psiv T sa j) ltac:(lia)) as (a' & b' & E & IV & C1 & C2 & MIN). rewrite <- EC in E. exists a', b'. eexists. split; [exact E|]. pose proof (node_bounds _ _ IV) as BB'. split; [apply nd_node; lia|]. split; auto. split.
    + pose proof (interval_lohi T sa SA P) as SI'. set (lo := rows T (dlo P)) in *. set (hi := rows T (dhi P)) in *. clearbody lo hi. pose proof SI' as (SB & SI''). rewrite <- RPI in OI'. rewrite <- RPJ in OJ'. apply SI'' in OI'; [|fold n; lia]. apply SI'' in OJ'; [|fold n; lia]. pose proof (locus T sa L SA LC P lo hi SI' ltac:(lia)) as LO. destruct (MIN lo (hi - 1) LO ltac:(lia) ltac:(lia)) as (M1 & M2). intros y Y. apply SI''; [fold n; lia|lia].
    + intros Q HQ. pose proof (HQ (psiv T sa i) ltac:(lia)) as Q1. pose proof (HQ (psiv T sa j) ltac:(lia)) as Q2. fold (row (psiv T sa i)) in Q1. fold (row (psiv T sa j)) in Q2. rewrite RPI in Q1. rewrite RPJ in Q2. unfold occurs_at in Q1, Q2. apply (occ_lcp Q _ _ Q1) in Q2. unfold CsaProofs.sx in LE. subst l. cbn [length] in LE. lia.
Qed.

(** ** Weiner links *)
Lemma t_wl : forall i j w P ch, lcp_interval A i j -> node_ i j = Some w -> node_label T sa i j P -> 0 < ch < M ->
  ((exists p, occurs_at T (ch :: P) p) -> exists i' j' w', wl g B deg c x w ch = Some w' /\ node_ i' j' = Some w' /\ lcp_interval A i' j' /\ sa_interval T sa (ch :: P) i' (j' + 1)) /\
  (~ (exists p, occurs_at T (ch :: P) p) -> wl g B deg c x w ch = root c).
Proof.
  intros i j w P ch H W LB CM. pose proof (node_bounds i j H) as BB. rewrite nd_node in W by lia. injection W as <-. destruct (label_facts T sa L TOK SA LC i j P H LB) as (SI & LF & IF).
  pose proof (interval_step T sa TOK SA ch P i (j + 1) ltac:(lia) SI ltac:(lia)) as ST. unfold wl. change (n_i (nd A i j)) with i. change (n_j (nd A i j)) with j. rewrite !(co_rank _ _ _ _ COK) by (fold n; lia). cbn [obind].
  set (p := rank_of (fun k => bw T sa k =? ch) i) in *. set (q := rank_of (fun k => bw T sa k =? ch) (j + 1)) in *. destruct (Nat.eqb_spec p q) as [E|NE].
  - split; auto. intros (y & O). exfalso. pose proof O as O'. apply occ_tl in O'. destruct O' as (YN & _). destruct (row_ex T sa SA y YN) as (k & K & <-). apply (proj2 ST) in O; [lia|exact K].
  - pose proof ST as (SB & SI'). fold n in SB. assert (EX : exists y, occurs_at T (ch :: P) y). { exists (row (less T ch + p)). apply SI'; [fold n; lia|lia]. }
    split; [intros _|intros NO; exfalso; auto]. assert (IT : In ch T). { destruct EX as (y & O). apply occ_tl in O. destruct O as (YN & <- & _). apply nth_In. auto. }
    rewrite (begin_ok M T (c_al x) AO ch IT). cbn [obind]. pose proof (locus T sa L SA LC (ch :: P) _ _ ST ltac:(lia)) as LO. exists (less T ch + p), (less T ch + q - 1). destruct (Nat.eqb_spec (p + 1) q) as [E1|NE1].
    + destruct (p_leaf g B deg HB HB0 Hd A sa OK c MK (less T ch + p) ltac:(lia)) as (E2 & _). rewrite E2. replace (less T ch + q - 1) with (less T ch + p) in * by lia. eexists. split; [apply nd_node; lia|]. split; [apply nd_node; lia|]. split; auto. replace (less T ch + p + 1) with (less T ch + q) by lia. auto.
    + eexists. split; [|split; [apply nd_node; lia|split; [auto|replace (less T ch + q - 1 + 1) with (less T ch + q) by lia; auto]]].
      destruct (make_setup B deg HB0 Hd A sa OK c MK) as (bp & t & fc & nodes & EC & BI & TT & FL & FB & ND). pose proof OK as (N0 & A0 & A1 & SM). rewrite csub_le by lia. cbn [obind]. rewrite EC. set (lo := less T ch + p) in *. set (hi := less T ch + q - 1) in *.
      rewrite (k_sel A bp t fc nodes sa BI lo) by lia. cbn [obind]. rewrite (k_csize A bp t fc nodes sa BI), csub_le by lia. cbn [obind]. 
      assert (JP : (if hi <? length A - 1 then bsel (mkcst bp t fc nodes (cnt0 A (length A)) sa A) (hi + 2) else Some (bsize (mkcst bp t fc nodes (cnt0 A (length A)) sa A))) = Some (np A (hi + 1))).
      { destruct (Nat.ltb_spec hi (length A - 1)) as [G|G]; [replace (hi + 2) with (hi + 1 + 1) by lia; rewrite (k_sel A bp t fc nodes sa BI (hi + 1)), np_lt by lia; reflexivity|]. rewrite (k_bsize A bp t fc nodes sa BI). replace (hi + 1) with (length A) by lia. rewrite np_n. reflexivity. }
      rewrite JP. cbn [obind]. rewrite (k_close g B deg HB HB0 Hd A A0 bp t fc nodes sa BI TT lo) by lia. reflexivity.
Qed.
End Y.
