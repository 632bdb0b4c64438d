(** * The breadth-first layout of the nodes *)
From Coq Require Import NArith List Arith Bool Lia Permutation.
From Verif Require Import Base SpecBits RankSelect AbsVec WtBase SpecWt WtProofs WtPc WtPcProofs WtPcQ.
Import ListNotations.

Lemma upd_nd_some : forall ns i f v, nth_error ns i = Some v -> upd_nd ns i f = Some (upd ns i (f v)).
Proof. intros ns i f v H. unfold upd_nd. rewrite H. cbn [obind]. apply aset_some. apply nth_error_Some. congruence. Qed.
Lemma upd_same : forall A (l : list A) i v, nth_error l i = Some v -> upd l i v = l.
Proof. induction l as [|a l IH]; intros [|i] v H; cbn in *; try discriminate; auto. { injection H as ->. auto. } f_equal. auto. Qed.
Lemma upd_nd_same : forall ns i f v, nth_error ns i = Some v -> f v = v -> upd_nd ns i f = Some ns.
Proof. intros. rewrite (upd_nd_some _ _ _ v) by auto. rewrite H0, upd_same; auto. Qed.

(** ** The vector of pc_nodes represents a tree *)
Section REP.
Variable wt : ct -> nat.
Fixpoint rep (tn : list pcn) (u : ct) (i : nat) : Prop :=
  exists v, nth_error tn i = Some v /\ p_freq v = wt u /\
  match u with
  | CL s => p_c0 v = None /\ p_sym v = s
  | CN l r => exists a b, p_c0 v = Some a /\ p_c1 v = Some b /\ rep tn l a /\ rep tn r b
  end.
Lemma rep_mono : forall u tn tn' i, (forall j v, nth_error tn j = Some v -> exists v', nth_error tn' j = Some v' /\ p_freq v' = p_freq v /\ p_sym v' = p_sym v /\ p_c0 v' = p_c0 v /\ p_c1 v' = p_c1 v) -> rep tn u i -> rep tn' u i.
Proof.
  induction u as [s|l IHl r IHr]; intros tn tn' i H (v & V & F & M); destruct (H i v V) as (v' & V' & E1 & E2 & E3 & E4); exists v'; rewrite E1, E3; split; auto; split; auto.
  - rewrite E2. auto.
  - destruct M as (a & b & A & B & RA & RB). exists a, b. rewrite E4. split; auto. split; auto. split; [eapply IHl; eauto | eapply IHr; eauto].
Qed.

Section LAY.
Variables (t : ct) (tn : list pcn).
Hypothesis RL : length tn = csize t.

Definition pend (u : ct) (d : node) : Prop := d_pos d = wt u /\
  match u with CL s => d_c0 d = None /\ d_rank d = s | CN l r => exists a b, d_c0 d = Some a /\ d_c1 d = Some b /\ rep tn l a /\ rep tn r b end.
Definition done (pth : list (list bool)) (bv : nat) (p : list bool) (u : ct) (d : node) : Prop :=
  match u with CL s => d_c0 d = None /\ d_rank d = s
  | CN l r => (exists c, d_c0 d = Some c /\ d_c1 d = Some (c + 1) /\ nth_error pth c = Some (p ++ [false]) /\ nth_error pth (c + 1) = Some (p ++ [true])) /\ d_pos d + wt u <= bv end.
Definition isn (u : ct) : bool := match u with CN _ _ => true | _ => false end.
(* the nodes of the queue: h .. length pth - 1 *)
Fixpoint todo (l : list (list bool)) : nat := match l with [] => 0 | p :: l' => match sub t p with Some u => csize u | None => 0 end + todo l' end.
Lemma todo_app : forall a b, todo (a ++ b) = todo a + todo b.
Proof. induction a; intros; cbn [app todo]; auto. rewrite IHa. lia. Qed.

Record inv (h : nat) (pth : list (list bool)) (s : lst) : Prop := mk_inv {
  iv_h : h <= length pth;
  iv_cnt : l_cnt s = length pth;
  iv_len : length (l_ns s) = csize t;
  iv_todo : h + todo (skipn h pth) = csize t;
  iv_nd : NoDup pth;
  iv_0 : nth_error pth 0 = Some [];
  iv_node : forall k p, nth_error pth k = Some p -> exists u d, sub t p = Some u /\ nth_error (l_ns s) k = Some d /\
     (if k <? h then done pth (l_bv s) p u d else pend u d) /\
     (k = 0 \/ exists q p' b, d_par d = Some q /\ q < h /\ nth_error pth q = Some p' /\ p = p' ++ [b]);
  iv_ord : forall k k' p l r d d', k < k' -> k' < h -> nth_error pth k = Some p -> sub t p = Some (CN l r) -> nth_error (l_ns s) k = Some d -> nth_error (l_ns s) k' = Some d' -> d_pos d + wt (CN l r) <= d_pos d';
  iv_last : forall q, l_last s = Some q <-> 2 <= h /\ exists p b, nth_error pth (h - 1) = Some (p ++ [b]) /\ nth_error pth q = Some p }.

Lemma csize_pos : forall u, 0 < csize u. Proof. destruct u; cbn; lia. Qed.
Lemma skipn_cons : forall A (l : list A) h x, nth_error l h = Some x -> skipn h l = x :: skipn (S h) l.
Proof. induction l as [|a l IH]; intros [|h] x H; cbn in *; try discriminate. { injection H as ->. auto. } apply IH. auto. Qed.
Lemma skipn_ext : forall A (l l' : list A) h, h <= length l -> skipn h (l ++ l') = skipn h l ++ l'.
Proof. intros. rewrite skipn_app. replace (h - length l) with 0 by lia. auto. Qed.
Lemma todo_len : forall l, (forall p, In p l -> exists u, sub t p = Some u) -> length l <= todo l.
Proof. induction l as [|p l IH]; intros H; cbn [length todo]; auto. destruct (H p (or_introl eq_refl)) as [u ->]. pose proof (csize_pos u). specialize (IH (fun q Q => H q (or_intror Q))). lia. Qed.

(* the part of the body before the children are added *)
Definition step1 (idx : nat) (s : lst) : option (list node * option nat * nat) :=
  let* v := nth_error (l_ns s) idx in
  let* ns := upd_nd (l_ns s) idx (w_pos (l_bv s)) in
  let bv := if is_some (d_c0 v) then l_bv s + d_pos v else l_bv s in
  let* r := (if 0 <? idx then
               let* p := d_par v in
               let* ns := upd_nd ns p (if negb (onat_eqb (l_last s) (Some p)) then w_c0 (Some idx) else w_c1 (Some idx)) in
               Some (ns, Some p)
             else Some (ns, l_last s)) in
  Some (r, bv).
Lemma lay_body_step : forall idx s, lay_body tn idx s =
  let* x := step1 idx s in
  let '(ns, last, bv) := x in
  let* v := nth_error ns idx in
  if is_some (d_c0 v) then
    let c := l_cnt s in
    let* ns := add_child tn false idx c ns in
    let* ns := add_child tn true idx (c + 1) ns in
    Some (mkls ns bv (c + 2) last, [c; c + 1])
  else Some (mkls ns bv (l_cnt s) last, []).
Proof.
  intros. unfold lay_body, step1. destruct (nth_error (l_ns s) idx) as [v|]; cbn [obind]; auto. destruct (upd_nd (l_ns s) idx (w_pos (l_bv s))) as [ns|]; cbn [obind]; auto.
  destruct (0 <? idx). 2: { cbn [obind]. auto. } destruct (d_par v) as [p|]; cbn [obind]; auto. destruct (upd_nd ns p _) as [ns'|]; cbn [obind]; auto.
Qed.

Lemma snoc_inj : forall (p q : list bool) a b, p ++ [a] = q ++ [b] -> p = q /\ a = b. Proof. intros. apply app_inj_tail. auto. Qed.
Lemma step1_ok : forall h pth s p u d, inv h pth s -> nth_error pth h = Some p -> sub t p = Some u -> nth_error (l_ns s) h = Some d -> pend u d ->
  exists last, step1 h s = Some (upd (l_ns s) h (w_pos (l_bv s) d), last, if isn u then l_bv s + wt u else l_bv s) /\
    (forall q, last = Some q <-> 2 <= S h /\ exists p b, nth_error pth h = Some (p ++ [b]) /\ nth_error pth q = Some p).
Proof.
  intros h pth s p u d IV P U D PE. unfold step1. rewrite D. cbn [obind]. rewrite (upd_nd_some _ _ _ d) by auto. cbn [obind].
  assert (EB : (if is_some (d_c0 d) then l_bv s + d_pos d else l_bv s) = if isn u then l_bv s + wt u else l_bv s).
  { destruct PE as [E M]. destruct u as [x|l r]. { destruct M as [-> _]. auto. } destruct M as (a & b & -> & _). cbn [is_some isn]. rewrite E. auto. }
  rewrite EB. destruct (Nat.ltb_spec 0 h) as [H0|H0].
  2: { cbn [obind]. exists (l_last s). split; auto. intros q. pose proof (iv_last _ _ _ IV q) as L. assert (h = 0) by lia. subst h. split. { intros Q. apply L in Q. lia. } intros (Q & _). lia. }
  destruct (iv_node _ _ _ IV h p P) as (u' & d' & U' & D' & _ & PA). rewrite U in U'. injection U' as <-. rewrite D in D'. injection D' as <-.
  destruct PA as [->|(q & p' & b & QP & QH & QA & ->)]; [lia|]. rewrite QP. cbn [obind].
  destruct (iv_node _ _ _ IV q p' QA) as (uq & dq & UQ & DQ & DN & _). destruct (Nat.ltb_spec q h) as [_|]; [|lia].
  rewrite sub_snoc, UQ in U. destruct uq as [|lq rq]; [discriminate|]. cbn [done] in DN. destruct DN as [(c & C0 & C1 & A0 & A1) _].
  assert (NE : nth_error (upd (l_ns s) h (w_pos (l_bv s) d)) q = Some dq). { rewrite nth_error_upd_neq by lia. auto. }
  assert (SAME : (if negb (onat_eqb (l_last s) (Some q)) then w_c0 (Some h) else w_c1 (Some h)) dq = dq).
  { pose proof (iv_nd _ _ _ IV) as ND. destruct b.
    - assert (c + 1 = h) by (eapply nd_fun; eauto). assert (L : l_last s = Some q). { apply (iv_last _ _ _ IV). assert (c <> 0). { intros ->. rewrite (iv_0 _ _ _ IV) in A0. injection A0 as A0. destruct p'; discriminate. } split; [lia|]. exists p', false. split; auto. replace (h - 1) with c by lia. auto. }
      rewrite L. cbn [onat_eqb]. rewrite Nat.eqb_refl. cbn [negb]. destruct dq. cbn in *. unfold w_c1. cbn. congruence.
    - assert (c = h) by (eapply nd_fun; eauto). assert (L : onat_eqb (l_last s) (Some q) = false).
      { destruct (l_last s) as [q'|] eqn:EL; auto. cbn [onat_eqb]. apply Nat.eqb_neq. intros ->. apply (iv_last _ _ _ IV) in EL. destruct EL as (H2 & p2 & b2 & E1 & E2). rewrite QA in E2. injection E2 as <-. destruct b2.
        - assert (c + 1 = h - 1) by (eapply nd_fun; eauto). lia.
        - assert (c = h - 1) by (eapply nd_fun; eauto). lia. }
      rewrite L. cbn [negb]. destruct dq. cbn in *. unfold w_c0. cbn. congruence. }
  rewrite (upd_nd_same _ _ _ dq) by auto. cbn [obind]. exists (Some q). split; auto. intros q'. split.
  - intros E. injection E as <-. split; [lia|]. exists p', b. auto.
  - intros (_ & p2 & b2 & E1 & E2). rewrite P in E1. injection E1 as E1. apply snoc_inj in E1. destruct E1 as [-> ->]. f_equal. eapply nd_fun; eauto. apply (iv_nd _ _ _ IV).
Qed.
Lemma nth_app_l : forall A (l l' : list A) i x, nth_error l i = Some x -> nth_error (l ++ l') i = Some x.
Proof. intros. rewrite nth_error_app1; auto. apply nth_error_Some. congruence. Qed.

Lemma rep_head : forall u i, rep tn u i -> exists v, nth_error tn i = Some v /\ pend u (of_pc v).
Proof. intros u i R. destruct u; destruct R as (v & V & F & M); exists v; split; auto; split; auto. Qed.
Lemma nodup_snoc2 : forall (l : list (list bool)) a b, NoDup l -> ~ In a l -> ~ In b l -> a <> b -> NoDup (l ++ [a; b]).
Proof.
  induction l as [|x l IH]; intros a b D A B AB; cbn [app]. { repeat constructor; cbn; intuition. } inversion D; subst. constructor. { intros I. apply in_app_or in I. cbn in *. intuition. } apply IH; auto; cbn in *; intuition.
Qed.
Lemma children_ok : forall ns h n0 d a b va vb, nth_error ns h = Some d -> h < n0 -> n0 + 2 <= length ns -> d_c0 d = Some a -> d_c1 d = Some b -> nth_error tn a = Some va -> nth_error tn b = Some vb ->
  exists ns1 ns2, add_child tn false h n0 ns = Some ns1 /\ add_child tn true h (n0 + 1) ns1 = Some ns2 /\ length ns2 = length ns /\
    nth_error ns2 h = Some (mknd (d_pos d) (d_rank d) (d_par d) (Some n0) (Some (n0 + 1))) /\ nth_error ns2 n0 = Some (w_par (Some h) (of_pc va)) /\ nth_error ns2 (n0 + 1) = Some (w_par (Some h) (of_pc vb)) /\
    forall k, k <> h -> k <> n0 -> k <> n0 + 1 -> nth_error ns2 k = nth_error ns k.
Proof.
  intros ns h n0 d a b va vb D H L C0 C1 VA VB. unfold add_child at 1. rewrite D. cbn [obind]. rewrite C0. cbn [obind]. rewrite VA. cbn [obind]. rewrite aset_some by lia. cbn [obind].
  rewrite (upd_nd_some _ n0 _ (of_pc va)) by (apply nth_error_upd_eq; lia). cbn [obind].
  rewrite (upd_nd_some _ h _ d) by (rewrite !nth_error_upd_neq by lia; auto). set (ns1 := upd _ h _). exists ns1.
  assert (D1 : nth_error ns1 h = Some (w_c0 (Some n0) d)) by (apply nth_error_upd_eq; rewrite !upd_length; lia). assert (L1 : length ns1 = length ns) by (unfold ns1; rewrite !upd_length; auto).
  assert (NA : nth_error ns1 n0 = Some (w_par (Some h) (of_pc va))). { unfold ns1. rewrite nth_error_upd_neq by lia. apply nth_error_upd_eq. rewrite upd_length. lia. }
  assert (NO : forall k, k <> h -> k <> n0 -> nth_error ns1 k = nth_error ns k). { intros k K1 K2. unfold ns1. rewrite !nth_error_upd_neq by auto. auto. }
  clearbody ns1. unfold add_child. rewrite D1. cbn [obind w_c0 d_c1]. rewrite C1. cbn [obind]. rewrite VB. cbn [obind]. rewrite aset_some by lia. cbn [obind].
  rewrite (upd_nd_some _ (n0 + 1) _ (of_pc vb)) by (apply nth_error_upd_eq; lia). cbn [obind].
  rewrite (upd_nd_some _ h _ (w_c0 (Some n0) d)) by (rewrite !nth_error_upd_neq by lia; auto). eexists. split; eauto. split; eauto. split. { rewrite !upd_length. auto. }
  split. { rewrite nth_error_upd_eq by (rewrite !upd_length; lia). auto. }
  split. { rewrite !nth_error_upd_neq by lia. auto. } split. { rewrite nth_error_upd_neq by lia. apply nth_error_upd_eq. rewrite upd_length. lia. }
  intros k K1 K2 K3. rewrite !nth_error_upd_neq by auto. apply NO; auto.
Qed.

Lemma body_ok : forall h pth s, inv h pth s -> h < length pth -> exists s' new, lay_body tn h s = Some (s', seq (length pth) (length new)) /\ inv (S h) (pth ++ new) s'.
Proof.
  intros h pth s IV LT. destruct (nth_error pth h) as [p|] eqn:P. 2: { apply nth_error_None in P. lia. }
  destruct (iv_node _ _ _ IV h p P) as (u & d & U & D & PE & PA). rewrite Nat.ltb_irrefl in PE. destruct (step1_ok h pth s p u d IV P U D PE) as (last & S1 & LAST).
  rewrite lay_body_step, S1. cbn [obind]. assert (HL : h < length (l_ns s)) by (apply nth_error_Some; congruence). rewrite nth_error_upd_eq by auto. cbn [obind w_pos d_c0].
  pose proof (iv_todo _ _ _ IV) as TD. rewrite (skipn_cons _ _ _ _ P) in TD. cbn [todo] in TD. rewrite U in TD.
  destruct PE as [EP PE]. destruct u as [x|l r].
  - destruct PE as [C0 R]. rewrite C0. cbn [is_some]. exists (mkls (upd (l_ns s) h (w_pos (l_bv s) d)) (l_bv s) (l_cnt s) last), []. split; auto. rewrite app_nil_r. constructor; cbn [l_ns l_bv l_cnt l_last].
    + lia.
    + apply (iv_cnt _ _ _ IV).
    + rewrite upd_length. apply (iv_len _ _ _ IV).
    + cbn [csize] in TD. lia.
    + apply (iv_nd _ _ _ IV).
    + apply (iv_0 _ _ _ IV).
    + intros k pk PK. destruct (Nat.eq_dec k h) as [-> | NE].
      * rewrite P in PK. injection PK as <-. exists (CL x), (w_pos (l_bv s) d). split; auto. split. { apply nth_error_upd_eq. auto. } replace (h <? S h) with true by (symmetry; apply Nat.ltb_lt; lia). cbn [done w_pos d_c0 d_rank d_par]. split; auto.
        destruct PA as [-> |(q & p' & b & QP & QH & QA & EQ)]; auto. right. exists q, p', b. split; auto.
      * destruct (iv_node _ _ _ IV k pk PK) as (u & dk & UK & DK & CK & PK2). exists u, dk. split; auto. split. { rewrite nth_error_upd_neq by auto. auto. }
        replace (k <? S h) with (k <? h). 2: { destruct (Nat.ltb_spec k h), (Nat.ltb_spec k (S h)); auto; lia. } split; auto. destruct PK2 as [-> |(q & p' & b & QP & QH & QA & EQ)]; auto. right. exists q, p', b. split; auto.
    + intros k k' pk lk rk dk dk' LK LK' PK UK DK DK'. destruct (Nat.eq_dec k h) as [-> | NE]; [lia|]. rewrite nth_error_upd_neq in DK by auto. destruct (Nat.eq_dec k' h) as [-> | NE'].
      * rewrite nth_error_upd_eq in DK' by auto. injection DK' as <-. cbn [w_pos d_pos]. destruct (iv_node _ _ _ IV k pk PK) as (u & dk2 & UK2 & DK2 & CK & _). rewrite UK in UK2. injection UK2 as <-. rewrite DK in DK2. injection DK2 as <-.
        replace (k <? h) with true in CK by (symmetry; apply Nat.ltb_lt; lia). cbn [done] in CK. tauto.
      * rewrite nth_error_upd_neq in DK' by auto. apply (iv_ord _ _ _ IV k k' pk lk rk dk dk'); auto. lia.
    + intros q. rewrite LAST. replace (S h - 1) with h by lia. reflexivity.
  - destruct PE as (a & b & C0 & C1 & RA & RB). rewrite C0. cbn [is_some]. set (n0 := length pth). pose proof (iv_cnt _ _ _ IV) as CN'. rewrite CN'. fold n0.
    (* room for two more nodes *)
    assert (ROOM : n0 + 2 <= csize t).
    { assert (length (skipn (S h) pth) <= todo (skipn (S h) pth)). { apply todo_len. intros q Q. apply In_skipn in Q. apply In_nth_error in Q. destruct Q as [k Q]. destruct (iv_node _ _ _ IV k q Q) as (uq & _ & E & _). eauto. }
      rewrite skipn_length in H. cbn [csize] in TD. pose proof (csize_pos l). pose proof (csize_pos r). unfold n0. lia. }
    pose proof (iv_len _ _ _ IV) as NL.
    set (ns0 := upd (l_ns s) h (w_pos (l_bv s) d)). assert (L0 : length ns0 = csize t) by (unfold ns0; rewrite upd_length; auto).
    assert (N0 : nth_error ns0 h = Some (w_pos (l_bv s) d)) by (apply nth_error_upd_eq; auto). assert (HN : h < n0) by exact LT.
    destruct (rep_head l a RA) as (va & VA & QA). destruct (rep_head r b RB) as (vb & VB & QB).
    destruct (children_ok ns0 h n0 (w_pos (l_bv s) d) a b va vb) as (ns1 & ns2 & A1 & A2 & L2 & NH & NA & NB & NO); auto; try lia.
    rewrite A1. cbn [obind]. rewrite A2. cbn [obind isn].
    exists (mkls ns2 (l_bv s + wt (CN l r)) (n0 + 2) last), [p ++ [false]; p ++ [true]]. cbn [length seq]. rewrite <- (Nat.add_1_r n0) at 1. split; auto.
    assert (FRESH : forall k q c, nth_error pth k = Some (q ++ [c]) -> nth_error pth h = Some q -> False).
    { intros k q c K Q. destruct (iv_node _ _ _ IV k _ K) as (uk & dk & _ & _ & _ & PK). destruct PK as [-> |(q2 & p2 & b2 & _ & LQ & Q2 & EQ)].
      - rewrite (iv_0 _ _ _ IV) in K. injection K as K. destruct q; discriminate.
      - apply snoc_inj in EQ. destruct EQ as [<- _]. assert (q2 = h) by (eapply nd_fun; eauto; apply (iv_nd _ _ _ IV)). lia. }
    assert (SL : sub t (p ++ [false]) = Some l) by (rewrite sub_snoc, U; auto). assert (SR : sub t (p ++ [true]) = Some r) by (rewrite sub_snoc, U; auto).
    assert (PN0 : nth_error (pth ++ [p ++ [false]; p ++ [true]]) n0 = Some (p ++ [false])). { rewrite nth_error_app2 by (unfold n0; lia). unfold n0. rewrite Nat.sub_diag. auto. }
    assert (PN1 : nth_error (pth ++ [p ++ [false]; p ++ [true]]) (n0 + 1) = Some (p ++ [true])). { rewrite nth_error_app2 by (unfold n0; lia). unfold n0. replace (length pth + 1 - length pth) with 1 by lia. auto. }
    constructor; cbn [l_ns l_bv l_cnt l_last].
    + rewrite app_length. cbn. unfold n0 in *. lia.
    + rewrite app_length. auto.
    + lia.
    + rewrite skipn_ext by (unfold n0 in *; lia). rewrite todo_app. cbn [todo]. rewrite SL, SR. cbn [csize] in TD. lia.
    + apply nodup_snoc2; [apply (iv_nd _ _ _ IV)| | |].
      * intros I. apply In_nth_error in I. destruct I as [k K]. eapply FRESH; eauto.
      * intros I. apply In_nth_error in I. destruct I as [k K]. eapply FRESH; eauto.
      * intros E. apply snoc_inj in E. destruct E. discriminate.
    + apply nth_app_l. apply (iv_0 _ _ _ IV).
    + intros k pk PK. destruct (Nat.eq_dec k h) as [-> | NE].
      { rewrite (nth_app_l _ _ _ _ _ P) in PK. injection PK as <-. exists (CN l r), (mknd (l_bv s) (d_rank d) (d_par d) (Some n0) (Some (n0 + 1))). split; auto. split; auto. replace (h <? S h) with true by (symmetry; apply Nat.ltb_lt; lia).
        cbn [done d_c0 d_c1 d_pos d_par]. split. { split; auto. exists n0. auto. } destruct PA as [-> |(q & p' & b' & QP & QH & QA' & EQ)]; auto. right. exists q, p', b'. split; auto. split; [lia|]. split; auto. apply nth_app_l; auto. }
      destruct (Nat.eq_dec k n0) as [-> | NE0].
      { rewrite PN0 in PK. injection PK as <-. exists l. eexists. split; auto. split; [exact NA|]. replace (n0 <? S h) with false by (symmetry; apply Nat.ltb_ge; lia). split; [exact QA|]. right. exists h, p, false. split; auto. split; [lia|]. split; auto. apply nth_app_l; auto. }
      destruct (Nat.eq_dec k (n0 + 1)) as [-> | NE1].
      { rewrite PN1 in PK. injection PK as <-. exists r. eexists. split; auto. split; [exact NB|]. replace (n0 + 1 <? S h) with false by (symmetry; apply Nat.ltb_ge; lia). split; [exact QB|]. right. exists h, p, true. split; auto. split; [lia|]. split; auto. apply nth_app_l; auto. }
      assert (KL : k < length (pth ++ [p ++ [false]; p ++ [true]])) by (apply nth_error_Some; congruence). rewrite app_length in KL. cbn in KL. fold n0 in KL. rewrite nth_error_app1 in PK by (fold n0; lia).
      destruct (iv_node _ _ _ IV k pk PK) as (u & dk & UK & DK & CK & PK2). exists u, dk. split; auto. split. { rewrite NO by auto. unfold ns0. rewrite nth_error_upd_neq by auto. auto. }
      replace (k <? S h) with (k <? h). 2: { destruct (Nat.ltb_spec k h), (Nat.ltb_spec k (S h)); auto; lia. } split.
      * destruct (k <? h); auto. unfold done in *. destruct u as [|lu ru]; auto. destruct CK as [(c & X0 & X1 & X2 & X3) X4]. split; [|lia]. exists c. split; auto. split; auto. split; apply nth_app_l; auto.
      * destruct PK2 as [-> |(q & p' & b' & QP & QH & QA' & EQ)]; auto. right. exists q, p', b'. split; auto. split; [lia|]. split; auto. apply nth_app_l; auto.
    + intros k k' pk lk rk dk dk' LK LK' PK UK DK DK'. destruct (Nat.eq_dec k h) as [-> | NE]; [lia|]. rewrite nth_error_app1 in PK by (fold n0; lia). rewrite NO in DK by lia. unfold ns0 in DK. rewrite nth_error_upd_neq in DK by auto.
      destruct (Nat.eq_dec k' h) as [-> | NE'].
      * rewrite NH in DK'. injection DK' as <-. cbn [w_pos d_pos]. destruct (iv_node _ _ _ IV k pk PK) as (u & dk2 & UK2 & DK2 & CK & _). rewrite UK in UK2. injection UK2 as <-. rewrite DK in DK2. injection DK2 as <-.
        replace (k <? h) with true in CK by (symmetry; apply Nat.ltb_lt; lia). cbn [done] in CK. tauto.
      * rewrite NO in DK' by lia. unfold ns0 in DK'. rewrite nth_error_upd_neq in DK' by auto. apply (iv_ord _ _ _ IV k k' pk lk rk dk dk'); auto. lia.
    + intros q. rewrite LAST. replace (S h - 1) with h by lia. split; intros (X & p2 & b2 & E1 & E2); (split; [auto|]); exists p2, b2.
      * split; apply nth_app_l; auto.
      * rewrite nth_error_app1 in E1 by (fold n0; lia). split; auto. rewrite P in E1. injection E1 as E1. destruct (Nat.lt_ge_cases q n0) as [QL|QL]. { rewrite nth_error_app1 in E2 by auto. auto. }
        exfalso. rewrite nth_error_app2 in E2 by auto. fold n0 in E2. assert (QI : p2 = p ++ [false] \/ p2 = p ++ [true]). { destruct (q - n0) as [|[|[|]]]; cbn in E2; try discriminate; injection E2 as <-; auto. }
        apply (f_equal (@length bool)) in E1. rewrite app_length in E1. destruct QI as [-> | ->]; rewrite app_length in E1; cbn in E1; lia.
Qed.

Lemma loop_ok : forall fuel h pth s, inv h pth s -> csize t - h < fuel -> exists s' pth', lay_loop fuel false tn (seq h (length pth - h)) s = Some s' /\ inv (length pth') pth' s'.
Proof.
  induction fuel as [|f IH]; intros h pth s IV F; [lia|]. destruct (Nat.eq_dec h (length pth)) as [E|E].
  { rewrite E, Nat.sub_diag. cbn [seq lay_loop]. exists s, pth. split; auto. rewrite <- E at 1. auto. }
  pose proof (iv_h _ _ _ IV) as HH. replace (length pth - h) with (S (length pth - S h)) by lia. cbn [seq lay_loop].
  destruct (body_ok h pth s IV) as (s' & new & B & IV'). { lia. } rewrite B. cbn [obind fst snd].
  assert (HT : h < csize t). { pose proof (iv_todo _ _ _ IV) as TD. destruct (nth_error pth h) as [p|] eqn:P. 2: { apply nth_error_None in P. lia. } rewrite (skipn_cons _ _ _ _ P) in TD. cbn [todo] in TD. destruct (iv_node _ _ _ IV h p P) as (u & d & U & _). rewrite U in TD. pose proof (csize_pos u). lia. }
  destruct (IH (S h) (pth ++ new) s' IV') as (s2 & pth2 & L & I2). { lia. } exists s2, pth2. split; auto. rewrite <- L. f_equal. rewrite app_length. replace (length pth + length new - S h) with (length pth - S h + length new) by lia. rewrite seq_app. f_equal. f_equal. lia.
Qed.
(* the layout and the ranges of the inner nodes in the bit vector *)
Record layout (ns : list node) (size : nat) (pth : list (list bool)) : Prop := mk_layout {
  ly_laid : laid t ns pth;
  ly_range : forall i p l r d, nth_error pth i = Some p -> sub t p = Some (CN l r) -> nth_error ns i = Some d -> d_pos d + wt (CN l r) <= size;
  ly_ord : forall i j p l r d d', i < j -> nth_error pth i = Some p -> sub t p = Some (CN l r) -> nth_error ns i = Some d -> nth_error ns j = Some d' -> d_pos d + wt (CN l r) <= d_pos d' }.
Lemma last_nth : forall A (l : list A) d v, nth_error l (length l - 1) = Some v -> last l d = v.
Proof.
  induction l as [|a l IH]; intros d v H; [discriminate|]. destruct l as [|b l]. { cbn in *. congruence. } change (last (a :: b :: l) d) with (last (b :: l) d). apply IH. cbn [length] in *. replace (S (S (length l)) - 1) with (S (S (length l) - 1)) in H by lia. auto.
Qed.
Theorem lay_ok : rep tn t (length tn - 1) -> exists ns size pth, lay_out false tn = Some (ns, size) /\ layout ns size pth.
Proof.
  intros RT. destruct (rep_head _ _ RT) as (v & V & PE). unfold lay_out. destruct tn as [|t0 tn'] eqn:ET. { cbn in V. discriminate. } rewrite <- ET in *.
  rewrite (last_nth _ _ _ _ V). rewrite aset_some. 2: { rewrite repeat_length, RL. apply csize_pos. } cbn [obind].
  set (ns0 := upd _ 0 (of_pc v)). assert (N0 : nth_error ns0 0 = Some (of_pc v)). { apply nth_error_upd_eq. rewrite repeat_length, RL. apply csize_pos. }
  assert (IV : inv 0 [[]] (mkls ns0 0 1 None)).
  { constructor; cbn [l_ns l_bv l_cnt l_last length skipn todo]; auto.
    - unfold ns0. rewrite upd_length, repeat_length. auto.
    - cbn [sub]. lia.
    - constructor; auto. constructor.
    - intros [|[|k]] p P; cbn in P; try discriminate. injection P as <-. exists t, (of_pc v). split; auto.
    - intros; lia.
    - intros q. split; [discriminate|]. intros (X & _). lia. }
  destruct (loop_ok (S (length tn)) 0 [[]] _ IV) as (s & pth & L & I2). { lia. } cbn [length seq Nat.sub] in L. rewrite L. cbn [obind]. exists (l_ns s), (l_bv s), pth. split; auto.
  assert (CZ : length pth = csize t). { pose proof (iv_todo _ _ _ I2) as TD. rewrite skipn_all in TD. cbn [todo] in TD. lia. }
  assert (LT : forall i p, nth_error pth i = Some p -> i < length pth) by (intros; apply nth_error_Some; congruence).
  assert (NODE : forall i p u d, nth_error pth i = Some p -> sub t p = Some u -> nth_error (l_ns s) i = Some d -> done pth (l_bv s) p u d).
  { intros i p u d P U D. destruct (iv_node _ _ _ I2 i p P) as (u' & d' & U' & D' & DN & _). rewrite U in U'. injection U' as <-. rewrite D in D'. injection D' as <-. replace (i <? length pth) with true in DN; auto. symmetry. apply Nat.ltb_lt. eauto. }
  constructor; [constructor| |].
  - rewrite (iv_len _ _ _ I2). auto.
  - apply (iv_len _ _ _ I2).
  - apply (iv_0 _ _ _ I2).
  - apply (iv_nd _ _ _ I2).
  - intros i p s0 d P U D. apply (NODE i p (CL s0) d P U D).
  - intros i p l r d P U D. destruct (NODE i p _ d P U D) as [(c & C0 & C1 & A0 & A1) _]. exists c, (c + 1). auto.
  - intros i p P. destruct (iv_node _ _ _ I2 i p P) as (u' & d' & U' & _). congruence.
  - intros i p b d P D. destruct (iv_node _ _ _ I2 i _ P) as (u' & d' & U' & D' & _ & PA). rewrite D in D'. injection D' as <-. destruct PA as [-> |(q & p' & b' & QP & _ & QA & EQ)].
    + rewrite (iv_0 _ _ _ I2) in P. injection P as P. destruct p; discriminate.
    + apply snoc_inj in EQ. destruct EQ as [-> ->]. eauto.
  - intros i p l r d P U D. destruct (NODE i p _ d P U D) as [_ X]. auto.
  - intros i j p l r d d' IJ P U D D'. apply (iv_ord _ _ _ I2 i j p l r d d'); auto. rewrite CZ, <- (iv_len _ _ _ I2). apply nth_error_Some. congruence.
Qed.
End LAY.
End REP.
