(** * Spin lock: proofs *)
From Coq Require Import List Bool Arith ZArith Lia.
From Verif Require Import Base MemMon SpecMemMon MemMonProofs SpinLock SpecSpinLock.
Import ListNotations.

Section P.
Context {S L C : Type}.
Variable l0 : L.
Variable body : C -> list (S -> L -> S * L).
Notation thread := (thread S L C).
Notation sys := (sys S L C).

Definition steps (fs : list (S -> L -> S * L)) (x : S * L) : S * L := fold_left (fun x f => f (fst x) (snd x)) fs x.
(** a call on its own, and one call after the other *)
Definition call (s : S) (c : C) : S := fst (steps (body c) (s, l0)).
Definition calls (s : S) (o : list C) : S := fold_left call o s.
Definition rem (t : thread) : list C := match t with Idle _ _ _ cs => cs | Inside _ _ _ c _ _ cs => c :: cs end.
Definition idle (t : thread) : Prop := inside S L C t = false.

Definition inv (s0 : S) (ps : list (list C)) (y : sys) : Prop := exists o,
  merged ps o (map rem (ths _ _ _ y)) /\
  if flag _ _ _ y
  then exists t1 c l fs cs t2 pre, ths _ _ _ y = t1 ++ Inside _ _ _ c l fs cs :: t2 /\ Forall idle t1 /\ Forall idle t2 /\
         body c = pre ++ fs /\ (sh _ _ _ y, l) = steps pre (calls s0 o, l0)
  else Forall idle (ths _ _ _ y) /\ sh _ _ _ y = calls s0 o.

Lemma set_nth_mid {A} (t1 : list A) x z t2 : set_nth (length t1) z (t1 ++ x :: t2) = t1 ++ z :: t2.
Proof.
  unfold set_nth. rewrite firstn_app, firstn_all, Nat.sub_diag. cbn [firstn]. rewrite app_nil_r. f_equal. f_equal.
  rewrite skipn_app. rewrite skipn_all2 by lia. replace (length t1 + 1 - length t1) with 1 by lia. reflexivity.
Qed.
Lemma mid_unique (t1 t2 u1 u2 : list thread) a b : t1 ++ a :: t2 = u1 ++ b :: u2 -> inside _ _ _ a = true -> Forall idle u1 -> Forall idle u2 ->
  t1 = u1 /\ a = b /\ t2 = u2.
Proof.
  revert u1. induction t1 as [|x t1 IH]; intros [|z u1] E A U1 U2; cbn in E.
  - injection E as -> ->. auto.
  - injection E as -> ->. inversion U1; subst. unfold idle in *. congruence.
  - injection E as -> <-. apply Forall_app in U2. destruct U2 as [_ U2]. inversion U2; subst. unfold idle in *. congruence.
  - injection E as -> E. inversion U1; subst. destruct (IH u1 E) as (-> & -> & ->); auto.
Qed.
Lemma steps_snoc pre f x : steps (pre ++ [f]) x = f (fst (steps pre x)) (snd (steps pre x)).
Proof. unfold steps. now rewrite fold_left_app. Qed.

Lemma inv_step s0 ps y i : inv s0 ps y -> inv s0 ps (step S L C l0 body y i).
Proof.
  intros (o & MG & H). unfold step. destruct (nth_error (ths _ _ _ y) i) as [t|] eqn:N; [|now exists o].
  destruct (nth_error_split _ _ N) as (t1 & t2 & E & LN). subst i.
  destruct t as [[|c cs]|c l [|f fs] cs]; [now exists o| | |].
  - (* lock *)
    destruct (flag _ _ _ y) eqn:F; [exists o; rewrite F; auto|]. rewrite E in *. rewrite set_nth_mid. destruct H as [ID SH]. exists o. cbn [flag sh ths].
    split.
    + rewrite map_app in *. cbn [map rem] in *. exact MG.
    + apply Forall_app in ID. destruct ID as [I1 I2]. inversion I2; subst. exists t1, c, l0, (body c), cs, t2, [].
      repeat (split; [auto|]). cbn. now rewrite SH.
  - (* unlock *)
    assert (F : flag _ _ _ y = true).
    { destruct (flag _ _ _ y); auto. destruct H as [ID _]. rewrite E in ID. apply Forall_app in ID. destruct ID as [_ ID]. inversion ID; subst. discriminate. }
    rewrite F in H. destruct H as (u1 & c' & l' & fs' & cs' & u2 & pre & E' & I1 & I2 & B & R). rewrite E in E'.
    destruct (mid_unique _ _ _ _ _ _ E' eq_refl I1 I2) as (-> & Q & ->). injection Q as <- <- <- <-.
    rewrite E in *. rewrite set_nth_mid. rewrite app_nil_r in B. exists (o ++ [c]). cbn [flag sh ths]. split; [|split].
    + rewrite map_app in *. cbn [map rem] in *. now apply merged_snoc.
    + apply Forall_app. split; auto. constructor; auto. reflexivity.
    + unfold calls. rewrite fold_left_app. cbn [fold_left]. unfold call at 1. rewrite B. fold (calls s0 o). now rewrite <- R.
  - (* a step of the body *)
    assert (F : flag _ _ _ y = true).
    { destruct (flag _ _ _ y); auto. destruct H as [ID _]. rewrite E in ID. apply Forall_app in ID. destruct ID as [_ ID]. inversion ID; subst. discriminate. }
    rewrite F in *. destruct H as (u1 & c' & l' & fs' & cs' & u2 & pre & E' & I1 & I2 & B & R). rewrite E in E'.
    destruct (mid_unique _ _ _ _ _ _ E' eq_refl I1 I2) as (-> & Q & ->). injection Q as <- <- <- <-.
    rewrite E in *. rewrite set_nth_mid. exists o. cbn [flag sh ths]. split.
    + rewrite map_app in *. cbn [map rem] in *. exact MG.
    + exists u1, c, (snd (f (sh _ _ _ y) l)), fs, cs, u2, (pre ++ [f]). repeat (split; [auto|]).
      * now rewrite <- app_assoc.
      * rewrite steps_snoc, <- R. cbn [fst snd]. now destruct (f (sh S L C y) l).
Qed.
Lemma inv_boot s0 ps : inv s0 ps (boot S L C s0 ps).
Proof.
  exists []. cbn [boot flag sh ths]. split; [|split; [|reflexivity]].
  - rewrite map_map. cbn [rem]. rewrite map_id. constructor.
  - apply Forall_forall. intros t I. apply in_map_iff in I. destruct I as (cs & <- & _). reflexivity.
Qed.
Lemma inv_run s0 ps sched : forall y, inv s0 ps y -> inv s0 ps (run S L C l0 body y sched).
Proof. unfold run. induction sched as [|i l IH]; intros y I; cbn [fold_left]; auto. apply IH. now apply inv_step. Qed.

Lemma run_serial s0 ps sched : let y := run S L C l0 body (boot S L C s0 ps) sched in
  forallb (finished S L C) (ths _ _ _ y) = true -> exists o, interleaving ps o /\ sh _ _ _ y = calls s0 o.
Proof.
  intros y F. destruct (inv_run s0 ps sched _ (inv_boot s0 ps)) as (o & MG & H). fold y in MG, H. exists o.
  assert (ID : Forall (fun t => t = Idle _ _ _ []) (ths _ _ _ y)).
  { apply Forall_forall. intros t I. rewrite forallb_forall in F. specialize (F t I). destruct t as [[|]|]; auto; discriminate. }
  split.
  - exists (map rem (ths _ _ _ y)). split; auto. apply Forall_forall. intros r I. apply in_map_iff in I. destruct I as (t & <- & I).
    rewrite Forall_forall in ID. now rewrite (ID t I).
  - destruct (flag _ _ _ y); [|tauto]. destruct H as (t1 & c & l & fs & cs & t2 & pre & E & _). rewrite E in ID.
    apply Forall_app in ID. destruct ID as [_ ID]. inversion ID; subst. discriminate.
Qed.
Lemma run_mutex s0 ps sched i j t t' : let y := run S L C l0 body (boot S L C s0 ps) sched in
  nth_error (ths _ _ _ y) i = Some t -> nth_error (ths _ _ _ y) j = Some t' -> inside _ _ _ t = true -> inside _ _ _ t' = true -> i = j.
Proof.
  intros y N1 N2 T1 T2. destruct (inv_run s0 ps sched _ (inv_boot s0 ps)) as (o & MG & H). fold y in H.
  destruct (nth_error_split _ _ N1) as (a1 & a2 & E1 & <-). destruct (nth_error_split _ _ N2) as (b1 & b2 & E2 & <-).
  destruct (flag _ _ _ y).
  - destruct H as (t1 & c & l & fs & cs & t2 & pre & E & I1 & I2 & _). rewrite E in E1, E2.
    destruct (mid_unique _ _ _ _ _ _ (eq_sym E1) T1 I1 I2) as (-> & _). destruct (mid_unique _ _ _ _ _ _ (eq_sym E2) T2 I1 I2) as (-> & _). auto.
  - destruct H as [ID _]. rewrite E1 in ID. apply Forall_app in ID. destruct ID as [_ ID]. inversion ID; subst. unfold idle in *. congruence.
Qed.
(** *** some continuation finishes *)
Definition wcalls (cs : list C) : nat := fold_right (fun c n => length (body c) + 2 + n) 0 cs.
Definition wthread (t : thread) : nat := match t with Idle _ _ _ cs => wcalls cs | Inside _ _ _ _ _ fs cs => length fs + 1 + wcalls cs end.
Definition weight (l : list thread) : nat := fold_right (fun t n => wthread t + n) 0 l.
Lemma weight_app a b : weight (a ++ b) = weight a + weight b.
Proof. unfold weight. induction a; cbn; lia. Qed.
Lemma weight_cons t l : weight (t :: l) = wthread t + weight l.
Proof. reflexivity. Qed.
Lemma wcalls_cons c l : wcalls (c :: l) = length (body c) + 2 + wcalls l.
Proof. reflexivity. Qed.
Lemma nth_mid {A} (t1 : list A) x t2 : nth_error (t1 ++ x :: t2) (length t1) = Some x.
Proof. rewrite nth_error_app2, Nat.sub_diag by lia. reflexivity. Qed.
Lemma progress s0 ps y : inv s0 ps y -> forallb (finished S L C) (ths _ _ _ y) = false ->
  exists i, weight (ths _ _ _ (step S L C l0 body y i)) < weight (ths _ _ _ y).
Proof.
  intros (o & _ & H) F. destruct (flag _ _ _ y) eqn:FL.
  - destruct H as (t1 & c & l & fs & cs & t2 & pre & E & _). exists (length t1). unfold step. rewrite E, nth_mid.
    destruct fs as [|f fs]; cbn [ths]; rewrite set_nth_mid, !weight_app, !weight_cons; cbn [wthread length]; lia.
  - destruct H as [ID _]. assert (X : exists t, In t (ths _ _ _ y) /\ finished S L C t = false).
    { clear ID. induction (ths _ _ _ y) as [|t l IH]; [discriminate|]. cbn in F. destruct (finished S L C t) eqn:Q; [|exists t; split; [now left|auto]].
      destruct (IH F) as (t' & I & Q'). exists t'. split; [now right|auto]. }
    destruct X as (t & I & Q). rewrite Forall_forall in ID. specialize (ID t I). apply in_split in I. destruct I as (t1 & t2 & E).
    exists (length t1). unfold step. rewrite E, nth_mid. destruct t as [[|c cs]|]; try discriminate. rewrite FL. cbn [ths].
    rewrite set_nth_mid, !weight_app, !weight_cons. cbn [wthread]. rewrite wcalls_cons. lia.
Qed.
Lemma finish s0 ps : forall k y, weight (ths _ _ _ y) <= k -> inv s0 ps y ->
  exists more, forallb (finished S L C) (ths _ _ _ (run S L C l0 body y more)) = true.
Proof.
  induction k as [|k IH]; intros y LE I; (destruct (forallb (finished S L C) (ths _ _ _ y)) eqn:F; [now exists []|]);
    destruct (progress s0 ps y I F) as (i & Q); [lia|].
  destruct (IH (step S L C l0 body y i)) as (more & M); [lia|now apply inv_step|]. exists (i :: more). exact M.
Qed.
End P.

(** ** record *)
Local Open Scope Z_scope.
Definition ready (m : mon) : Prop := track m = true /\ exists e s, stack m = e :: s /\ allocs e <> [].
Lemma record_call gran m t d : ready m -> record gran m t d = Some (call (0, false) (record_body gran) m (t, d)) /\ ready (call (0, false) (record_body gran) m (t, d)) /\
  usage (call (0, false) (record_body gran) m (t, d)) = usage m + d.
Proof.
  intros (T & e & s & E & N). destruct m as [u tr st co la pr]. cbn [track stack] in T, E. subst tr st.
  unfold record, call, record_body, steps. cbn [fold_left fst snd track last_event stack usage on_top set_usage set_last completed prox].
  destruct (la + gran <? t).
  - cbn [on_top stack usage track completed last_event prox set_usage set_last fst snd]. split; [reflexivity|]. split; [|reflexivity].
    split; [reflexivity|]. eexists _, s. split; [reflexivity|]. apply app_ne.
  - destruct (allocs e) eqn:A; [congruence|]. rewrite <- A in *. cbn [on_top stack usage track completed last_event prox set_usage set_last fst snd].
    split; [reflexivity|]. split; [|reflexivity]. split; [reflexivity|]. eexists _, s. split; [reflexivity|]. apply app_ne.
Qed.
Lemma record_calls gran o : forall m, ready m ->
  mexecs gran m (map (fun c => MRecord (fst c) (snd c)) o) = Some (calls (0, false) (record_body gran) m o) /\
  usage (calls (0, false) (record_body gran) m o) = usage m + sum (map snd o).
Proof.
  induction o as [|[t d] o IH]; intros m R; cbn [map mexecs calls fold_left sum fold_right]; [split; auto; lia|].
  destruct (record_call gran m t d R) as (A & B & U). cbn [mexec fst snd]. rewrite A. cbn [obind].
  destruct (IH _ B) as [X Y]. split; [exact X|]. unfold calls in Y |- *. rewrite Y, U. unfold sum. lia.
Qed.
Lemma sum_app a b : sum (a ++ b) = sum a + sum b.
Proof. unfold sum. induction a; cbn; lia. Qed.
Lemma merged_sum {A} (f : A -> Z) ps o rs : merged ps o rs -> sum (map f (concat ps)) = sum (map f o) + sum (map f (concat rs)).
Proof.
  induction 1 as [|o p1 a l p2 H IH]; [cbn; lia|]. rewrite IH. rewrite !concat_app. cbn [concat]. rewrite !map_app, !sum_app.
  cbn [map]. change (f a :: map f l) with ([f a] ++ map f l). rewrite !sum_app. lia.
Qed.
Lemma interleaving_sum {A} (f : A -> Z) ps o : interleaving ps o -> sum (map f o) = sum (map f (concat ps)).
Proof.
  intros (rs & M & E). rewrite (merged_sum f _ _ _ M).
  assert (Z : concat rs = []) by (clear M; induction E as [|r rs -> _ IH]; auto). rewrite Z. cbn. lia.
Qed.
