(** * Histories of the special members: proofs *)
From Coq Require Import List Bool Arith Lia.
From Verif Require Import Base Life SpecLife.
Import ListNotations.

Lemma aeq_refl a : aeq a a = true.
Proof. destruct a; cbn; auto using Nat.eqb_refl. Qed.
Lemma aeq_sym a b : aeq a b = aeq b a.
Proof. destruct a, b; cbn; auto. apply Nat.eqb_sym. Qed.
Lemma aeq_eq a b : aeq a b = true -> a = b.
Proof. destruct a, b; cbn; intros H; try discriminate; auto. apply Nat.eqb_eq in H; now subst. Qed.

Ltac sp := repeat match goal with |- _ /\ _ => split end.

Section P.
Context {V : Type}.
Variable d : V.
Variable left : V -> V.
Variable pswap : bool.
Notation obj := (Life.obj V).
Notation heap := (Life.heap V).
Notation class := (Life.class V).

Lemma upd_same (h : heap) a o : upd V h a o a = o.
Proof. unfold upd; now rewrite aeq_refl. Qed.
Lemma upd_other (h : heap) a o x : aeq x a = false -> upd V h a o x = h x.
Proof. unfold upd; intros ->; auto. Qed.

Definition wv (o : obj) f x : obj := mkobj V (fupd (o_val V o) f x) (o_sup V o).
Definition ws (o : obj) s x : obj := mkobj V (o_val V o) (fupd (o_sup V o) s x).
Definition pdo (i : stmt) (a b : addr) (p : obj * obj) : obj * obj :=
  let (oa, ob) := p in
  match i with
  | Cp f => (wv oa f (o_val V ob f), ob)
  | Mv f => (wv oa f (o_val V ob f), wv ob f (left (o_val V ob f)))
  | Sw f => (wv oa f (o_val V ob f), wv ob f (o_val V oa f))
  | SCp s => (ws oa s (o_sup V ob s), ob)
  | SMv s => (ws oa s (o_sup V ob s), ws ob s (mksup V (left (s_built V (o_sup V ob s))) (s_ptr V (o_sup V ob s))))
  | SSw s => (ws oa s (mksup V (s_built V (o_sup V ob s)) (if pswap then s_ptr V (o_sup V ob s) else s_ptr V (o_sup V oa s))),
              ws ob s (mksup V (s_built V (o_sup V oa s)) (if pswap then s_ptr V (o_sup V oa s) else s_ptr V (o_sup V ob s))))
  | Set_ s f => (ws oa s (mksup V (s_built V (o_sup V oa s)) (Some (a, f))), ob)
  | SetO s f => (oa, ws ob s (mksup V (s_built V (o_sup V ob s)) (Some (b, f))))
  end.
Fixpoint pexec (l : list stmt) (a b : addr) (p : obj * obj) : obj * obj :=
  match l with [] => p | i :: l => pexec l a b (pdo i a b p) end.

Ltac hs := repeat (first [rewrite upd_same | rewrite upd_other by (auto; rewrite aeq_sym; auto)]).
Lemma do_pair i (h : heap) a b oa ob : aeq a b = false -> h a = Some oa -> h b = Some ob ->
  exists h', do V left pswap i h a b = Some h' /\ h' a = Some (fst (pdo i a b (oa, ob))) /\ h' b = Some (snd (pdo i a b (oa, ob))) /\
    forall x, aeq x a = false -> aeq x b = false -> h' x = h x.
Proof.
  intros N A B.
  assert (N' : aeq b a = false) by now rewrite aeq_sym.
  destruct i; cbn [do pdo fst snd]; unfold getv, setv, gets, sets; rewrite ?A, ?B; cbn [obind]; rewrite ?A, ?B; cbn [obind]; hs; cbn [obind]; hs; rewrite ?A, ?B; cbn [obind]; eexists; split; try reflexivity; hs; sp; auto; intros x X Y; hs; auto.
Qed.
Lemma run_pair l : forall (h : heap) a b oa ob, aeq a b = false -> h a = Some oa -> h b = Some ob ->
  exists h', run V left pswap l h a b = Some h' /\ h' a = Some (fst (pexec l a b (oa, ob))) /\ h' b = Some (snd (pexec l a b (oa, ob))) /\
    forall x, aeq x a = false -> aeq x b = false -> h' x = h x.
Proof.
  induction l as [|i l IH]; intros h a b oa ob N A B; cbn [run pexec].
  - exists h; cbn; auto.
  - destruct (do_pair i h a b oa ob N A B) as [h1 [E [A1 [B1 F1]]]]. rewrite E; cbn [obind].
    destruct (IH h1 a b _ _ N A1 B1) as [h2 [E2 [A2 [B2 F2]]]]. exists h2. rewrite <- surjective_pairing in A2, B2.
    sp; auto. intros x X Y. rewrite F2, F1; auto.
Qed.

Definition sdo (i : stmt) (a : addr) (o : obj) : obj :=
  match i with
  | Cp f => wv o f (o_val V o f)
  | Mv f => wv (wv o f (o_val V o f)) f (left (o_val V o f))
  | Sw f => wv (wv o f (o_val V o f)) f (o_val V o f)
  | SCp s => ws o s (o_sup V o s)
  | SMv s => ws (ws o s (o_sup V o s)) s (mksup V (left (s_built V (o_sup V o s))) (s_ptr V (o_sup V o s)))
  | SSw s => let x := o_sup V o s in let y := mksup V (s_built V x) (if pswap then s_ptr V x else s_ptr V x) in ws (ws o s y) s y
  | Set_ s f => ws o s (mksup V (s_built V (o_sup V o s)) (Some (a, f)))
  | SetO s f => ws o s (mksup V (s_built V (o_sup V o s)) (Some (a, f)))
  end.
Fixpoint sexec (l : list stmt) (a : addr) (o : obj) : obj :=
  match l with [] => o | i :: l => sexec l a (sdo i a o) end.
Lemma do_self i (h : heap) a oa : h a = Some oa ->
  exists h', do V left pswap i h a a = Some h' /\ h' a = Some (sdo i a oa) /\ forall x, aeq x a = false -> h' x = h x.
Proof.
  intros A.
  destruct i; cbn [do sdo]; unfold getv, setv, gets, sets; rewrite ?A; cbn [obind]; rewrite ?A; cbn [obind]; hs; cbn [obind]; rewrite ?A; cbn [obind]; eexists; split; try reflexivity; hs; sp; auto; intros x X; hs; auto.
Qed.
Lemma run_self l : forall (h : heap) a oa, h a = Some oa ->
  exists h', run V left pswap l h a a = Some h' /\ h' a = Some (sexec l a oa) /\ forall x, aeq x a = false -> h' x = h x.
Proof.
  induction l as [|i l IH]; intros h a oa A; cbn [run sexec].
  - exists h; cbn; auto.
  - destruct (do_self i h a oa A) as [h1 [E [A1 F1]]]. rewrite E; cbn [obind].
    destruct (IH h1 a _ A1) as [h2 [E2 [A2 F2]]]. exists h2. sp; auto. intros x X. rewrite F2, F1; auto.
Qed.

(** ** what the special members have to do *)
Section Spec.
Variable nf : nat.
Variable over : list nat.
Definition wf (a : addr) (v : nat -> V) (o : obj) : Prop :=
  (forall f, f < nf -> o_val V o f = v f) /\
  (forall s, s < length over -> s_built V (o_sup V o s) = v (nth s over 0) /\ s_ptr V (o_sup V o s) = Some (a, nth s over 0)).

Definition cc_ok (k : body V) := forall h a b ob, aeq a b = false -> h b = Some ob ->
  exists h' oa', k h a b = Some h' /\ h' a = Some oa' /\ (forall v, wf b v ob -> wf a v oa') /\ (forall x, aeq x a = false -> h' x = h x).
Definition mc_ok (k : body V) := forall h a b ob, aeq a b = false -> h b = Some ob ->
  exists h' oa' ob', k h a b = Some h' /\ h' a = Some oa' /\ h' b = Some ob' /\ (forall v, wf b v ob -> wf a v oa') /\
    (forall x, aeq x a = false -> aeq x b = false -> h' x = h x).
Definition ca_ok (k : body V) := forall h n m oa ob, h (U n) = Some oa -> h (U m) = Some ob ->
  exists h' oa', k h (U n) (U m) = Some h' /\ h' (U n) = Some oa' /\ (forall v, wf (U m) v ob -> wf (U n) v oa') /\
    (forall x, x <> n -> h' (U x) = h (U x)).
Definition ma_ok (k : body V) := forall h n m oa ob, h (U n) = Some oa -> h (U m) = Some ob ->
  exists h' oa' ob', k h (U n) (U m) = Some h' /\ h' (U n) = Some oa' /\ h' (U m) = Some ob' /\ (forall v, wf (U m) v ob -> wf (U n) v oa') /\
    (forall x, x <> n -> x <> m -> h' (U x) = h (U x)).
Definition sw_ok (k : body V) := forall h a b oa ob, aeq a b = false -> h a = Some oa -> h b = Some ob ->
  exists h' oa' ob', k h a b = Some h' /\ h' a = Some oa' /\ h' b = Some ob' /\
    (forall v, wf b v ob -> wf a v oa') /\ (forall v, wf a v oa -> wf b v ob') /\
    (forall x, aeq x a = false -> aeq x b = false -> h' x = h x).
Definition ss_ok (k : body V) := forall h a oa, h a = Some oa ->
  exists h' oa', k h a a = Some h' /\ h' a = Some oa' /\ (forall v, wf a v oa -> wf a v oa') /\ (forall x, aeq x a = false -> h' x = h x).

Lemma uneq n m : n <> m -> aeq (U n) (U m) = false.
Proof. intros; cbn; now apply Nat.eqb_neq. Qed.

(** *** from scripts to members *)
Definition cp_script l := forall a b oa ob, snd (pexec l a b (oa, ob)) = ob /\ forall v, wf b v ob -> wf a v (fst (pexec l a b (oa, ob))).
Definition mv_script l := forall a b oa ob v, wf b v ob -> wf a v (fst (pexec l a b (oa, ob))).
Definition sw_script l := forall a b oa ob v, (wf b v ob -> wf a v (fst (pexec l a b (oa, ob)))) /\ (wf a v oa -> wf b v (snd (pexec l a b (oa, ob)))).
Definition ss_script l := forall a o v, wf a v o -> wf a v (sexec l a o).

Notation run := (run V left pswap).
Notation ctor := (ctor V d).
Lemma cc_run l : cp_script l -> cc_ok (ctor (run l)).
Proof.
  intros C h a b ob N B. unfold Life.ctor.
  assert (N' : aeq b a = false) by now rewrite aeq_sym.
  destruct (run_pair l (upd V h a (Some (blank V d))) a b (blank V d) ob N) as [h' [E [A1 [B1 F]]]]; [apply upd_same| |].
  { rewrite upd_other; auto. }
  destruct (C a b (blank V d) ob) as [C1 C2]. rewrite C1 in B1.
  exists h', (fst (pexec l a b (blank V d, ob))). sp; auto.
  intros x X. destruct (aeq x b) eqn:Y.
  - apply aeq_eq in Y; subst. congruence.
  - rewrite F; auto. apply upd_other; auto.
Qed.
Lemma cc_guard k : cc_ok (ctor k) -> cc_ok (ctor (guarded V k)).
Proof. intros K h a b ob N B. unfold Life.ctor, guarded. rewrite N. apply K; auto. Qed.
Lemma mc_cc k : cc_ok k -> mc_ok k.
Proof.
  intros K h a b ob N B. destruct (K h a b ob N B) as [h' [oa' [E [A [W F]]]]].
  exists h', oa', ob. sp; auto.
  rewrite F; auto. now rewrite aeq_sym.
Qed.
Lemma mc_run l : mv_script l -> mc_ok (ctor (run l)).
Proof.
  intros C h a b ob N B. unfold Life.ctor.
  destruct (run_pair l (upd V h a (Some (blank V d))) a b (blank V d) ob N) as [h' [E [A1 [B1 F]]]]; [apply upd_same| |].
  { rewrite upd_other; auto. now rewrite aeq_sym. }
  eexists h', _, _. split; [exact E|split; [exact A1|split; [exact B1|split]]].
  - intros v W; apply C; auto.
  - intros x X Y. rewrite F; auto. apply upd_other; auto.
Qed.
Lemma mc_guard k : mc_ok (ctor k) -> mc_ok (ctor (guarded V k)).
Proof. intros K h a b ob N B. unfold Life.ctor, guarded. rewrite N. apply K; auto. Qed.
Lemma ca_run l : cp_script l -> ca_ok (guarded V (run l)).
Proof.
  intros C h n m oa ob A B. unfold guarded. destruct (aeq (U n) (U m)) eqn:N.
  - apply aeq_eq in N. injection N as <-. assert (oa = ob) by congruence; subst.
    exists h, ob; sp ; auto.
  - destruct (run_pair l h _ _ oa ob N A B) as [h' [E [A1 [B1 F]]]].
    destruct (C (U n) (U m) oa ob) as [C1 C2]. rewrite C1 in B1.
    eexists h', _. split; [exact E|split; [exact A1|split]].
    + intros; apply C2; auto.
    + intros x X. destruct (Nat.eq_dec x m) as [->|Y]; [congruence|]. apply F; apply uneq; auto.
Qed.
Lemma ma_ca k : ca_ok k -> ma_ok k.
Proof.
  intros K h n m oa ob A B. destruct (K h n m oa ob A B) as [h' [oa' [E [A1 [W F]]]]].
  destruct (Nat.eq_dec m n) as [->|Y].
  - exists h', oa', oa'; sp; auto.
  - exists h', oa', ob; sp; auto. rewrite F; auto.
Qed.
Lemma ma_run l : mv_script l -> ma_ok (guarded V (run l)).
Proof.
  intros C h n m oa ob A B. unfold guarded. destruct (aeq (U n) (U m)) eqn:N.
  - apply aeq_eq in N. injection N as <-. assert (oa = ob) by congruence; subst.
    exists h, ob, ob; sp ; auto.
  - destruct (run_pair l h _ _ oa ob N A B) as [h' [E [A1 [B1 F]]]].
    eexists h', _, _. split; [exact E|split; [exact A1|split; [exact B1|split]]].
    + intros; apply C; auto.
    + intros x X Y. apply F; apply uneq; auto.
Qed.
Lemma sw_run l : sw_script l -> sw_ok (run l).
Proof.
  intros C h a b oa ob N A B.
  destruct (run_pair l h _ _ oa ob N A B) as [h' [E [A1 [B1 F]]]].
  eexists h', _, _. split; [exact E|split; [exact A1|split; [exact B1|split; [|split; [|exact F]]]]].
  - intros; apply (C a b oa ob v); auto.
  - intros; apply (C a b oa ob v); auto.
Qed.
Lemma sw_guard k : sw_ok k -> sw_ok (guarded V k).
Proof. intros K h a b oa ob N A B. unfold guarded. rewrite N. apply K; auto. Qed.
Lemma ss_guard k : ss_ok (guarded V k).
Proof. intros h a oa A. unfold guarded. rewrite aeq_refl. exists h, oa; sp ; auto. Qed.
Lemma ss_run l : ss_script l -> ss_ok (run l).
Proof.
  intros C h a oa A. destruct (run_self l h a oa A) as [h' [E [A1 F]]].
  eexists h', _. split; [exact E|split; [exact A1|split; auto]].
Qed.
Lemma mc_swap k : sw_ok k -> mc_ok (ctor k).
Proof.
  intros K h a b ob N B. unfold Life.ctor.
  destruct (K (upd V h a (Some (blank V d))) a b (blank V d) ob N) as [h' [oa' [ob' [E [A1 [B1 [W1 [W2 F]]]]]]]]; [apply upd_same| |].
  { rewrite upd_other; auto. now rewrite aeq_sym. }
  exists h', oa', ob'. sp; auto. intros; rewrite F; auto. apply upd_other; auto.
Qed.
Lemma ca_copy_swap cc sw : cc_ok cc -> sw_ok sw -> ca_ok (copy_swap V cc sw).
Proof.
  intros C K h n m oa ob A B. unfold copy_swap.
  destruct (C h T (U m) ob eq_refl B) as [h1 [ot [E1 [T1 [W1 F1]]]]]. rewrite E1; cbn [obind].
  assert (A1 : h1 (U n) = Some oa) by (rewrite F1; auto).
  destruct (K h1 T (U n) ot oa eq_refl T1 A1) as [h2 [ot' [oa' [E2 [T2 [A2 [_ [W2 F2]]]]]]]]. rewrite E2; cbn [obind].
  eexists _, oa'. split; [reflexivity|]. split; [now rewrite upd_other|]. split; auto.
  intros x X. rewrite upd_other, F2, F1; auto. now apply uneq.
Qed.
Lemma ma_by_value cc sw : mc_ok cc -> sw_ok sw -> ma_ok (by_value V cc sw).
Proof.
  intros C K h n m oa ob A B. unfold by_value.
  destruct (C h T (U m) ob eq_refl B) as [h1 [ot [ob1 [E1 [T1 [B1 [W1 F1]]]]]]]. rewrite E1; cbn [obind].
  assert (A1 : exists oa1, h1 (U n) = Some oa1).
  { destruct (Nat.eq_dec n m) as [->|N]; [eauto|]. exists oa. rewrite F1; auto. now apply uneq. }
  destruct A1 as [oa1 A1].
  destruct (K h1 (U n) T oa1 ot eq_refl A1 T1) as [h2 [oa' [ot' [E2 [A2 [T2 [W2 [_ F2]]]]]]]]. rewrite E2; cbn [obind].
  eexists _, oa', (if n =? m then oa' else ob1). split; [reflexivity|]. split; [now rewrite upd_other|]. split; [|split].
  - rewrite upd_other; auto. destruct (n =? m) eqn:N; [apply Nat.eqb_eq in N; now subst|].
    rewrite F2; auto. apply uneq. apply Nat.eqb_neq in N; auto.
  - auto.
  - intros x X Y. rewrite upd_other, F2, F1; auto; now apply uneq.
Qed.
Lemma ca_by_value cc sw : cc_ok cc -> sw_ok sw -> ca_ok (by_value V cc sw).
Proof.
  intros C K h n m oa ob A B. unfold by_value.
  destruct (C h T (U m) ob eq_refl B) as [h1 [ot [E1 [T1 [W1 F1]]]]]. rewrite E1; cbn [obind].
  assert (A1 : h1 (U n) = Some oa) by (rewrite F1; auto).
  destruct (K h1 (U n) T oa ot eq_refl A1 T1) as [h2 [oa' [ot' [E2 [A2 [T2 [W2 [_ F2]]]]]]]]. rewrite E2; cbn [obind].
  eexists _, oa'. split; [reflexivity|]. split; [now rewrite upd_other|]. split; auto.
  intros x X. rewrite upd_other, F2, F1; auto. now apply uneq.
Qed.
End Spec.

(** ** histories *)
Section Hist.
Variable c : class.
Notation wf := (wf (nf V c) (over V c)).
Definition ctor_op (o : op V) : bool := match o with CopyC _ _ _ | MoveC _ _ _ => true | _ => false end.
Definition move_op (o : op V) : bool := match o with MoveA _ _ _ | MoveC _ _ _ => true | _ => false end.
Definition rel (e : env V) (h : heap) : Prop := forall n,
  match e n with
  | Dead _ => True
  | Unspec _ => exists o, h (U n) = Some o
  | Val _ v => exists o, h (U n) = Some o /\ wf (U n) v o
  end.
Definition op_ok (o : op V) : Prop :=
  match o with
  | CopyC _ _ _ => cc_ok (nf V c) (over V c) (k_cc V c)
  | MoveC _ _ _ => mc_ok (nf V c) (over V c) (k_mc V c)
  | CopyA _ _ _ => ca_ok (nf V c) (over V c) (k_ca V c)
  | MoveA _ _ _ => ma_ok (nf V c) (over V c) (k_ma V c)
  | Swap _ _ _ => sw_ok (nf V c) (over V c) (k_sw V c) /\ ss_ok (nf V c) (over V c) (k_sw V c)
  | _ => True
  end.
Lemma rel_live e h n : rel e h -> dead V e n = false -> exists o, h (U n) = Some o /\ (forall v, e n = Val V v -> wf (U n) v o).
Proof.
  intros R D. specialize (R n). unfold dead in D. destruct (e n); try discriminate.
  - destruct R as [o R]. exists o; split; auto. intros; discriminate.
  - destruct R as [o [R W]]. exists o; split; auto. intros w Q. injection Q as <-; auto.
Qed.
Lemma rel_at (s : status V) (h : heap) n o : h (U n) = Some o -> (forall v, s = Val V v -> wf (U n) v o) ->
  match s with Dead _ => True | Unspec _ => exists o, h (U n) = Some o | Val _ v => exists o, h (U n) = Some o /\ wf (U n) v o end.
Proof. intros E W. destruct s; eauto. Qed.
Lemma step_ok o e e' h : op_ok o -> rel e h -> sem V e o = Some e' -> exists h', exec V c h o = Some h' /\ rel e' h'.
Proof.
  intros K R S. destruct o as [n v|n m|n m|n m|n m|n m|n]; cbn [sem exec op_ok] in *.
  - destruct (dead V e n) eqn:D; [|discriminate]. injection S as <-. eexists; split; [reflexivity|].
    intros x. unfold put. destruct (x =? n) eqn:X.
    + apply Nat.eqb_eq in X; subst. eexists; split; [apply upd_same|]. split; cbn; auto.
    + rewrite upd_other by exact X. apply R.
  - destruct (dead V e n) eqn:D; [|discriminate]. destruct (dead V e m) eqn:M; [discriminate|]. injection S as <-.
    destruct (rel_live e h m R M) as [ob [B W]].
    assert (N : n <> m) by (intros ->; congruence).
    destruct (K h (U n) (U m) ob (uneq _ _ N) B) as [h' [oa' [E [A [W' F]]]]]. exists h'; split; auto.
    intros x. unfold put. destruct (x =? n) eqn:X.
    + apply Nat.eqb_eq in X; subst. apply (rel_at _ _ _ oa'); auto.
    + rewrite F by exact X. apply R.
  - destruct (dead V e n) eqn:D; [|discriminate]. destruct (dead V e m) eqn:M; [discriminate|]. injection S as <-.
    destruct (rel_live e h m R M) as [ob [B W]].
    assert (N : n <> m) by (intros ->; congruence).
    destruct (K h (U n) (U m) ob (uneq _ _ N) B) as [h' [oa' [ob' [E [A [B' [W' F]]]]]]]. exists h'; split; auto.
    intros x. unfold put. destruct (x =? n) eqn:X.
    + apply Nat.eqb_eq in X; subst. apply (rel_at _ _ _ oa'); auto.
    + destruct (x =? m) eqn:Y.
      * apply Nat.eqb_eq in Y; subst. eauto.
      * rewrite F by assumption. apply R.
  - destruct (dead V e n) eqn:D; [discriminate|]. destruct (dead V e m) eqn:M; [discriminate|]. injection S as <-.
    destruct (rel_live e h m R M) as [ob [B W]]. destruct (rel_live e h n R D) as [oa [A _]].
    destruct (K h n m oa ob A B) as [h' [oa' [E [A' [W' F]]]]]. exists h'; split; auto.
    intros x. unfold put. destruct (x =? n) eqn:X.
    + apply Nat.eqb_eq in X; subst. apply (rel_at _ _ _ oa'); auto.
    + rewrite F by (now apply Nat.eqb_neq). apply R.
  - destruct (dead V e n) eqn:D; [discriminate|]. destruct (dead V e m) eqn:M; [discriminate|]. injection S as <-.
    destruct (rel_live e h m R M) as [ob [B W]]. destruct (rel_live e h n R D) as [oa [A _]].
    destruct (K h n m oa ob A B) as [h' [oa' [ob' [E [A' [B' [W' F]]]]]]]. exists h'; split; auto.
    intros x. unfold put. destruct (x =? n) eqn:X.
    + apply Nat.eqb_eq in X; subst. apply (rel_at _ _ _ oa'); auto.
    + destruct (x =? m) eqn:Y.
      * apply Nat.eqb_eq in Y; subst. eauto.
      * rewrite F by (now apply Nat.eqb_neq). apply R.
  - destruct K as [K K'].
    destruct (dead V e n) eqn:D; [discriminate|]. destruct (dead V e m) eqn:M; [discriminate|]. injection S as <-.
    destruct (rel_live e h m R M) as [ob [B W]]. destruct (rel_live e h n R D) as [oa [A WA]].
    destruct (Nat.eq_dec n m) as [->|N].
    + destruct (K' h (U m) oa A) as [h' [oa' [E [A' [W' F]]]]]. exists h'; split; auto.
      intros x. unfold put. destruct (x =? m) eqn:X.
      * apply Nat.eqb_eq in X; subst. apply (rel_at _ _ _ oa'); auto.
      * rewrite F by exact X. apply R.
    + destruct (K h (U n) (U m) oa ob (uneq _ _ N) A B) as [h' [oa' [ob' [E [A' [B' [W1 [W2 F]]]]]]]]. exists h'; split; auto.
      intros x. unfold put. destruct (x =? n) eqn:X.
      * apply Nat.eqb_eq in X; subst. apply (rel_at _ _ _ oa'); auto.
      * destruct (x =? m) eqn:Y.
        -- apply Nat.eqb_eq in Y; subst. apply (rel_at _ _ _ ob'); auto.
        -- rewrite F by assumption. apply R.
  - destruct (dead V e n) eqn:D; [discriminate|]. injection S as <-. eexists; split; [reflexivity|].
    intros x. unfold put. destruct (x =? n) eqn:X; [exact I|]. rewrite upd_other by exact X. apply R.
Qed.
Lemma steps_ok l : forall e e' h, Forall op_ok l -> rel e h -> sems V e l = Some e' -> exists h', execs V c h l = Some h' /\ rel e' h'.
Proof.
  induction l as [|o l IH]; cbn [sems execs]; intros e e' h K R S.
  - injection S as <-. eauto.
  - inversion K; subst. destruct (sem V e o) as [e1|] eqn:E1; [|discriminate]. cbn [obind] in S.
    destruct (step_ok o e e1 h H1 R E1) as [h1 [X1 R1]]. rewrite X1; cbn [obind]. eauto.
Qed.
(** what a user sees: every object with a specified value is read as that value, and every support of it answers for it *)
Definition sees (e : env V) (h : heap) : Prop := forall n v, e n = Val V v ->
  (forall f, f < nf V c -> read V h n f = Some (v f)) /\
  (forall s f, nth_error (over V c) s = Some f -> query V h n s = Some (v f, v f)).
Lemma rel_sees e h : (forall f, In f (over V c) -> f < nf V c) -> rel e h -> sees e h.
Proof.
  intros O R n v E. specialize (R n). rewrite E in R. destruct R as [o [A [W1 W2]]]. split.
  - intros f F. unfold read, getv. rewrite A; cbn [obind]. now rewrite W1.
  - intros s f F. assert (L : s < length (over V c)) by (apply nth_error_Some; congruence).
    destruct (W2 s L) as [B P]. rewrite (nth_error_nth _ _ 0 F) in B, P.
    unfold query, gets, getv. rewrite A; cbn [obind]. rewrite P, A; cbn [obind]. rewrite B, W1; auto.
    apply O. eapply nth_error_In; eauto.
Qed.
Lemma hist l e : Forall op_ok l -> (forall f, In f (over V c) -> f < nf V c) -> sems V (no_objects V) l = Some e ->
  exists h, execs V c (empty_heap V) l = Some h /\ sees e h.
Proof.
  intros K O S. assert (R0 : rel (no_objects V) (empty_heap V)) by (intro; exact I).
  destruct (steps_ok l _ e _ K R0 S) as [h [E R]].
  exists h; split; auto. now apply rel_sees.
Qed.
Definition class_ok := cc_ok (nf V c) (over V c) (k_cc V c) /\ mc_ok (nf V c) (over V c) (k_mc V c) /\ ca_ok (nf V c) (over V c) (k_ca V c) /\
  ma_ok (nf V c) (over V c) (k_ma V c) /\ sw_ok (nf V c) (over V c) (k_sw V c) /\ ss_ok (nf V c) (over V c) (k_sw V c).
Lemma hist_all l e : class_ok -> (forall f, In f (over V c) -> f < nf V c) -> sems V (no_objects V) l = Some e ->
  exists h, execs V c (empty_heap V) l = Some h /\ sees e h.
Proof.
  intros (K1 & K2 & K3 & K4 & K5 & K6) O S. apply hist; auto. apply Forall_forall. intros o _. destruct o; cbn; auto.
Qed.
End Hist.

(** ** the classes *)
Ltac vals_tac Wf f Hf :=
  do 10 (destruct f as [|f]; [first [exfalso; lia | lazy; try reflexivity; apply Wf; lia]|]); exfalso; lia.
Ltac sups_tac Ws s Hs :=
  do 8 (destruct s as [|s]; [first [exfalso; cbn in Hs; lia | lazy; split; try reflexivity;
    first [apply (Ws 0); lia|apply (Ws 1); lia|apply (Ws 2); lia|apply (Ws 3); lia|apply (Ws 4); lia]]|]); exfalso; cbn in Hs; lia.
Ltac wf_fin W :=
  let Wf := fresh in let Ws := fresh in let f := fresh "f" in let Hf := fresh in
  destruct W as [Wf Ws]; cbn [length] in Ws; try destruct pswap;
  (split; intros f Hf; [vals_tac Wf f Hf | sups_tac Ws f Hf]).
Ltac cp_tac := intros a b oa ob; split; [reflexivity|intros v W; wf_fin W].
Ltac mv_tac := intros a b oa ob v W; wf_fin W.
Ltac sw_tac := intros a b oa ob v; split; intros W; wf_fin W.
Ltac ss_tac := intros a o v W; wf_fin W.

Lemma std_ok nf over cp mv sw : cp_script nf over cp -> mv_script nf over mv -> sw_script nf over sw ->
  class_ok (std_class V d left pswap nf over cp mv sw).
Proof.
  intros C M S. unfold class_ok, std_class; cbn.
  sp; auto using cc_run, mc_guard, mc_run, ca_run, ma_run, sw_guard, sw_run, ss_guard.
Qed.
Lemma std_u_ok nf over cp mv sw : cp_script nf over cp -> mv_script nf over mv -> sw_script nf over sw -> ss_script nf over sw ->
  class_ok (std_class_u V d left pswap nf over cp mv sw).
Proof.
  intros C M S SS. unfold class_ok, std_class_u; cbn.
  sp; auto using cc_run, mc_guard, mc_run, ca_run, ma_run, sw_run, ss_run.
Qed.
Ltac stdt := apply std_ok; [cp_tac|mv_tac|sw_tac].
Ltac stdu := apply std_u_ok; [cp_tac|mv_tac|sw_tac|ss_tac].
Lemma wt_int_ok : class_ok (c_wt_int V d left pswap). Proof. stdt. Qed.
Lemma wt_pc_ok : class_ok (c_wt_pc V d left pswap). Proof. stdt. Qed.
Lemma wm_int_ok : class_ok (c_wm_int V d left pswap). Proof. stdt. Qed.
Lemma wt_rlmn_ok : class_ok (c_wt_rlmn V d left pswap). Proof. stdt. Qed.
Lemma sd_vector_ok : class_ok (c_sd_vector V d left pswap). Proof. stdt. Qed.
Lemma dac_vector_ok : class_ok (c_dac_vector V d left pswap). Proof. stdu. Qed.
Lemma alphabet_ok : class_ok (c_alphabet V d left pswap). Proof. stdu. Qed.
Lemma nnd_ok : class_ok (c_nnd V d left pswap). Proof. stdu. Qed.
Lemma cst_sada_ok : class_ok (c_cst_sada V d left pswap). Proof. stdt. Qed.
Lemma cst_sct3_ok : class_ok (c_cst_sct3 V d left pswap). Proof. stdt. Qed.
Lemma cst_fully_ok : class_ok (c_cst_fully V d left pswap). Proof. stdt. Qed.
Lemma dac_vector_dp_ok : class_ok (c_dac_vector_dp V d left pswap).
Proof.
  assert (C : cc_ok 4 [1] (dp_cc V d left pswap)) by (apply cc_run; cp_tac).
  assert (S : sw_ok 4 [1] (dp_sw V left pswap)) by (apply sw_run; sw_tac).
  assert (M : mc_ok 4 [1] (dp_mc V d left pswap)) by (apply mc_swap; auto).
  unfold class_ok, c_dac_vector_dp; cbn [nf over k_cc k_ca k_mc k_ma k_sw]. sp; auto using ca_by_value, ma_by_value. apply ss_run. ss_tac.
Qed.
Lemma text_order_ok : class_ok (c_text_order V d left pswap).
Proof.
  assert (C : cp_script 2 [1] [Cp 0; Cp 1; SCp 0; Set_ 0 1]) by cp_tac.
  unfold class_ok, c_text_order; cbn [nf over k_cc k_ca k_mc k_ma k_sw]. sp; auto using cc_run, mc_cc, ca_run, ma_ca; [apply sw_run; sw_tac|apply ss_run; ss_tac].
Qed.
Lemma fuzzy_sa_ok : class_ok (c_fuzzy_sa V d left pswap).
Proof.
  assert (C : cp_script 3 [0; 1] [Cp 0; SCp 0; Set_ 0 0; Cp 1; SCp 1; Set_ 1 1; Cp 2]) by cp_tac.
  unfold class_ok, c_fuzzy_sa; cbn [nf over k_cc k_ca k_mc k_ma k_sw]. sp; auto using cc_run, mc_cc, ca_run, ma_ca; [apply sw_run; sw_tac|apply ss_run; ss_tac].
Qed.
Lemma rmq_sada_ok : class_ok (c_rmq_sada V d left pswap).
Proof.
  assert (C : cp_script 1 [0; 0; 0] [Cp 0; SCp 0; Set_ 0 0; SCp 1; Set_ 1 0; SCp 2; Set_ 2 0]) by cp_tac.
  unfold class_ok, c_rmq_sada; cbn [nf over k_cc k_ca k_mc k_ma k_sw]. sp; auto using cc_guard, cc_run, mc_cc, ca_run; [apply ma_run; mv_tac|apply sw_run; sw_tac|apply ss_run; ss_tac].
Qed.
Lemma rmq_sct_ok : class_ok (c_rmq_sct V d left pswap).
Proof.
  assert (C : cp_script 1 [0] [Cp 0; SCp 0; Set_ 0 0]) by cp_tac.
  assert (M : mv_script 1 [0] [Mv 0; SMv 0; Set_ 0 0]) by mv_tac.
  unfold class_ok, c_rmq_sct; cbn [nf over k_cc k_ca k_mc k_ma k_sw]. sp; auto using cc_guard, cc_run, mc_guard, mc_run, ca_run, ma_run; [apply sw_run; sw_tac|apply ss_run; ss_tac].
Qed.
Lemma wt_gmr_rs_ok : class_ok (c_wt_gmr_rs V d left pswap).
Proof.
  assert (C : cc_ok 6 [0; 0] (gr_cc V d left pswap)) by (apply cc_run; cp_tac).
  assert (S : sw_ok 6 [0; 0] (gr_sw V left pswap)) by (apply sw_guard, sw_run; sw_tac).
  unfold class_ok, c_wt_gmr_rs; cbn [nf over k_cc k_ca k_mc k_ma k_sw]. sp; auto using mc_cc, ca_copy_swap, ma_ca, ss_guard. apply ss_guard.
Qed.
Lemma inv_perm_ok : class_ok (c_inv_perm V d left pswap). Proof. stdt. Qed.
Lemma inv_multi_perm_ok : class_ok (c_inv_multi_perm V d left pswap). Proof. stdt. Qed.
Lemma bp_g_ok : class_ok (c_bp_g V d left pswap). Proof. stdu. Qed.
Lemma wt_ap_ok : class_ok (c_wt_ap V d left pswap). Proof. stdt. Qed.
Lemma csa_isa_ok : class_ok (c_csa_isa V d left pswap). Proof. stdt. Qed.
(** the copy constructor and the move assignment which forget a set_vector, and the members which are right all the same *)
Lemma csa_ca : ca_ok 3 [1] (k_ca V (c_csa V d left pswap)).
Proof. apply ca_run; cp_tac. Qed.
Lemma csa_cc : cc_ok 3 [1] (k_cc V (c_csa V d left pswap)).
Proof. apply cc_run; cp_tac. Qed.
Lemma csa_sw : sw_ok 3 [1] (k_sw V (c_csa V d left pswap)).
Proof. apply sw_guard, sw_run; sw_tac. Qed.
Definition gm_weak (v : nat -> V) (o : obj) : Prop :=
  (forall f, f < 8 -> o_val V o f = v f) /\
  (forall s, s < 5 -> s_built V (o_sup V o s) = v (nth s [2; 0; 1; 0; 1] 0)).
Lemma gm_sw_ok : sw_ok 8 [2; 0; 1; 0; 1] (gm_sw V left pswap).
Proof. apply sw_guard, sw_run; sw_tac. Qed.
Lemma gm_ca : ca_ok 8 [2; 0; 1; 0; 1] (copy_swap V (gm_cc V d left pswap) (gm_sw V left pswap)).
Proof.
  intros h n m oa ob A B. unfold copy_swap, gm_cc, ctor.
  match goal with |- context [run V left pswap ?l] => set (cp := l) end.
  destruct (run_pair cp (upd V h T (Some (blank V d))) T (U m) (blank V d) ob eq_refl) as [h1 [E1 [T1 [B1 F1]]]]; [apply upd_same|rewrite upd_other; auto|].
  rewrite E1; cbn [obind].
  assert (W1 : forall v, wf 8 [2; 0; 1; 0; 1] (U m) v ob -> gm_weak v (fst (pexec cp T (U m) (blank V d, ob)))).
  { intros v [Wf Ws]. unfold cp. cbn [length] in Ws. split; intros f Hf; [vals_tac Wf f Hf|].
    do 5 (destruct f as [|f]; [lazy; first [apply (Ws 0); lia|apply (Ws 1); lia|apply (Ws 2); lia|apply (Ws 3); lia|apply (Ws 4); lia]|]).
    lia. }
  assert (C1 : snd (pexec cp T (U m) (blank V d, ob)) = ob) by reflexivity.
  rewrite C1 in B1. set (ot := fst (pexec cp T (U m) (blank V d, ob))) in *. clearbody ot.
  assert (A1 : h1 (U n) = Some oa).
  { destruct (Nat.eq_dec n m) as [->|N]; [congruence|]. rewrite F1 by (auto using uneq). now rewrite upd_other. }
  unfold gm_sw, guarded. cbn [aeq].
  match goal with |- context [run V left pswap ?l] => set (sw := l) end.
  destruct (run_pair sw h1 T (U n) ot oa eq_refl T1 A1) as [h2 [E2 [T2 [A2 F2]]]]. rewrite E2; cbn [obind].
  eexists _, _. split; [reflexivity|]. split; [rewrite upd_other by reflexivity; exact A2|]. split.
  - intros v W. apply W1 in W. destruct W as [Wf Ws]. unfold sw. destruct pswap; (split; intros f Hf; [vals_tac Wf f Hf|cbn [length] in Hf; sups_tac Ws f Hf]).
  - intros x X. rewrite upd_other, F2 by (auto using uneq). destruct (Nat.eq_dec x m) as [->|N]; [congruence|]. rewrite F1 by (auto using uneq). now rewrite upd_other.
Qed.
End P.
