(** * Owned memory: proofs *)
From Coq Require Import List Bool Arith Lia.
From Verif Require Import Base Life SpecLife Own.
Import ListNotations.

Ltac spl := repeat match goal with |- _ /\ _ => split end.

Section P.
Context {B : Type}.
Variable left : option B -> option B.
Notation mem := (mem B).
Notation oobj := (oobj B).

Lemma fupd_same {A} (g : nat -> A) f x : fupd g f x f = x.
Proof. unfold fupd; now rewrite Nat.eqb_refl. Qed.
Lemma fupd_other {A} (g : nat -> A) f x k : k <> f -> fupd g f x k = g k.
Proof. unfold fupd; intros H. apply Nat.eqb_neq in H. now rewrite H. Qed.

(** ** pointers and blocks *)
Definition ptrs := nat -> nat -> option nat.
Definition clean (P : ptrs) (bk : nat -> option B) (nx : nat) : Prop :=
  (forall n p b, P n p = Some b -> bk b <> None) /\
  (forall n p n' p' b, P n p = Some b -> P n' p' = Some b -> n = n' /\ p = p') /\
  (forall b, bk b <> None -> exists n p, P n p = Some b) /\
  (forall b, bk b <> None -> b < nx).
Definition cont (P : ptrs) (bk : nat -> option B) n p : option B := match P n p with None => None | Some b => bk b end.
Definition at2 (n p n' p' : nat) : {n' = n /\ p' = p} + {~ (n' = n /\ p' = p)}.
Proof. destruct (Nat.eq_dec n' n), (Nat.eq_dec p' p); [left; auto|right; tauto|right; tauto|right; tauto]. Defined.
Definition pu (P : ptrs) n p x : ptrs := fun n' p' => if at2 n p n' p' then x else P n' p'.
Definition cu (g : nat -> nat -> option B) n p x := fun n' p' => if at2 n p n' p' then x else g n' p'.
Lemma clean_ext P Q bk nx : (forall n p, P n p = Q n p) -> clean P bk nx -> clean Q bk nx.
Proof.
  intros E (C1 & C2 & C3 & C4). split; [|split; [|split]]; auto.
  - intros n p b; rewrite <- E; apply C1.
  - intros n p n' p' b; rewrite <- !E; apply C2.
  - intros b N. destruct (C3 b N) as (n & p & X). exists n, p. now rewrite <- E.
Qed.
Lemma clean_del P bk nx n p b : clean P bk nx -> P n p = Some b ->
  clean (pu P n p None) (fupd bk b None) nx /\ forall n' p', cont (pu P n p None) (fupd bk b None) n' p' = cu (cont P bk) n p None n' p'.
Proof.
  intros (C1 & C2 & C3 & C4) E.
  assert (D : forall n' p' b', pu P n p None n' p' = Some b' -> P n' p' = Some b' /\ b' <> b).
  { intros n' p' b'. unfold pu. destruct (at2 n p n' p') as [|Z]; [discriminate|]. intros X; split; auto.
    intros ->. destruct (C2 _ _ _ _ _ E X); subst; tauto. }
  split; [split; [|split; [|split]]|].
  - intros n' p' b' X. destruct (D _ _ _ X). rewrite fupd_other by auto. eauto.
  - intros n1 p1 n2 p2 b' X Y. destruct (D _ _ _ X), (D _ _ _ Y). eauto.
  - intros b' X. destruct (Nat.eq_dec b' b) as [->|N]; [rewrite fupd_same in X; congruence|]. rewrite fupd_other in X by auto.
    destruct (C3 _ X) as (n' & p' & Y). exists n', p'. unfold pu. destruct (at2 n p n' p') as [[-> ->]|]; [congruence|auto].
  - intros b' X. destruct (Nat.eq_dec b' b) as [->|N]; [rewrite fupd_same in X; congruence|]. rewrite fupd_other in X by auto. auto.
  - intros n' p'. unfold cu, cont. specialize (D n' p'). unfold pu in *. destruct (at2 n p n' p'); auto.
    destruct (P n' p') as [b'|]; auto. destruct (D b' eq_refl). now rewrite fupd_other.
Qed.
Lemma clean_new P bk nx n p x : clean P bk nx -> P n p = None ->
  clean (pu P n p (Some nx)) (fupd bk nx (Some x)) (S nx) /\
  forall n' p', cont (pu P n p (Some nx)) (fupd bk nx (Some x)) n' p' = cu (cont P bk) n p (Some x) n' p'.
Proof.
  intros (C1 & C2 & C3 & C4) E.
  assert (F : forall n' p' b, P n' p' = Some b -> b <> nx).
  { intros n' p' b X ->. apply C1 in X. apply C4 in X. lia. }
  split; [split; [|split; [|split]]|].
  - intros n' p' b X. unfold pu in X. destruct (at2 n p n' p') as [|Z].
    + injection X as <-. rewrite fupd_same. discriminate.
    + rewrite fupd_other by eauto. eauto.
  - intros n1 p1 n2 p2 b X Y. unfold pu in *. destruct (at2 n p n1 p1) as [[-> ->]|Z1], (at2 n p n2 p2) as [[-> ->]|Z2]; eauto.
    + injection X as <-. now apply F in Y.
    + injection Y as <-. now apply F in X.
  - intros b X. destruct (Nat.eq_dec b nx) as [->|N].
    + exists n, p. unfold pu. destruct (at2 n p n p); tauto.
    + rewrite fupd_other in X by auto. destruct (C3 _ X) as (n' & p' & Y). exists n', p'. unfold pu.
      destruct (at2 n p n' p') as [[-> ->]|]; [congruence|auto].
  - intros b X. destruct (Nat.eq_dec b nx) as [->|N]; [lia|]. rewrite fupd_other in X by auto. apply C4 in X. lia.
  - intros n' p'. unfold cu, cont, pu. destruct (at2 n p n' p'); [apply fupd_same|].
    destruct (P n' p') as [b|] eqn:Y; auto. apply fupd_other. eauto.
Qed.
Lemma clean_swap P bk nx n m p : clean P bk nx ->
  clean (pu (pu P n p (P m p)) m p (P n p)) bk nx /\
  forall n' p', cont (pu (pu P n p (P m p)) m p (P n p)) bk n' p' = cu (cu (cont P bk) n p (cont P bk m p)) m p (cont P bk n p) n' p'.
Proof.
  intros (C1 & C2 & C3 & C4).
  set (t := fun n' p' => if at2 m p n' p' then (n, p) else if at2 n p n' p' then (m, p) else (n', p')).
  assert (Q : forall n' p', pu (pu P n p (P m p)) m p (P n p) n' p' = P (fst (t n' p')) (snd (t n' p'))).
  { intros n' p'. unfold pu, t. destruct (at2 m p n' p'); auto. destruct (at2 n p n' p'); auto. }
  assert (TT : forall n' p', t (fst (t n' p')) (snd (t n' p')) = (n', p')).
  { intros n' p'. unfold t. destruct (at2 m p n' p') as [[-> ->]|Z1]; cbn [fst snd].
    - destruct (at2 m p n p) as [[-> _]|]; [auto|]. destruct (at2 n p n p); auto. tauto.
    - destruct (at2 n p n' p') as [[-> ->]|Z2]; cbn [fst snd].
      + destruct (at2 m p m p); auto; tauto.
      + destruct (at2 m p n' p'); [tauto|]. destruct (at2 n p n' p'); tauto. }
  split; [split; [|split; [|split]]|]; auto.
  - intros n' p' b. rewrite Q. apply C1.
  - intros n1 p1 n2 p2 b. rewrite !Q. intros X Y. destruct (C2 _ _ _ _ _ X Y) as [E1 E2].
    assert (Z : (n1, p1) = (n2, p2)) by (rewrite <- (TT n1 p1), <- (TT n2 p2); now rewrite E1, E2).
    injection Z; auto.
  - intros b X. destruct (C3 b X) as (n' & p' & Y). exists (fst (t n' p')), (snd (t n' p')). rewrite Q, TT. exact Y.
  - intros n' p'. unfold cont at 1. rewrite Q. unfold cu, cont, t. destruct (at2 m p n' p'); auto. destruct (at2 n p n' p'); auto.
Qed.

(** ** states *)
Definition pof (st : mem) : ptrs := fun n p => match objs B st n with Some o => pt B o p | None => None end.
Definition kof (st : mem) := cont (pof st) (blk B st).
Definition good (st : mem) : Prop := clean (pof st) (blk B st) (nxt B st).
Definition aval := (option B * (nat -> option B))%type.
Definition absr (st : mem) (A : nat -> option aval) : Prop := good st /\ forall n,
  match objs B st n, A n with
  | None, None => True
  | Some o, Some (s, g) => sc B o = s /\ forall p, kof st n p = g p
  | _, _ => False
  end.
Definition au (A : nat -> option aval) n x : nat -> option aval := fupd A n x.

Lemma absr_some st A n s g : absr st A -> A n = Some (s, g) -> exists o, objs B st n = Some o /\ sc B o = s /\ forall p, kof st n p = g p.
Proof. intros [_ H] E. specialize (H n). rewrite E in H. destruct (objs B st n) as [o|]; [|tauto]. destruct H. eauto. Qed.
Lemma pof_seto st n o n' p' : pof (seto B st n (Some o)) n' p' = if n' =? n then pt B o p' else pof st n' p'.
Proof. unfold pof, seto, fupd; cbn. destruct (n' =? n); auto. Qed.

Lemma orun_app l1 l2 st n m : orun B left (l1 ++ l2) st n m = let* st := orun B left l1 st n m in orun B left l2 st n m.
Proof. revert st. induction l1 as [|i l IH]; intros st; cbn [orun app]; auto. destruct (odo B left i st n m); cbn [obind]; auto. Qed.

(** delete [] m_p; m_p = nullptr; *)
Lemma do_del st A n m s g p y : absr st A -> A n = Some (s, g) -> A m = Some y ->
  exists st', orun B left [DelP p; Null p] st n m = Some st' /\ absr st' (au A n (Some (s, fupd g p None))) /\
    (forall o, objs B st' n = Some o -> pt B o p = None).
Proof.
  intros H E E'. destruct (absr_some _ _ _ _ _ H E) as (x & X & Sx & Gx).
  destruct y as [s' g']. destruct (absr_some _ _ _ _ _ H E') as (y & Y & _ & _).
  destruct H as [C H]. cbn [orun]; unfold odo. rewrite X, Y. cbn [obind].
  assert (PX : pof st n p = pt B x p) by (unfold pof; now rewrite X).
  set (bk := match pt B x p with Some b => fupd (blk B st) b None | None => blk B st end).
  set (st2 := seto B (mkmem B bk (nxt B st) (objs B st)) n (Some (setp B x p None))).
  assert (RUN : (let* st0 := match pt B x p with
     | Some b => match blk B st b with Some _ => Some (mkmem B (fupd (blk B st) b None) (nxt B st) (objs B st)) | None => None end
     | None => Some st end in
     let* st1 := (let* x0 := objs B st0 n in let* _ := objs B st0 m in Some (seto B st0 n (Some (setp B x0 p None)))) in Some st1) = Some st2).
  { unfold st2, bk. destruct (pt B x p) as [b|] eqn:PB.
    - destruct C as (C1 & _). specialize (C1 n p b PX).
      destruct (blk B st b); [|congruence]. cbn [obind]. cbn [objs]. rewrite X, Y. reflexivity.
    - cbn [obind]. rewrite X, Y. destruct st; reflexivity. }
  rewrite RUN. exists st2. split; [reflexivity|].
  assert (PE : forall n' p', pof st2 n' p' = pu (pof st) n p None n' p').
  { intros n' p'. unfold st2. rewrite pof_seto. unfold pu. destruct (n' =? n) eqn:N.
    - apply Nat.eqb_eq in N; subst. cbn. destruct (at2 n p n p') as [[_ ->]|Z].
      + now rewrite fupd_same.
      + rewrite fupd_other by tauto. unfold pof. now rewrite X.
    - apply Nat.eqb_neq in N. destruct (at2 n p n' p'); [tauto|]. reflexivity. }
  assert (CK : clean (pu (pof st) n p None) bk (nxt B st) /\ forall n' p', cont (pu (pof st) n p None) bk n' p' = cu (kof st) n p None n' p').
  { unfold bk. destruct (pt B x p) as [b|] eqn:PB.
    - apply clean_del; auto.
    - assert (Q : forall n' p', pof st n' p' = pu (pof st) n p None n' p').
      { intros n' p'. unfold pu. destruct (at2 n p n' p') as [[-> ->]|]; auto. }
      split; [eapply clean_ext; eauto|]. intros n' p'. unfold cont, cu, kof, cont. rewrite <- Q. destruct (at2 n p n' p') as [[-> ->]|]; auto; try (now rewrite PX). }
  destruct CK as [CC CK].
  split; [split|].
  - unfold good. apply (clean_ext (pu (pof st) n p None)); [intros; symmetry; apply PE|exact CC].
  - intros n'. unfold au, fupd. cbn [objs st2 seto]. unfold fupd. specialize (H n').
    assert (KE : forall p', kof st2 n' p' = cu (kof st) n p None n' p').
    { intros p'. rewrite <- CK. unfold kof, cont. rewrite PE. reflexivity. }
    destruct (n' =? n) eqn:N.
    + apply Nat.eqb_eq in N; subst. split; auto. intros p'. rewrite KE. unfold cu.
      destruct (at2 n p n p') as [[_ ->]|Z]; [now rewrite Nat.eqb_refl|].
      destruct (p' =? p) eqn:Q; [apply Nat.eqb_eq in Q; tauto|auto].
    + apply Nat.eqb_neq in N. destruct (objs B st n') as [o|], (A n') as [[s1 g1]|]; auto. destruct H; split; auto.
      intros p'. rewrite KE. unfold cu. destruct (at2 n p n' p'); [tauto|auto].
  - intros o. unfold st2. cbn [objs seto]. rewrite fupd_same. intros Z; injection Z as <-. cbn. apply fupd_same.
Qed.
(** if (o.m_p != nullptr) copy, when m_p is null *)
Lemma do_new st A n m s g s' g' p : absr st A -> n <> m -> A n = Some (s, g) -> A m = Some (s', g') ->
  (forall o, objs B st n = Some o -> pt B o p = None) ->
  exists st', orun B left [NewCp p] st n m = Some st' /\ absr st' (au A n (Some (s, fupd g p (g' p)))).
Proof.
  intros H NM E E' NU. destruct (absr_some _ _ _ _ _ H E) as (x & X & Sx & Gx).
  destruct (absr_some _ _ _ _ _ H E') as (y & Y & Sy & Gy).
  destruct H as [C H]. cbn [orun]; unfold odo. rewrite X, Y. cbn [obind]. specialize (NU x X).
  assert (PX : pof st n p = None) by (unfold pof; now rewrite X).
  assert (PY : pof st m p = pt B y p) by (unfold pof; now rewrite Y).
  specialize (Gy p). unfold kof, cont in Gy. rewrite PY in Gy.
  destruct (pt B y p) as [b|] eqn:PB.
  - assert (BK : blk B st b <> None) by (destruct C as (C1 & _); apply (C1 m p b PY)).
    destruct (blk B st b) as [z|] eqn:Z; [|congruence]. cbn [obind]. eexists; split; [reflexivity|].
    set (st2 := seto B (alloc B st z) n (Some (setp B x p (Some (nxt B st))))).
    destruct (clean_new _ _ _ n p z C PX) as [CC CK].
    assert (PE : forall n' p', pof st2 n' p' = pu (pof st) n p (Some (nxt B st)) n' p').
    { intros n' p'. unfold st2. rewrite pof_seto. unfold pu. destruct (n' =? n) eqn:N.
      - apply Nat.eqb_eq in N; subst. cbn. destruct (at2 n p n p') as [[_ ->]|W].
        + now rewrite fupd_same.
        + rewrite fupd_other by tauto. unfold pof. now rewrite X.
      - apply Nat.eqb_neq in N. destruct (at2 n p n' p'); [tauto|]. reflexivity. }
    split.
    + unfold good. eapply clean_ext; [intros; symmetry; apply PE|exact CC].
    + intros n'. unfold au, fupd. cbn [objs st2 seto]. unfold fupd. cbn [objs alloc]. specialize (H n').
      assert (KE : forall p', kof st2 n' p' = cu (kof st) n p (Some z) n' p').
      { intros p'. rewrite <- CK. unfold kof, cont. rewrite PE. reflexivity. }
      destruct (n' =? n) eqn:N.
      * apply Nat.eqb_eq in N; subst. split; auto. intros p'. rewrite KE. unfold cu.
        destruct (at2 n p n p') as [[_ ->]|W]; [now rewrite Nat.eqb_refl|].
        destruct (p' =? p) eqn:Q; [apply Nat.eqb_eq in Q; tauto|auto].
      * apply Nat.eqb_neq in N. destruct (objs B st n') as [o|], (A n') as [[s1 g1]|]; auto. destruct H; split; auto.
        intros p'. rewrite KE. unfold cu. destruct (at2 n p n' p'); [tauto|auto].
  - exists st; split; auto. split; auto. intros n'. unfold au, fupd. specialize (H n'). destruct (n' =? n) eqn:N; auto.
    apply Nat.eqb_eq in N; subst. rewrite X. rewrite X, E in H. destruct H; split; auto. intros p'.
    destruct (p' =? p) eqn:Q; auto. apply Nat.eqb_eq in Q; subst. rewrite <- Gy. unfold kof, cont. now rewrite PX.
Qed.
(** std::swap(m_p, o.m_p) *)
Lemma do_swp st A n m s g s' g' p : absr st A -> n <> m -> A n = Some (s, g) -> A m = Some (s', g') ->
  exists st', orun B left [SwP p] st n m = Some st' /\
    absr st' (au (au A n (Some (s, fupd g p (g' p)))) m (Some (s', fupd g' p (g p)))) /\
    (forall x y, objs B st n = Some x -> objs B st m = Some y -> 
       st' = seto B (seto B st n (Some (setp B x p (pt B y p)))) m (Some (setp B y p (pt B x p)))).
Proof.
  intros H NM E E'. destruct (absr_some _ _ _ _ _ H E) as (x & X & Sx & Gx).
  destruct (absr_some _ _ _ _ _ H E') as (y & Y & Sy & Gy).
  destruct H as [C H]. cbn [orun]; unfold odo. rewrite X, Y. cbn [obind seto objs]. rewrite fupd_other by auto. rewrite Y. cbn [obind].
  eexists; split; [reflexivity|].
  assert (PX : pof st n p = pt B x p) by (unfold pof; now rewrite X).
  assert (PY : pof st m p = pt B y p) by (unfold pof; now rewrite Y).
  split; [|intros x' y' X' Y'; injection X' as <-; injection Y' as <-; reflexivity].
  set (st2 := seto B _ m _).
  destruct (clean_swap _ _ _ n m p C) as [CC CK].
  assert (PE : forall n' p', pof st2 n' p' = pu (pu (pof st) n p (pof st m p)) m p (pof st n p) n' p').
  { intros n' p'. unfold pu. rewrite PX, PY. unfold pof at 1. unfold st2, seto. cbn [objs]. unfold fupd at 1. destruct (n' =? m) eqn:M.
    - apply Nat.eqb_eq in M; subst n'. cbn. destruct (at2 m p m p') as [[_ ->]|Z]; [apply fupd_same|].
      rewrite fupd_other by tauto. destruct (at2 n p m p'); [exfalso; intuition congruence|]. unfold pof. now rewrite Y.
    - apply Nat.eqb_neq in M. destruct (at2 m p n' p'); [tauto|]. unfold fupd. destruct (n' =? n) eqn:N.
      + apply Nat.eqb_eq in N; subst n'. cbn. unfold fupd. destruct (at2 n p n p') as [[_ ->]|Z]; [now rewrite Nat.eqb_refl|].
        destruct (p' =? p) eqn:Q; [apply Nat.eqb_eq in Q; tauto|]. unfold pof. now rewrite X.
      + apply Nat.eqb_neq in N. destruct (at2 n p n' p'); [tauto|]. reflexivity. }
  split.
  - unfold good. eapply clean_ext; [intros; symmetry; apply PE|exact CC].
  - intros n'. specialize (H n').
    assert (KE : forall p', kof st2 n' p' = cu (cu (kof st) n p (kof st m p)) m p (kof st n p) n' p').
    { intros p'. unfold kof at 2 3 4. rewrite <- CK. unfold kof, cont. rewrite PE. reflexivity. }
    unfold au, fupd. unfold st2 at 1. unfold seto at 1 2. cbn [objs]. unfold fupd. destruct (n' =? m) eqn:M.
    + apply Nat.eqb_eq in M; subst n'. split; auto. intros p'. rewrite KE. unfold cu.
      destruct (at2 m p m p') as [[_ ->]|Z]; [now rewrite Nat.eqb_refl|].
      destruct (at2 n p m p'); [exfalso; intuition congruence|].
      destruct (p' =? p) eqn:Q; [apply Nat.eqb_eq in Q; tauto|auto].
    + apply Nat.eqb_neq in M. destruct (n' =? n) eqn:N.
      * apply Nat.eqb_eq in N; subst n'. split; auto. intros p'. rewrite KE. unfold cu.
        destruct (at2 m p n p'); [tauto|]. destruct (at2 n p n p') as [[_ ->]|Z]; [now rewrite Nat.eqb_refl|].
        destruct (p' =? p) eqn:Q; [apply Nat.eqb_eq in Q; tauto|auto].
      * apply Nat.eqb_neq in N. destruct (objs B st n') as [o|], (A n') as [[s1 g1]|]; auto. destruct H; split; auto.
        intros p'. rewrite KE. unfold cu. destruct (at2 m p n' p'); [tauto|]. destruct (at2 n p n' p'); [tauto|]. auto.
Qed.

Lemma absr_ext st st' A : absr st A -> blk B st' = blk B st -> nxt B st' = nxt B st ->
  (forall n, match objs B st n, objs B st' n with
             | Some o, Some o' => sc B o = sc B o' /\ forall p, pt B o p = pt B o' p
             | None, None => True
             | _, _ => False
             end) -> absr st' A.
Proof.
  intros [C H] E1 E2 E3.
  assert (PE : forall n p, pof st n p = pof st' n p).
  { intros n p. unfold pof. specialize (E3 n). destruct (objs B st n), (objs B st' n); try tauto. apply E3. }
  split.
  - unfold good. rewrite E1, E2. eapply clean_ext; eauto.
  - intros n. specialize (H n). specialize (E3 n).
    assert (KE : forall p, kof st' n p = kof st n p) by (intros p; unfold kof, cont; rewrite E1, PE; auto).
    destruct (objs B st n), (objs B st' n), (A n) as [[s g]|]; try tauto. destruct H as [H1 H2], E3 as [E3 _]. split; [congruence|].
    intros p. now rewrite KE.
Qed.
Lemma absr_ext_A st A A' : absr st A -> (forall n, match A n, A' n with
    | Some (s, g), Some (s', g') => s = s' /\ forall p, g p = g' p | None, None => True | _, _ => False end) -> absr st A'.
Proof.
  intros [C H] E. split; auto. intros n. specialize (H n). specialize (E n).
  destruct (objs B st n), (A n) as [[s g]|], (A' n) as [[s' g']|]; try tauto. destruct H, E. split; [congruence|]. intros p. now rewrite H0.
Qed.
Lemma absr_sets st A n x s g s2 : absr st A -> objs B st n = Some x -> A n = Some (s, g) ->
  absr (seto B st n (Some (sets B x s2))) (au A n (Some (s2, g))).
Proof.
  intros [C H] X E.
  assert (PE : forall n' p, pof st n' p = pof (seto B st n (Some (sets B x s2))) n' p).
  { intros n' p. rewrite pof_seto. destruct (n' =? n) eqn:N; auto. apply Nat.eqb_eq in N; subst. unfold pof. now rewrite X. }
  split.
  - unfold good. eapply clean_ext; eauto.
  - intros n'. assert (KE : forall p, kof (seto B st n (Some (sets B x s2))) n' p = kof st n' p).
    { intros p. unfold kof, cont. rewrite <- PE. reflexivity. }
    specialize (H n'). unfold au, fupd. unfold seto at 1; cbn [objs]. unfold fupd. destruct (n' =? n) eqn:N.
    + apply Nat.eqb_eq in N; subst. rewrite X, E in H. split; auto. intros p. rewrite KE. apply H.
    + destruct (objs B st n'), (A n') as [[s1 g1]|]; auto. destruct H; split; auto. intros p. rewrite KE. auto.
Qed.
Lemma au_same A n x : au A n x n = x.
Proof. apply fupd_same. Qed.
Lemma au_other A n x k : k <> n -> au A n x k = A k.
Proof. apply fupd_other. Qed.
Ltac aus := repeat (first [rewrite au_same | rewrite au_other by (first [assumption | congruence])]).

(** the result of a piece of a member on the values of the two objects *)
Definition step (l : list ostmt) (r : aval -> aval -> aval * aval) : Prop :=
  forall st A n m x y, absr st A -> n <> m -> A n = Some x -> A m = Some y ->
  exists st' A', orun B left l st n m = Some st' /\ absr st' A' /\ A' n = Some (fst (r x y)) /\ A' m = Some (snd (r x y)) /\
    forall k, k <> n -> k <> m -> A' k = A k.
Lemma step_app l1 l2 r1 r2 : step l1 r1 -> step l2 r2 -> step (l1 ++ l2) (fun x y => r2 (fst (r1 x y)) (snd (r1 x y))).
Proof.
  intros S1 S2 st A n m x y H N E E'. destruct (S1 st A n m x y H N E E') as (st1 & A1 & R1 & H1 & X1 & Y1 & F1).
  destruct (S2 st1 A1 n m _ _ H1 N X1 Y1) as (st2 & A2 & R2 & H2 & X2 & Y2 & F2).
  exists st2, A2. rewrite orun_app, R1. cbn [obind]. (spl; auto). intros k K K'. rewrite F2, F1; auto.
Qed.
Lemma step_cps : step [CpS] (fun x y => ((fst y, snd x), y)).
Proof.
  intros st A n m [s g] [s' g'] H N E E'. destruct (absr_some _ _ _ _ _ H E) as (x & X & _ & _).
  destruct (absr_some _ _ _ _ _ H E') as (y & Y & Sy & _). cbn [orun]; unfold odo. rewrite X, Y. cbn [obind fst snd].
  rewrite Sy. exists (seto B st n (Some (sets B x s'))), (au A n (Some (s', g))).
  split; [reflexivity|]. split; [apply (absr_sets st A n x s g); auto|]. aus. (spl; auto).
  intros; aus; auto.
Qed.
Lemma step_mvs : step [MvS] (fun x y => ((fst y, snd x), (left (fst y), snd y))).
Proof.
  intros st A n m [s g] [s' g'] H N E E'. destruct (absr_some _ _ _ _ _ H E) as (x & X & _ & _).
  destruct (absr_some _ _ _ _ _ H E') as (y & Y & Sy & _). cbn [orun]; unfold odo. rewrite X, Y. cbn [obind fst snd].
  unfold seto at 1; cbn [objs]. rewrite fupd_other by auto. rewrite Y. cbn [obind]. rewrite Sy.
  assert (H1 : absr (seto B st n (Some (sets B x s'))) (au A n (Some (s', g)))) by (apply (absr_sets st A n x s g); auto).
  eexists _, (au (au A n (Some (s', g))) m (Some ((left s'), g'))). split; [reflexivity|]. split; [apply (absr_sets _ _ m y s' g' (left s') H1)|]; aus; auto.
  { unfold seto; cbn [objs]. rewrite fupd_other; auto. }
  (spl; auto). intros; aus; auto.
Qed.
Lemma step_sws : step [SwS] (fun x y => ((fst y, snd x), (fst x, snd y))).
Proof.
  intros st A n m [s g] [s' g'] H N E E'. destruct (absr_some _ _ _ _ _ H E) as (x & X & Sx & _).
  destruct (absr_some _ _ _ _ _ H E') as (y & Y & Sy & _). cbn [orun]; unfold odo. rewrite X, Y. cbn [obind fst snd].
  unfold seto at 1; cbn [objs]. rewrite fupd_other by auto. rewrite Y. cbn [obind]. rewrite Sy, Sx.
  assert (H1 : absr (seto B st n (Some (sets B x s'))) (au A n (Some (s', g)))) by (apply (absr_sets st A n x s g); auto).
  eexists _, (au (au A n (Some (s', g))) m (Some (s, g'))). split; [reflexivity|]. split; [apply (absr_sets _ _ m y s' g' s H1)|]; aus; auto.
  { unfold seto; cbn [objs]. rewrite fupd_other; auto. }
  (spl; auto). intros; aus; auto.
Qed.
Lemma step_cpp p : step [DelP p; Null p; NewCp p] (fun x y => ((fst x, fupd (fupd (snd x) p None) p (snd y p)), y)).
Proof.
  intros st A n m [s g] [s' g'] H N E E'. cbn [fst snd].
  destruct (do_del st A n m s g p _ H E E') as (st1 & R1 & H1 & NU).
  destruct (do_new st1 _ n m s (fupd g p None) s' g' p H1 N) as (st2 & R2 & H2); aus; auto.
  eexists st2, _. change [DelP p; Null p; NewCp p] with ([DelP p; Null p] ++ [NewCp p]). rewrite orun_app, R1. cbn [obind].
  split; [exact R2|]. split; [exact H2|]. aus. (spl; auto). intros; aus; auto.
Qed.
Lemma step_swp p : step [SwP p] (fun x y => ((fst x, fupd (snd x) p (snd y p)), (fst y, fupd (snd y) p (snd x p)))).
Proof.
  intros st A n m [s g] [s' g'] H N E E'. cbn [fst snd].
  destruct (do_swp st A n m s g s' g' p H N E E') as (st1 & R1 & H1 & _).
  eexists st1, _. split; [exact R1|]. split; [exact H1|]. aus. (spl; auto). intros; aus; auto.
Qed.
Lemma step_mvp p : step [DelP p; PtrP p; NullO p]
  (fun x y => ((fst x, fupd (fupd (snd x) p None) p (snd y p)), (fst y, fupd (snd y) p (fupd (snd x) p None p)))).
Proof.
  intros st A n m [s g] [s' g'] H N E E'. cbn [fst snd].
  destruct (absr_some _ _ _ _ _ H E) as (x & X & Sx & _).
  destruct (absr_some _ _ _ _ _ H E') as (y & Y & Sy & _).
  destruct (do_del st A n m s g p _ H E E') as (st1 & R1 & H1 & NU).
  destruct (do_swp st1 _ n m s (fupd g p None) s' g' p H1 N) as (st2 & R2 & H2 & Q); aus; auto.
  (* the state after DelP *)
  assert (D : exists st0, odo B left (DelP p) st n m = Some st0 /\ objs B st0 = objs B st).
  { unfold odo in *. cbn [orun] in R1. unfold odo in R1. rewrite X, Y in *. cbn [obind] in *. destruct (pt B x p); eauto.
    destruct (blk B st n0); eauto. discriminate. }
  destruct D as (st0 & D & O0).
  assert (R1' : st1 = seto B st0 n (Some (setp B x p None))).
  { cbn [orun] in R1. rewrite D in R1. cbn [obind] in R1. unfold odo in R1. rewrite O0, X, Y in R1. cbn [obind] in R1. now injection R1. }
  assert (X1 : objs B st1 n = Some (setp B x p None)) by (subst st1; unfold seto; cbn [objs]; apply fupd_same).
  assert (Y1 : objs B st1 m = Some y) by (subst st1; unfold seto; cbn [objs]; rewrite fupd_other by auto; congruence).
  specialize (Q _ _ X1 Y1).
  set (st3 := seto B (seto B st0 n (Some (setp B x p (pt B y p)))) m (Some (setp B y p None))).
  exists st3, (au (au (au A n (Some (s, fupd g p None))) n (Some (s, fupd (fupd g p None) p (g' p)))) m (Some (s', fupd g' p (fupd g p None p)))).
  split.
  { cbn [orun]. rewrite D. cbn [obind]. unfold odo. rewrite O0, X, Y. cbn [obind]. unfold seto at 1 2 3; cbn [objs].
    rewrite fupd_same, fupd_other, O0, Y by auto. reflexivity. }
  split; [|aus; (spl; auto); intros; aus; auto].
  eapply (absr_ext st2); [exact H2|subst st2 st1; reflexivity|subst st2 st1; reflexivity|].
  intros k. subst st2 st1. unfold st3, seto; cbn [objs]. rewrite O0. unfold fupd. destruct (k =? m) eqn:M.
  - split; auto. intros p'. cbn. unfold fupd. destruct (p' =? p); auto. now rewrite Nat.eqb_refl.
  - destruct (k =? n) eqn:K.
    + split; auto. intros p'. cbn. unfold fupd. destruct (p' =? p); auto.
    + destruct (objs B st k); auto.
Qed.

(** ** single objects *)
Lemma absr_blank st A n s : absr st A -> A n = None -> absr (seto B st n (Some (mkoobj B s (fun _ => None)))) (au A n (Some (s, fun _ => None))).
Proof.
  intros [C H] E.
  assert (X : objs B st n = None) by (specialize (H n); rewrite E in H; destruct (objs B st n); tauto).
  assert (PE : forall n' p, pof st n' p = pof (seto B st n (Some (mkoobj B s (fun _ => None)))) n' p).
  { intros n' p. rewrite pof_seto. destruct (n' =? n) eqn:N; auto. apply Nat.eqb_eq in N; subst. unfold pof. now rewrite X. }
  split.
  - unfold good. eapply clean_ext; eauto.
  - intros n'. unfold kof, cont. specialize (H n'). unfold au, fupd. unfold seto at 1; cbn [objs]. unfold fupd. destruct (n' =? n) eqn:N.
    + split; auto. intros p. rewrite <- PE. unfold pof. apply Nat.eqb_eq in N; subst. now rewrite X.
    + destruct (objs B st n'), (A n') as [[s1 g1]|]; auto. destruct H; split; auto. intros p. rewrite <- PE. apply H0.
Qed.
Lemma do_alloc st A n s g p z : absr st A -> A n = Some (s, g) -> (forall o, objs B st n = Some o -> pt B o p = None) ->
  exists o, objs B st n = Some o /\ absr (seto B (alloc B st z) n (Some (setp B o p (Some (nxt B st))))) (au A n (Some (s, fupd g p (Some z)))).
Proof.
  intros H E NU. destruct (absr_some _ _ _ _ _ H E) as (x & X & Sx & Gx). exists x; split; auto. specialize (NU x X).
  destruct H as [C H]. assert (PX : pof st n p = None) by (unfold pof; now rewrite X).
  set (st2 := seto B (alloc B st z) n (Some (setp B x p (Some (nxt B st))))).
  destruct (clean_new _ _ _ n p z C PX) as [CC CK].
  assert (PE : forall n' p', pof st2 n' p' = pu (pof st) n p (Some (nxt B st)) n' p').
  { intros n' p'. unfold st2. rewrite pof_seto. unfold pu. destruct (n' =? n) eqn:N.
    - apply Nat.eqb_eq in N; subst. cbn. destruct (at2 n p n p') as [[_ ->]|W].
      + now rewrite fupd_same.
      + rewrite fupd_other by tauto. unfold pof. now rewrite X.
    - apply Nat.eqb_neq in N. destruct (at2 n p n' p'); [tauto|]. reflexivity. }
  split.
  + unfold good. eapply clean_ext; [intros; symmetry; apply PE|exact CC].
  + intros n'. unfold au, fupd. cbn [objs st2 seto]. unfold fupd. cbn [objs alloc]. specialize (H n').
    assert (KE : forall p', kof st2 n' p' = cu (kof st) n p (Some z) n' p').
    { intros p'. rewrite <- CK. unfold kof, cont. rewrite PE. reflexivity. }
    destruct (n' =? n) eqn:N.
    * apply Nat.eqb_eq in N; subst. split; auto. intros p'. rewrite KE. unfold cu.
      destruct (at2 n p n p') as [[_ ->]|W]; [now rewrite Nat.eqb_refl|].
      destruct (p' =? p) eqn:Q; [apply Nat.eqb_eq in Q; tauto|auto].
    * apply Nat.eqb_neq in N. destruct (objs B st n') as [o|], (A n') as [[s1 g1]|]; auto. destruct H; split; auto.
      intros p'. rewrite KE. unfold cu. destruct (at2 n p n' p'); [tauto|auto].
Qed.
Lemma made_ok q : forall st A n s v, absr st A -> A n = None ->
  exists st' g, made_ptrs B q (seto B st n (Some (mkoobj B s (fun _ => None)))) n v = Some st' /\ absr st' (au (au A n (Some (s, fun _ => None))) n (Some (s, g))) /\
    (forall p, p < q -> g p = v p) /\ (forall o p, objs B st' n = Some o -> q <= p -> pt B o p = None).
Proof.
  induction q as [|q IH]; intros st A n s v H E; cbn [made_ptrs].
  - pose proof (absr_blank st A n s H E) as H1. eexists _, (fun _ => None). split; [reflexivity|]. split; [|split].
    + eapply absr_ext_A; [exact H1|]. intros k. unfold au, fupd. destruct (k =? n); auto. destruct (A k) as [[? ?]|]; auto.
    + lia.
    + intros o p. unfold seto; cbn [objs]. rewrite fupd_same. intros X; injection X as <-. reflexivity.
  - destruct (IH st A n s v H E) as (st1 & g & R1 & H1 & G1 & N1). rewrite R1. cbn [obind]. destruct (v q) as [z|] eqn:Z.
    + destruct (do_alloc st1 _ n s g q z H1 (au_same _ _ _)) as (o & O & H2); [intros o O; apply (N1 o q O); lia|].
      rewrite O. cbn [obind]. eexists _, (fupd g q (Some z)). split; [reflexivity|]. split; [|split].
      * eapply absr_ext_A; [exact H2|]. intros k. unfold au, fupd. destruct (k =? n); auto. destruct (A k) as [[? ?]|]; auto.
      * intros p P. unfold fupd. destruct (p =? q) eqn:Q; [apply Nat.eqb_eq in Q; subst; auto|apply Nat.eqb_neq in Q; apply G1; lia].
      * intros o' p. unfold seto; cbn [objs]. rewrite fupd_same. intros X P; injection X as <-. cbn. rewrite fupd_other by lia. apply (N1 o p O). lia.
    + exists st1, (fupd g q None). split; auto. split; [|split].
      * eapply absr_ext_A; [exact H1|]. intros k. unfold au, fupd. destruct (k =? n); [|destruct (A k) as [[? ?]|]; auto]. split; auto.
        destruct H1 as [_ H1]. specialize (H1 n). rewrite au_same in H1. destruct (objs B st1 n) as [o|] eqn:O; [|tauto].
        intros p. destruct (p =? q) eqn:Q; auto. apply Nat.eqb_eq in Q; subst. destruct H1 as [_ H1]. rewrite <- H1. unfold kof, cont, pof. rewrite O.
        now rewrite (N1 o q eq_refl (le_n _)).
      * intros p P. unfold fupd. destruct (p =? q) eqn:Q; [apply Nat.eqb_eq in Q; subst; auto|apply Nat.eqb_neq in Q; apply G1; lia].
      * intros o p O P. apply (N1 o p O). lia.
Qed.

Lemma self_step i st A n y : i = SwS \/ (exists p, i = SwP p) -> absr st A -> A n = Some y ->
  exists st', orun B left [i] st n n = Some st' /\ absr st' A.
Proof.
  intros I H E. destruct y as [s g]. destruct (absr_some _ _ _ _ _ H E) as (x & X & Sx & _).
  assert (Q : exists o1 o', orun B left [i] st n n = Some (seto B (seto B st n (Some o1)) n (Some o')) /\ sc B o' = sc B x /\ forall p, pt B o' p = pt B x p).
  { cbn [orun]. unfold odo. rewrite X. cbn [obind]. destruct I as [->|[p ->]]; unfold seto at 1; cbn [objs]; rewrite fupd_same; cbn [obind].
    - eexists _, _; split; [reflexivity|]. split; auto.
    - eexists _, (setp B (setp B x p (pt B x p)) p (pt B x p)). split.
      + reflexivity.
      + split; auto. intros p'. cbn. unfold fupd. destruct (p' =? p) eqn:P; auto. apply Nat.eqb_eq in P; now subst. }
  destruct Q as (o1 & o' & R & E1 & E2). eexists; split; [exact R|]. eapply absr_ext; [exact H|reflexivity|reflexivity|].
  intros k. unfold seto; cbn [objs]. unfold fupd. destruct (k =? n) eqn:K.
  - apply Nat.eqb_eq in K; subst. rewrite X. auto.
  - destruct (objs B st k); auto.
Qed.

(** the destructor: the pointers are deleted one after the other, then the object is gone *)
Definition lag (st st1 : mem) n (ps : list nat) : Prop :=
  blk B st = blk B st1 /\ nxt B st = nxt B st1 /\ (forall k, k <> n -> objs B st k = objs B st1 k) /\
  exists x x1, objs B st n = Some x /\ objs B st1 n = Some x1 /\ forall p, In p ps -> pt B x p = pt B x1 p.
Lemma del_list ps : forall st st1 A n s g, NoDup ps -> absr st1 A -> A n = Some (s, g) -> lag st st1 n ps ->
  exists st' st1' g' A', orun B left (map DelP ps) st n n = Some st' /\ absr st1' A' /\ A' n = Some (s, g') /\ lag st' st1' n [] /\
    (forall p, In p ps \/ g p = None -> g' p = None) /\ (forall k, k <> n -> A' k = A k).
Proof.
  induction ps as [|p ps IH]; intros st st1 A n s g ND H E L; cbn [map].
  - exists st, st1, g, A. cbn [orun]. destruct L as (L1 & L2 & L3 & x & x1 & X & X1 & _). spl; auto.
    + unfold lag. spl; auto. exists x, x1. spl; auto. intros p [].
    + intros p [[]|]; auto.
  - inversion ND as [|? ? NI ND']; subst. pose proof L as (L1 & L2 & L3 & x & x1 & X & X1 & PE).
    destruct (do_del st1 A n n s g p _ H E E) as (st2 & R & H2 & NU).
    cbn [orun] in *. unfold odo in *. rewrite X1 in R. rewrite X. cbn [obind] in *. rewrite PE by (left; auto).
    assert (STEP : forall sta stb, blk B sta = blk B stb -> nxt B sta = nxt B stb -> objs B sta = objs B st -> objs B stb = objs B st1 ->
      (let* st0 := (let* x0 := objs B stb n in let* _ := objs B stb n in Some (seto B stb n (Some (setp B x0 p None)))) in Some st0) = Some st2 ->
      exists st' st1' g' A', orun B left (map DelP ps) sta n n = Some st' /\ absr st1' A' /\ A' n = Some (s, g') /\ lag st' st1' n [] /\
       (forall q, In q (p :: ps) \/ g q = None -> g' q = None) /\ (forall k, k <> n -> A' k = A k)).
    { intros sta stb F1 F2 F3 F4 RR. rewrite F4, X1 in RR. cbn [obind] in RR. injection RR as <-.
      destruct (IH sta _ _ n s (fupd g p None) ND' H2 (au_same _ _ _)) as (st' & st1' & g' & A' & Q1 & Q2 & Q3 & Q4 & Q5 & Q6).
      - split; auto. split; auto. split.
        + intros k K. unfold seto; cbn [objs]. rewrite fupd_other, F3, F4 by auto. auto.
        + exists x, (setp B x1 p None). split; [congruence|]. split; [unfold seto; cbn [objs]; apply fupd_same|].
          intros q Q. cbn. rewrite fupd_other by (intros ->; auto). apply PE. right; auto.
      - exists st', st1', g', A'. (spl; auto).
        + intros q [[->|I]|G]; apply Q5.
          * right. apply fupd_same.
          * left; auto.
          * right. unfold fupd. destruct (q =? p); auto.
        + intros k K. rewrite Q6 by auto. now apply au_other. }
    destruct (pt B x1 p) as [b|] eqn:PB.
    + rewrite L1. destruct (blk B st1 b) as [z|] eqn:Z; [|discriminate]. cbn [obind] in *.
      eapply STEP; [| | | |exact R]; cbn [blk nxt objs]; auto.
    + cbn [obind] in *. eapply STEP; [| | | |exact R]; auto.
Qed.
Lemma destroy_ok ps st A n s g : NoDup ps -> absr st A -> A n = Some (s, g) -> (forall p, ~ In p ps -> g p = None) ->
  exists st' A', (let* st := orun B left (map DelP ps) st n n in Some (seto B st n None)) = Some st' /\ absr st' A' /\ A' n = None /\
    forall k, k <> n -> A' k = A k.
Proof.
  intros ND H E G. destruct (absr_some _ _ _ _ _ H E) as (x & X & _ & _).
  destruct (del_list ps st st A n s g ND H E) as (st' & st1 & g' & A' & R & H1 & E1 & L & G' & F).
  { unfold lag. spl; auto. exists x, x; auto. }
  rewrite R. cbn [obind]. exists (seto B st' n None), (au A' n None). split; auto. split; [|split; [apply au_same|intros; rewrite au_other by auto; auto]].
  destruct L as (L1 & L2 & L3 & y & y1 & Y & Y1 & _). destruct H1 as [C H1].
  assert (Z : forall p, pof st1 n p = None).
  { intros p. specialize (H1 n). rewrite E1, Y1 in H1. destruct H1 as [_ H1]. specialize (H1 p).
    rewrite (G' p) in H1 by (destruct (in_dec Nat.eq_dec p ps); auto). unfold kof, cont in H1.
    destruct (pof st1 n p) as [b|] eqn:P; auto. destruct C as (C1 & _). apply C1 in P. congruence. }
  assert (PE : forall n' p, pof st1 n' p = pof (seto B st' n None) n' p).
  { intros n' p. unfold pof at 2. unfold seto; cbn [objs]. unfold fupd. destruct (n' =? n) eqn:N.
    - apply Nat.eqb_eq in N; subst. apply Z.
    - apply Nat.eqb_neq in N. rewrite L3 by auto. reflexivity. }
  split.
  - unfold good. cbn [seto blk nxt]. rewrite L1, L2. eapply clean_ext; eauto.
  - intros k. assert (KE : forall p, kof (seto B st' n None) k p = kof st1 k p).
    { intros p. unfold kof, cont. rewrite <- PE. cbn [seto blk]. now rewrite L1. }
    specialize (H1 k). unfold au, fupd. unfold seto at 1; cbn [objs]. unfold fupd. destruct (k =? n) eqn:N; auto.
    apply Nat.eqb_neq in N. rewrite L3 by auto. destruct (objs B st1 k), (A' k) as [[s1 g1]|]; auto. destruct H1; split; auto.
    intros p. rewrite KE. auto.
Qed.

(** ** histories *)
Section Hist.
Variable q : nat.
Definition arel (e : env (option B)) (A : nat -> option aval) : Prop := forall n,
  match A n with
  | None => e n = Dead _
  | Some (s, g) => (forall p, q <= p -> g p = None) /\
    match e n with Dead _ => False | Unspec _ => True | Val _ v => s = v q /\ forall p, p < q -> g p = v p end
  end.
Definition like (t : status (option B)) (x : aval) : Prop :=
  (forall p, q <= p -> snd x p = None) /\
  match t with Dead _ => False | Unspec _ => True | Val _ v => fst x = v q /\ forall p, p < q -> snd x p = v p end.
Lemma arel_like e A n : arel e A -> dead _ e n = false -> exists x, A n = Some x /\ like (e n) x.
Proof.
  intros R D. specialize (R n). unfold dead in D. destruct (A n) as [[s g]|].
  - exists (s, g); split; auto.
  - rewrite R in D. discriminate.
Qed.
Lemma arel_dead e A n : arel e A -> dead _ e n = true -> A n = None.
Proof.
  intros R D. specialize (R n). unfold dead in D. destruct (A n) as [[s g]|]; auto. destruct (e n); try discriminate. tauto.
Qed.
(** two objects change, the others do not *)
Lemma arel_two e A A' n m x y t u : arel e A -> A' n = Some x -> A' m = Some y -> like t x -> like u y ->
  (forall k, k <> n -> k <> m -> A' k = A k) -> n <> m -> arel (put _ (put _ e m u) n t) A'.
Proof.
  intros R E1 E2 L1 L2 F N k. unfold put. destruct (k =? n) eqn:K.
  - apply Nat.eqb_eq in K; subst. rewrite E1. destruct x. exact L1.
  - apply Nat.eqb_neq in K. destruct (k =? m) eqn:M.
    + apply Nat.eqb_eq in M; subst. rewrite E2. destruct y. exact L2.
    + apply Nat.eqb_neq in M. rewrite F by auto. apply R.
Qed.
Lemma like_unspec t x : like t x -> like (Unspec _) x.
Proof. intros [H _]. split; auto. Qed.
Lemma arel_ext e e' A : (forall n, e n = e' n) -> arel e A -> arel e' A.
Proof. intros E R n. rewrite <- E. apply R. Qed.
End Hist.

(** ** select_support_mcl *)
Lemma mcl_copy : exists r, step (o_cc (o_mcl)) r /\ forall t u x y, like 2 u x -> like 2 t y -> like 2 t (fst (r x y)) /\ snd (r x y) = y.
Proof.
  eexists. split; [exact (step_app [CpS] _ _ _ step_cps (step_app _ _ _ _ (step_cpp 0) (step_cpp 1)))|].
  intros t u [s g] [s' g'] [L1 _] [L2 L3]. cbn [fst snd] in *. split; auto. unfold like. cbn [fst snd].
  split.
  - intros p P. do 2 (destruct p as [|p]; [lia|]). cbn. apply L1. lia.
  - destruct t; auto. destruct L3 as [L3 L4]. split; auto. intros p P. do 2 (destruct p as [|p]; [cbn; apply L4; lia|]). lia.
Qed.
Lemma mcl_move : exists r, step (o_ma (o_mcl)) r /\ forall t u x y, like 2 u x -> like 2 t y -> like 2 t (fst (r x y)) /\ like 2 (Unspec _) (snd (r x y)).
Proof.
  eexists. split; [exact (step_app [MvS] _ _ _ step_mvs (step_app _ _ _ _ (step_mvp 0) (step_mvp 1)))|].
  intros t u [s g] [s' g'] [L1 _] [L2 L3]. cbn [fst snd] in *. unfold like. cbn [fst snd]. split; [split|split]; auto.
  - intros p P. do 2 (destruct p as [|p]; [lia|]). cbn. apply L1. lia.
  - destruct t; auto. destruct L3 as [L3 L4]. split; auto. intros p P. do 2 (destruct p as [|p]; [cbn; apply L4; lia|]). lia.
  - intros p P. do 2 (destruct p as [|p]; [lia|]). cbn. apply L2. lia.
Qed.
Lemma mcl_swap : exists r, step (o_sw (o_mcl)) r /\ forall t u x y, like 2 u x -> like 2 t y -> like 2 t (fst (r x y)) /\ like 2 u (snd (r x y)).
Proof.
  eexists. split; [exact (step_app [SwS] _ _ _ step_sws (step_app _ _ _ _ (step_swp 0) (step_swp 1)))|].
  intros t u [s g] [s' g'] [L1 L4] [L2 L3]. cbn [fst snd] in *. unfold like. cbn [fst snd]. split; split.
  - intros p P. do 2 (destruct p as [|p]; [lia|]). cbn. apply L1. lia.
  - destruct t; auto. destruct L3 as [L3 L5]. split; auto. intros p P. do 2 (destruct p as [|p]; [cbn; apply L5; lia|]). lia.
  - intros p P. do 2 (destruct p as [|p]; [lia|]). cbn. apply L2. lia.
  - destruct u; auto. destruct L4 as [L4 L5]. split; auto. intros p P. do 2 (destruct p as [|p]; [cbn; apply L5; lia|]). lia.
Qed.
Lemma put_back (e : env (option B)) n m u : (forall k, put _ (put _ e m (e m)) n u k = put _ e n u k).
Proof. intros k. unfold put. destruct (k =? n); auto. destruct (k =? m) eqn:M; auto. apply Nat.eqb_eq in M; now subst. Qed.
Lemma blank_like : like 2 (Unspec _) (None, fun _ => None).
Proof. split; cbn; auto. Qed.
Lemma arel_blank q e A n : arel q e A -> arel q (put _ e n (Unspec _)) (au A n (Some (None, fun _ => None))).
Proof.
  intros R k. unfold put, au, fupd. destruct (k =? n); [split; auto|apply R].
Qed.
Lemma mcl_step e A st o e' : absr st A -> arel 2 e A -> sem _ e o = Some e' ->
  exists st' A', oexec B left o_mcl st o = Some st' /\ absr st' A' /\ arel 2 e' A'.
Proof.
  intros H R S. destruct mcl_copy as (rc & SC & LC). destruct mcl_move as (rm & SM & LM). destruct mcl_swap as (rs & SS & LS).
  destruct o as [n v|n m|n m|n m|n m|n m|n]; cbn [sem oexec] in *.
  - destruct (dead _ e n) eqn:D; [|discriminate]. injection S as <-. pose proof (arel_dead _ _ _ _ R D) as E.
    destruct (made_ok 2 st A n (v 2) v H E) as (st' & g & Q1 & Q2 & Q3 & Q4). cbn [np o_mcl]. rewrite Q1. eexists _, _. split; [reflexivity|]. split; [exact Q2|].
    intros k. unfold put, au, fupd. destruct (k =? n) eqn:K; [|apply R]. split; auto.
    intros p P. destruct Q2 as [_ Q2]. specialize (Q2 n). rewrite au_same in Q2. destruct (objs B st' n) as [o|] eqn:O; [|tauto].
    destruct Q2 as [_ Q2]. rewrite <- Q2. unfold kof, cont, pof. rewrite O. rewrite (Q4 o p) by auto. reflexivity.
  - destruct (dead _ e n) eqn:D; [|discriminate]. destruct (dead _ e m) eqn:M; [discriminate|]. injection S as <-.
    assert (N : n <> m) by (intros ->; congruence). pose proof (arel_dead _ _ _ _ R D) as E.
    destruct (arel_like _ _ _ _ R M) as (y & Y & Ly). unfold octor.
    pose proof (absr_blank st A n None H E) as H1.
    destruct (SC _ _ n m _ y H1 N (au_same _ _ _)) as (st' & A' & Q1 & Q2 & Q3 & Q4 & Q5); [now rewrite au_other by auto|].
    exists st', A'. split; auto. split; auto. destruct (LC (e m) _ _ y blank_like Ly) as [G1 G2]. rewrite G2 in Q4.
    apply (arel_ext 2 (put _ (put _ (put _ e n (Unspec _)) m (e m)) n (e m))).
    + intros k. unfold put. destruct (k =? n) eqn:K; auto. destruct (k =? m) eqn:Z; auto. apply Nat.eqb_eq in Z; now subst.
    + eapply arel_two; eauto. now apply arel_blank.
  - destruct (dead _ e n) eqn:D; [|discriminate]. destruct (dead _ e m) eqn:M; [discriminate|]. injection S as <-.
    assert (N : n <> m) by (intros ->; congruence). pose proof (arel_dead _ _ _ _ R D) as E.
    destruct (arel_like _ _ _ _ R M) as (y & Y & Ly). unfold octor.
    pose proof (absr_blank st A n None H E) as H1.
    destruct (SM _ _ n m _ y H1 N (au_same _ _ _)) as (st' & A' & Q1 & Q2 & Q3 & Q4 & Q5); [now rewrite au_other by auto|].
    exists st', A'. split; auto. split; auto. destruct (LM (e m) _ _ y blank_like Ly) as [G1 G2].
    apply (arel_ext 2 (put _ (put _ (put _ e n (Unspec _)) m (Unspec _)) n (e m))).
    + intros k. unfold put. destruct (k =? n) eqn:K; auto.
    + eapply arel_two; eauto. now apply arel_blank.
  - destruct (dead _ e n) eqn:D; [discriminate|]. destruct (dead _ e m) eqn:M; [discriminate|]. injection S as <-.
    destruct (arel_like _ _ _ _ R M) as (y & Y & Ly). destruct (arel_like _ _ _ _ R D) as (x & X & Lx). unfold oguard.
    destruct (n =? m) eqn:N.
    + apply Nat.eqb_eq in N; subst. exists st, A. split; auto. split; auto. eapply arel_ext; [|exact R].
      intros k. unfold put. destruct (k =? m) eqn:K; auto. apply Nat.eqb_eq in K; now subst.
    + apply Nat.eqb_neq in N. destruct (SC st A n m x y H N X Y) as (st' & A' & Q1 & Q2 & Q3 & Q4 & Q5).
      exists st', A'. split; auto. split; auto. destruct (LC (e m) _ x y Lx Ly) as [G1 G2]. rewrite G2 in Q4.
      eapply arel_ext; [apply put_back with (m := m)|]. eapply arel_two; eauto.
  - destruct (dead _ e n) eqn:D; [discriminate|]. destruct (dead _ e m) eqn:M; [discriminate|]. injection S as <-.
    destruct (arel_like _ _ _ _ R M) as (y & Y & Ly). destruct (arel_like _ _ _ _ R D) as (x & X & Lx). unfold oguard.
    destruct (n =? m) eqn:N.
    + apply Nat.eqb_eq in N; subst. exists st, A. split; auto. split; auto. eapply arel_ext; [|exact R].
      intros k. unfold put. destruct (k =? m) eqn:K; auto. apply Nat.eqb_eq in K; now subst.
    + apply Nat.eqb_neq in N. destruct (SM st A n m x y H N X Y) as (st' & A' & Q1 & Q2 & Q3 & Q4 & Q5).
      exists st', A'. split; auto. split; auto. destruct (LM (e m) _ x y Lx Ly) as [G1 G2].
      eapply arel_two; eauto.
  - destruct (dead _ e n) eqn:D; [discriminate|]. destruct (dead _ e m) eqn:M; [discriminate|]. injection S as <-.
    destruct (arel_like _ _ _ _ R M) as (y & Y & Ly). destruct (arel_like _ _ _ _ R D) as (x & X & Lx).
    destruct (Nat.eq_dec n m) as [->|N].
    + change (o_sw o_mcl) with ([SwS] ++ [SwP 0] ++ [SwP 1]).
      destruct (self_step SwS st A m y (or_introl eq_refl) H Y) as (s1 & T1 & H1).
      destruct (self_step (SwP 0) s1 A m y (or_intror (ex_intro _ 0 eq_refl)) H1 Y) as (s2 & T2 & H2).
      destruct (self_step (SwP 1) s2 A m y (or_intror (ex_intro _ 1 eq_refl)) H2 Y) as (s3 & T3 & H3).
      rewrite orun_app, T1. cbn [obind]. rewrite orun_app, T2. cbn [obind]. exists s3, A. split; auto. split; auto.
      eapply arel_ext; [|exact R]. intros k. unfold put. destruct (k =? m) eqn:K; auto. apply Nat.eqb_eq in K; now subst.
    + destruct (SS st A n m x y H N X Y) as (st' & A' & Q1 & Q2 & Q3 & Q4 & Q5).
      exists st', A'. split; auto. split; auto. destruct (LS (e m) (e n) x y Lx Ly) as [G1 G2]. eapply arel_two; eauto.
  - destruct (dead _ e n) eqn:D; [discriminate|]. injection S as <-. destruct (arel_like _ _ _ _ R D) as ([s g] & X & [Lx _]).
    destruct (destroy_ok [0; 1] st A n s g) as (st' & A' & Q1 & Q2 & Q3 & Q4); auto.
    { repeat constructor; cbn; intuition congruence. }
    { intros p P. apply Lx. destruct p as [|[|p]]; cbn in P; try tauto. lia. }
    exists st', A'. split; [exact Q1|]. split; auto. intros k. unfold put. destruct (k =? n) eqn:K.
    + apply Nat.eqb_eq in K; subst. now rewrite Q3.
    + apply Nat.eqb_neq in K. rewrite Q4 by auto. apply R.
Qed.
Lemma mcl_steps l : forall e A st e', absr st A -> arel 2 e A -> sems _ e l = Some e' ->
  exists st' A', oexecs B left o_mcl st l = Some st' /\ absr st' A' /\ arel 2 e' A'.
Proof.
  induction l as [|o l IH]; intros e A st e' H R S; cbn [sems oexecs] in *.
  - injection S as <-. eauto.
  - destruct (sem _ e o) as [e1|] eqn:E; [|discriminate]. cbn [obind] in S.
    destruct (mcl_step e A st o e1 H R E) as (s1 & A1 & Q1 & Q2 & Q3). rewrite Q1. cbn [obind]. eauto.
Qed.
Lemma absr_empty : absr (no_mem B) (fun _ => None).
Proof.
  split; [|intros n; exact I]. unfold good, no_mem, pof; cbn. split; [|split; [|split]]; try discriminate; congruence.
Qed.
Lemma mcl_hist l e : sems _ (no_objects _) l = Some e ->
  exists st, oexecs B left o_mcl (no_mem B) l = Some st /\
    (forall n v, e n = Val _ v -> oscalar B st n = Some (v 2) /\ forall p, p < 2 -> oread B st n p = Some (v p)) /\
    (forall b, blk B st b <> None -> exists n o p, e n <> Dead _ /\ objs B st n = Some o /\ pt B o p = Some b).
Proof.
  intros S. assert (R0 : arel 2 (no_objects (option B)) (fun _ => None)) by (intros n; reflexivity).
  destruct (mcl_steps l _ _ _ e absr_empty R0 S) as (st & A & Q1 & [C Q2] & Q3).
  exists st. split; auto. split.
  - intros n v E. specialize (Q2 n). specialize (Q3 n). rewrite E in Q3. destruct (A n) as [[s g]|]; [|discriminate].
    destruct Q3 as [_ [Q3 Q4]]. destruct (objs B st n) as [o|] eqn:O; [|tauto]. destruct Q2 as [Q2 Q5].
    unfold oscalar, oread. rewrite O. cbn [obind]. split; [congruence|]. intros p P. specialize (Q5 p). rewrite Q4 in Q5 by auto.
    unfold kof, cont in Q5. assert (PP : pof st n p = pt B o p) by (unfold pof; now rewrite O).
    destruct C as (C1 & _). specialize (C1 n p). rewrite PP in *. destruct (pt B o p) as [b|]; [|congruence].
    destruct (blk B st b) eqn:Z; [cbn [obind]; congruence|]. now destruct (C1 b eq_refl).
  - intros b N. destruct C as (_ & _ & C3 & _). destruct (C3 b N) as (n & p & P). unfold pof in P.
    destruct (objs B st n) as [o|] eqn:O; [|discriminate]. exists n, o, p. split; auto.
    specialize (Q2 n). specialize (Q3 n). rewrite O in Q2. destruct (A n) as [[s g]|]; [|tauto]. destruct Q3 as [_ Q3]. intros D. rewrite D in Q3. tauto.
Qed.

(** ** the depth first iterator, when no iterator owns a cache *)
Definition bare (st : mem) (e : env (option B)) : Prop :=
  (forall b, blk B st b = None) /\
  forall n, match e n with
  | Dead _ => True
  | Unspec _ => exists o, objs B st n = Some o /\ forall p, pt B o p = None
  | Val _ v => exists o, objs B st n = Some o /\ (forall p, pt B o p = None) /\ sc B o = v 1 /\ v 0 = None
  end.
Definition no_cache (o : op (option B)) : bool :=
  match o with New _ _ v => match v 0 with None => true | Some _ => false end | Swap _ _ _ => false | _ => true end.
Lemma bare_live st e n : bare st e -> dead _ e n = false ->
  exists o, objs B st n = Some o /\ (forall p, pt B o p = None) /\ forall v, e n = Val _ v -> sc B o = v 1 /\ v 0 = None.
Proof.
  intros [_ R] D. specialize (R n). unfold dead in D. destruct (e n); try discriminate.
  - destruct R as (o & O & P). exists o. spl; auto. discriminate.
  - destruct R as (o & O & P & Q). exists o. spl; auto. intros w W. now injection W as <-.
Qed.
Definition fits (t : status (option B)) (st : mem) (n : nat) : Prop :=
  match t with
  | Dead _ => True
  | Unspec _ => exists o, objs B st n = Some o /\ forall p, pt B o p = None
  | Val _ v => exists o, objs B st n = Some o /\ (forall p, pt B o p = None) /\ sc B o = v 1 /\ v 0 = None
  end.
Lemma fits_of t st n o : objs B st n = Some o -> (forall p, pt B o p = None) -> (forall v, t = Val _ v -> sc B o = v 1 /\ v 0 = None) -> fits t st n.
Proof. intros O P Q. destruct t; cbn; eauto. Qed.
Lemma fits_obj t st st' n : objs B st' n = objs B st n -> fits t st n -> fits t st' n.
Proof. intros E. unfold fits. rewrite E. auto. Qed.
Lemma share_ok st x y n m : objs B st n = Some x -> objs B st m = Some y -> (forall p, pt B x p = None) -> (forall p, pt B y p = None) ->
  exists st' o, orun B left [CpS; PtrP 0] st n m = Some st' /\ blk B st' = blk B st /\ objs B st' n = Some o /\ (forall p, pt B o p = None) /\ sc B o = sc B y /\
    forall k, k <> n -> objs B st' k = objs B st k.
Proof.
  intros X Y PX PY. cbn [orun]. unfold odo. rewrite X, Y. cbn [obind]. unfold seto at 1 2; cbn [objs]. rewrite fupd_same. cbn [obind].
  assert (Z : exists y', fupd (objs B st) n (Some (sets B x (sc B y))) m = Some y' /\ pt B y' 0 = None).
  { destruct (Nat.eq_dec m n) as [->|N]; [rewrite fupd_same; eexists; split; [reflexivity|]; cbn; auto|].
    rewrite fupd_other by auto. rewrite Y. eauto. }
  destruct Z as (y' & Z1 & Z2). rewrite Z1. cbn [obind]. eexists _, _. split; [reflexivity|]. unfold seto; cbn [blk objs]. split; auto.
  split; [apply fupd_same|]. cbn. spl; auto.
  - intros p. unfold fupd. destruct (p =? 0); auto.
  - intros k K. rewrite !fupd_other; auto.
Qed.
Lemma dfs_step st e o e' : no_cache o = true -> bare st e -> sem _ e o = Some e' ->
  exists st', oexec B left o_dfs st o = Some st' /\ bare st' e'.
Proof.
  intros NC R S. pose proof R as [RB RO]. destruct o as [n v|n m|n m|n m|n m|n m|n]; cbn [sem oexec no_cache] in *; try discriminate NC.
  - destruct (dead _ e n) eqn:D; [|discriminate]. injection S as <-. destruct (v 0) eqn:V0; [discriminate|]. cbn [np o_dfs made_ptrs obind]. rewrite V0.
    eexists; split; [reflexivity|]. split; auto. intros k. unfold put. destruct (k =? n) eqn:K.
    + apply Nat.eqb_eq in K; subst. eexists; split; [unfold seto; cbn [objs]; apply fupd_same|]. auto.
    + apply (fits_obj (e k) st); [|apply RO]. unfold seto; cbn [objs]. apply fupd_other. now apply Nat.eqb_neq.
  - destruct (dead _ e n) eqn:D; [|discriminate]. destruct (dead _ e m) eqn:M; [discriminate|]. injection S as <-.
    assert (N : n <> m) by (intros ->; congruence). destruct (bare_live _ _ _ R M) as (y & Y & PY & VY). unfold octor.
    set (st1 := seto B st n (Some (mkoobj B None (fun _ => None)))).
    destruct (share_ok st1 (mkoobj B None (fun _ => None)) y n m) as (st' & o & Q1 & Q2 & Q3 & Q4 & Q5 & Q6); auto.
    { unfold st1, seto; cbn [objs]. apply fupd_same. }
    { unfold st1, seto; cbn [objs]. rewrite fupd_other; auto. }
    exists st'. split; auto. split; [rewrite Q2; exact RB|]. intros k. unfold put. destruct (k =? n) eqn:K.
    + apply Nat.eqb_eq in K; subst. apply (fits_of (e m) st' n o); auto. rewrite Q5. auto.
    + apply Nat.eqb_neq in K. apply (fits_obj (e k) st); [|apply RO]. rewrite Q6 by auto. unfold st1, seto; cbn [objs]. now apply fupd_other.
  - destruct (dead _ e n) eqn:D; [|discriminate]. destruct (dead _ e m) eqn:M; [discriminate|]. injection S as <-.
    assert (N : n <> m) by (intros ->; congruence). destruct (bare_live _ _ _ R M) as (y & Y & PY & VY). unfold octor.
    set (st1 := seto B st n (Some (mkoobj B None (fun _ => None)))).
    destruct (share_ok st1 (mkoobj B None (fun _ => None)) y n m) as (st' & o & Q1 & Q2 & Q3 & Q4 & Q5 & Q6); auto.
    { unfold st1, seto; cbn [objs]. apply fupd_same. }
    { unfold st1, seto; cbn [objs]. rewrite fupd_other; auto. }
    exists st'. split; auto. split; [rewrite Q2; exact RB|]. intros k. unfold put. destruct (k =? n) eqn:K.
    + apply Nat.eqb_eq in K; subst. apply (fits_of (e m) st' n o); auto. rewrite Q5. auto.
    + apply Nat.eqb_neq in K. destruct (k =? m) eqn:Z.
      * apply Nat.eqb_eq in Z; subst. exists y. split; auto. rewrite Q6 by auto. unfold st1, seto; cbn [objs]. rewrite fupd_other; auto.
      * apply (fits_obj (e k) st); [|apply RO]. rewrite Q6 by auto. unfold st1, seto; cbn [objs]. now apply fupd_other.
  - destruct (dead _ e n) eqn:D; [discriminate|]. destruct (dead _ e m) eqn:M; [discriminate|]. injection S as <-.
    destruct (bare_live _ _ _ R M) as (y & Y & PY & VY). destruct (bare_live _ _ _ R D) as (x & X & PX & _). unfold oguard.
    destruct (n =? m) eqn:N.
    + apply Nat.eqb_eq in N; subst. exists st. split; auto. split; auto. intros k. unfold put. destruct (k =? m) eqn:K; [|apply RO].
      apply Nat.eqb_eq in K; subst. apply RO.
    + destruct (share_ok st x y n m X Y PX PY) as (st' & o & Q1 & Q2 & Q3 & Q4 & Q5 & Q6). exists st'. split; auto. split; [rewrite Q2; exact RB|].
      intros k. unfold put. destruct (k =? n) eqn:K.
      * apply Nat.eqb_eq in K; subst. apply (fits_of (e m) st' n o); auto. rewrite Q5. auto.
      * apply Nat.eqb_neq in K. apply (fits_obj (e k) st); [|apply RO]. auto.
  - destruct (dead _ e n) eqn:D; [discriminate|]. destruct (dead _ e m) eqn:M; [discriminate|]. injection S as <-.
    destruct (bare_live _ _ _ R M) as (y & Y & PY & VY). destruct (bare_live _ _ _ R D) as (x & X & PX & _). unfold oguard.
    destruct (n =? m) eqn:N.
    + apply Nat.eqb_eq in N; subst. exists st. split; auto. split; auto. intros k. unfold put. destruct (k =? m) eqn:K; [|apply RO].
      apply Nat.eqb_eq in K; subst. apply RO.
    + destruct (share_ok st x y n m X Y PX PY) as (st' & o & Q1 & Q2 & Q3 & Q4 & Q5 & Q6). exists st'. split; auto. split; [rewrite Q2; exact RB|].
      intros k. unfold put. destruct (k =? n) eqn:K.
      * apply Nat.eqb_eq in K; subst. apply (fits_of (e m) st' n o); auto. rewrite Q5. auto.
      * apply Nat.eqb_neq in K. destruct (k =? m) eqn:Z.
        -- apply Nat.eqb_eq in Z; subst. exists y. split; auto. rewrite Q6; auto.
        -- apply (fits_obj (e k) st); [|apply RO]. auto.
  - destruct (dead _ e n) eqn:D; [discriminate|]. injection S as <-. destruct (bare_live _ _ _ R D) as (x & X & PX & _).
    cbn [o_dt o_dfs orun]. unfold odo. rewrite X. cbn [obind]. rewrite PX. cbn [obind]. eexists; split; [reflexivity|]. split; auto.
    intros k. unfold put. destruct (k =? n) eqn:K; [exact I|]. apply (fits_obj (e k) st); [|apply RO]. unfold seto; cbn [objs]. apply fupd_other. now apply Nat.eqb_neq.
Qed.
Lemma dfs_steps l : forall st e e', forallb no_cache l = true -> bare st e -> sems _ e l = Some e' ->
  exists st', oexecs B left o_dfs st l = Some st' /\ bare st' e'.
Proof.
  induction l as [|o l IH]; intros st e e' NC R S; cbn [sems oexecs forallb] in *.
  - injection S as <-. eauto.
  - apply andb_prop in NC. destruct NC as [N1 N2]. destruct (sem _ e o) as [e1|] eqn:E; [|discriminate]. cbn [obind] in S.
    destruct (dfs_step st e o e1 N1 R E) as (s1 & Q1 & Q2). rewrite Q1. cbn [obind]. eauto.
Qed.
End P.
