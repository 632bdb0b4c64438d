(** * A depth first tour names every inner node twice and every leaf once; the bottom up order every node once *)
From Coq Require Import NArith List Bool Arith Lia Sorted.
From Verif Require Import Base AbsVec WtBase Bp BpRmq SpecCst SpecCstIter Cst CstProofs CstProofs4 CstProofs6 CstProofs7 CstIter CstIterProofs.
Import ListNotations.
Open Scope nat_scope.

Lemma sorted_eq : forall l1 l2 : list (nat * nat), StronglySorted (fun a b => fst a < fst b) l1 -> StronglySorted (fun a b => fst a < fst b) l2 -> (forall x, In x l1 <-> In x l2) -> l1 = l2.
Proof.
  induction l1 as [|a l1 IH]; intros [|b l2] S1 S2 E; auto.
  - destruct (proj2 (E b) (or_introl eq_refl)).
  - destruct (proj1 (E a) (or_introl eq_refl)).
  - apply StronglySorted_inv in S1. apply StronglySorted_inv in S2. destruct S1 as (S1 & F1). destruct S2 as (S2 & F2). rewrite Forall_forall in F1, F2.
    assert (a = b). { destruct (proj1 (E a) (or_introl eq_refl)) as [X|X]; auto. destruct (proj2 (E b) (or_introl eq_refl)) as [Y|Y]; auto. apply F2 in X. apply F1 in Y. lia. } subst b. f_equal. apply IH; auto.
    intros x. split; intros X.
    + destruct (proj1 (E x) (or_intror X)) as [->|Y]; auto. apply F1 in X. lia.
    + destruct (proj2 (E x) (or_intror X)) as [->|Y]; auto. apply F2 in X. lia.
Qed.
Lemma nodup_app : forall {T} (l l' : list T), NoDup l -> NoDup l' -> (forall x, In x l -> In x l' -> False) -> NoDup (l ++ l').
Proof.
  induction l as [|a l IH]; intros l' H H' D; auto. cbn [app]. inversion H as [|? ? N0 H1]. subst. constructor.
  - rewrite in_app_iff. intros [X|X]; auto. eapply D; [left; reflexivity|exact X].
  - apply IH; auto. intros x X Y. eapply D; [right; exact X|exact Y].
Qed.

Section T.
Variable g : padding.
Variables B deg : nat.
Hypothesis HB : B mod 8 = 0.
Hypothesis HB0 : 0 < B.
Hypothesis Hd : 2 <= deg.
Variable A : list N.
Variable sa : list nat.
Hypothesis OK : lcp_ok A.
Variable c : cst.
Hypothesis MK : cst_make B deg A (zero_count A) sa = Some c.
Local Notation n := (length A).
Local Notation iv := (lcp_interval A).
Local Notation par := (parent_of A).
Local Notation ctx f := (f g B deg HB HB0 Hd A sa OK c MK).
Local Notation chain := (chain g B deg A c).
Lemma kids_chain : forall i j cs, iv i j -> i < j -> kids A i j cs -> chain i j i cs.
Proof.
  intros i j cs H L (K1 & K2). destruct (ctx children i j H L) as (e & cs' & C & (K1' & K2') & _). replace cs with ((i, e) :: cs'); auto. apply sorted_eq; auto. intros (a, b). rewrite K2, K2'. reflexivity.
Qed.
Lemma in_kid : forall k i j a b, j - i - (b - a) < k -> iv i j -> iv a b -> inside a b i j -> (a, b) <> (i, j) -> exists x y, iv x y /\ par x y i j /\ inside a b x y.
Proof.
  induction k; intros i j a b K H H' I NE; [lia|]. pose proof (iv_lt _ _ _ H). pose proof (iv_lt _ _ _ H'). destruct I as (I1 & I2). assert (X : (a, b) <> (0, n - 1)). { intros X. apply NE. injection X as -> ->. f_equal; lia. }
  destruct (ctx par_ex a b H' X) as (x & y & P). pose proof (par_lt _ _ _ _ _ P) as PL. pose proof P as (_ & _ & _ & P4). destruct (P4 i j H ltac:(split; auto) (not_eq_sym NE)) as (Q1 & Q2).
  destruct (Nat.eq_dec x i) as [N1|N1], (Nat.eq_dec y j) as [N2|N2]; [subst x y; exists a, b; split; [auto|split; [auto|split; lia]]|..].
  all: destruct (IHk i j x y ltac:(lia) H ltac:(apply PL) ltac:(split; auto) ltac:(congruence)) as (x' & y' & V & PA & (J1 & J2)); exists x', y'; split; [auto|split; [auto|split; lia]].
Qed.
Definition tour_spec (i j : nat) (l : list (nat * nat * bool)) : Prop := NoDup l /\ forall a b v, In (a, b, v) l <-> iv a b /\ inside a b i j /\ (v = true -> a < b).
Lemma tours_chain : forall i j, (forall i' j' l, j' - i' < j - i -> iv i' j' -> tour A i' j' l -> tour_spec i' j' l) -> forall s t, chain i j s t -> forall l, tours A t l ->
  NoDup l /\ (forall a b v, In (a, b, v) l <-> (exists x y, In (x, y) t /\ iv a b /\ inside a b x y /\ (v = true -> a < b))) /\ (forall a b v, In (a, b, v) l -> s <= a).
Proof.
  intros i j IH. induction 1 as [s H P S|s e e' cs H P L S C IHC]; intros l T; inversion T as [|? ? ? l1 l2 T1 T2]; subst.
  - inversion T2. subst. rewrite app_nil_r. destruct (IH s j l1 ltac:(eapply kids_smaller; eauto) H T1) as (D & M). split; auto. split.
    + intros a b v. rewrite M. split; [intros (M1 & M2 & M3); exists s, j; split; [left; auto|auto]|]. intros (x & y & [E|[]] & M1 & M2 & M3). injection E as <- <-. auto.
    + intros a b v X. apply M in X. apply X.
  - destruct (IH s e l1 ltac:(eapply kids_smaller; eauto) H T1) as (D & M). destruct (IHC l2 T2) as (D2 & M2 & S2). pose proof (iv_lt _ _ _ H) as LT. split; [|split].
    + apply nodup_app; auto. intros ((a, b), v) X Y. apply M in X. apply S2 in Y. destruct X as (X1 & (X2 & X3) & _). pose proof (iv_lt _ _ _ X1). lia.
    + intros a b v. rewrite in_app_iff, M, M2. split.
      * intros [(X1 & X2 & X3)|(x & y & X0 & X1 & X2 & X3)]; [exists s, e; split; [left; auto|auto]|exists x, y; split; [right; auto|auto]].
      * intros (x & y & [E|X0] & X1 & X2 & X3); [injection E as <- <-; left; auto|right; exists x, y; auto].
    + intros a b v X. apply in_app_iff in X. destruct X as [X|X]; [apply M in X; destruct X as (_ & (X & _) & _); auto|apply S2 in X; lia].
Qed.
Lemma tour_all : forall k i j l, j - i < k -> iv i j -> tour A i j l -> tour_spec i j l.
Proof.
  induction k; intros i j l K H T; [lia|]. inversion T as [i0 E1 E2|? ? cs l0 L KI TS]; subst.
  - split; [repeat constructor; auto|]. intros a b v. split.
    + intros [E|[]]. injection E as <- <- <-. split; auto. split; [split; auto|discriminate].
    + intros (X1 & (X2 & X3) & X4). pose proof (iv_lt _ _ _ X1). left. destruct v; [specialize (X4 eq_refl); lia|]. f_equal. f_equal; lia.
  - pose proof (kids_chain i j cs H L KI) as C. destruct (tours_chain i j ltac:(intros; apply IHk; auto; lia) i cs C l0 TS) as (D & M & _).
    assert (NI : forall v, ~ In (i, j, v) l0). { intros v X. apply M in X. destruct X as (x & y & X & _ & (X1 & X2) & _). apply KI in X. destruct X as (X3 & X4). apply par_lt in X4. lia. }
    split.
    + constructor; [rewrite in_app_iff; intros [X|[X|[]]]; [apply NI in X; auto|discriminate]|]. apply nodup_app; auto; [repeat constructor; auto|]. intros x X [<-|[]]. apply NI in X. auto.
    + intros a b v. cbn [In]. rewrite in_app_iff, M. cbn [In]. split.
      * intros [E|[(x & y & X & X1 & (X2 & X3) & X4)|[E|[]]]]; try (injection E as <- <- <-; split; [auto|split; [split; auto|auto]]; discriminate). split; auto. split; auto. apply KI in X. destruct X as (_ & X). apply par_lt in X. split; lia.
      * intros (X1 & X2 & X3). destruct (Nat.eq_dec a i) as [N1|N1], (Nat.eq_dec b j) as [N2|N2]; [subst a b; destruct v; auto|..].
        all: destruct (in_kid (S (j - i - (b - a))) i j a b ltac:(lia) H X1 X2 ltac:(congruence)) as (x & y & Y1 & Y2 & Y3); right; left; exists x, y; split; [apply KI; auto|auto].
Qed.
Definition post_spec (i j : nat) (l : list (nat * nat)) : Prop := NoDup l /\ forall a b, In (a, b) l <-> iv a b /\ inside a b i j.
Lemma posts_chain : forall i j, (forall i' j' l, j' - i' < j - i -> iv i' j' -> post A i' j' l -> post_spec i' j' l) -> forall s t, chain i j s t -> forall l, posts A t l ->
  NoDup l /\ (forall a b, In (a, b) l <-> (exists x y, In (x, y) t /\ iv a b /\ inside a b x y)) /\ (forall a b, In (a, b) l -> s <= a).
Proof.
  intros i j IH. induction 1 as [s H P S|s e e' cs H P L S C IHC]; intros l T; inversion T as [|? ? ? l1 l2 T1 T2]; subst.
  - inversion T2. subst. rewrite app_nil_r. destruct (IH s j l1 ltac:(eapply kids_smaller; eauto) H T1) as (D & M). split; auto. split.
    + intros a b. rewrite M. split; [intros (M1 & M2); exists s, j; split; [left; auto|auto]|]. intros (x & y & [E|[]] & M1 & M2). injection E as <- <-. auto.
    + intros a b X. apply M in X. apply X.
  - destruct (IH s e l1 ltac:(eapply kids_smaller; eauto) H T1) as (D & M). destruct (IHC l2 T2) as (D2 & M2 & S2). pose proof (iv_lt _ _ _ H) as LT. split; [|split].
    + apply nodup_app; auto. intros (a, b) X Y. apply M in X. apply S2 in Y. destruct X as (X1 & X2 & X3). pose proof (iv_lt _ _ _ X1). lia.
    + intros a b. rewrite in_app_iff, M, M2. split.
      * intros [(X1 & X2)|(x & y & X0 & X1 & X2)]; [exists s, e; split; [left; auto|auto]|exists x, y; split; [right; auto|auto]].
      * intros (x & y & [E|X0] & X1 & X2); [injection E as <- <-; left; auto|right; exists x, y; auto].
    + intros a b X. apply in_app_iff in X. destruct X as [X|X]; [apply M in X; destruct X as (_ & X & _); auto|apply S2 in X; lia].
Qed.
Lemma post_all : forall k i j l, j - i < k -> iv i j -> post A i j l -> post_spec i j l.
Proof.
  induction k; intros i j l K H T; [lia|]. inversion T as [i0 E1 E2|? ? cs l0 L KI TS]; subst.
  - split; [repeat constructor; auto|]. intros a b. split.
    + intros [E|[]]. injection E as <- <-. split; auto. split; auto.
    + intros (X1 & (X2 & X3)). pose proof (iv_lt _ _ _ X1). left. f_equal; lia.
  - pose proof (kids_chain i j cs H L KI) as C. destruct (posts_chain i j ltac:(intros; apply IHk; auto; lia) i cs C l0 TS) as (D & M & _).
    assert (NI : ~ In (i, j) l0). { intros X. apply M in X. destruct X as (x & y & X & _ & (X1 & X2)). apply KI in X. destruct X as (X3 & X4). apply par_lt in X4. lia. }
    split.
    + apply nodup_app; auto; [repeat constructor; auto|]. intros x X [<-|[]]. apply NI in X. auto.
    + intros a b. rewrite in_app_iff, M. cbn [In]. split.
      * intros [(x & y & X & X1 & (X2 & X3))|[E|[]]]; [|injection E as <- <-; split; [auto|split; auto]]. split; auto. apply KI in X. destruct X as (_ & X). apply par_lt in X. split; lia.
      * intros (X1 & X2). destruct (Nat.eq_dec a i) as [N1|N1], (Nat.eq_dec b j) as [N2|N2]; [subst a b; auto|..].
        all: destruct (in_kid (S (j - i - (b - a))) i j a b ltac:(lia) H X1 X2 ltac:(congruence)) as (x & y & Y1 & Y2); left; exists x, y; split; [apply KI; tauto|tauto].
Qed.
End T.
