(** * The suffix tree iterators enumerate the nodes in depth first, bottom up and breadth first order *)
From Coq Require Import NArith List Bool Arith Lia Sorted.
From Verif Require Import Base AbsVec WtBase Bp BpRmq SpecCst SpecCstIter Cst CstProofs CstProofs4 CstProofs6 CstProofs7 CstIter.
Import ListNotations.
Open Scope nat_scope.

Section I.
Variable g : padding.
Variables B deg : nat.
Hypothesis HB : B mod 8 = 0.
Hypothesis HB0 : 0 < B.
Hypothesis Hd : 2 <= deg.
Variable A : list N.
Variable sa : list nat.
Hypothesis OK : lcp_ok A.
Variable c : cst.
Hypothesis MK : cst_make B deg A (zero_count A) sa = Some c.
Local Notation n := (length A).
Local Notation nd := (nd A).
Local Notation iv := (lcp_interval A).
Local Notation par := (parent_of A).

Lemma it_nd : forall i j, i < n -> j < n -> mknode g B deg c i j = Some (nd i j).
Proof.
  intros i' j' I J. destruct (make_setup B deg HB0 Hd A sa OK c MK) as (bp & t & fc & nodes & EC & BI & TT & FL & FB & ND). pose proof OK as (N0 & A0 & A1 & SM). rewrite EC. apply (mknode_ok g B deg HB HB0 Hd A N0 A0 bp t fc nodes sa BI TT FL FB); auto.
Qed.
Lemma it_size : csize c = n.
Proof. destruct (make_setup B deg HB0 Hd A sa OK c MK) as (bp & t & fc & nodes & EC & BI & TT & FL & FB & ND). rewrite EC. apply (k_csize A bp t fc nodes sa BI). Qed.
Lemma n_pos : 0 < n. Proof. apply OK. Qed.
Lemma iv_lt : forall i j, iv i j -> i <= j < n. Proof. intros i j H. apply H. Qed.
Lemma it_node : forall i j, iv i j -> mknode g B deg c i j = Some (nd i j).
Proof. intros i j H. apply iv_lt in H. apply it_nd; lia. Qed.
Lemma it_root : root c = Some (nd 0 (n - 1)).
Proof. destruct (p_root g B deg HB HB0 Hd A sa OK c MK) as (E & H & _). rewrite E. apply it_node. auto. Qed.
Lemma iv_root : iv 0 (n - 1). Proof. apply (p_root g B deg HB HB0 Hd A sa OK c MK). Qed.
Lemma iv_leaf : forall i, i < n -> iv i i. Proof. intros i I. apply (p_leaf g B deg HB HB0 Hd A sa OK c MK i I). Qed.
Lemma eqb_nd : forall i j i' j', node_eqb (nd i j) (nd i' j') = (i =? i') && (j =? j'). Proof. reflexivity. Qed.
Lemma par_lt : forall i j x y, par i j x y -> x <= i /\ j <= y < n /\ (x < i \/ j < y) /\ iv x y.
Proof. clear g B deg HB HB0 Hd OK MK. intros i j x y (P1 & (P2 & P3) & P4 & _). pose proof (iv_lt _ _ P1). split; auto. split; [lia|]. split; auto. destruct (Nat.eq_dec i x), (Nat.eq_dec j y); subst; try lia. congruence. Qed.
Lemma par_nroot : forall i j x y, par i j x y -> (i, j) <> (0, n - 1).
Proof. clear g B deg HB HB0 Hd OK MK. intros i j x y P E. injection E as -> ->. apply par_lt in P. lia. Qed.
Lemma par_uniq : forall i j a b x y, par i j a b -> par i j x y -> a = x /\ b = y.
Proof.
  intros i j a b x y (P1 & P2 & P3 & P4) (Q1 & Q2 & Q3 & Q4). destruct (P4 x y Q1 Q2 (not_eq_sym Q3)) as (R1 & R2). destruct (Q4 a b P1 P2 (not_eq_sym P3)) as (R3 & R4). lia.
Qed.
Lemma it_parent : forall i j x y, iv i j -> par i j x y -> parent g B deg c (nd i j) = Some (nd x y).
Proof.
  intros i j x y H P. destruct (p_parent g B deg HB HB0 Hd A sa OK c MK i j (nd i j) H (it_node _ _ H) (par_nroot _ _ _ _ P)) as (x' & y' & w & E & W & P'). destruct (par_uniq _ _ _ _ _ _ P P') as (-> & ->). rewrite it_node in W by apply P'. congruence.
Qed.
Lemma it_leaf : forall i j, iv i j -> leftmost_leaf g B deg c (nd i j) = Some (nd i i).
Proof.
  intros i j H. destruct (p_node g B deg HB HB0 Hd A sa OK c MK i j H) as (w & W & _ & _ & _ & _ & L & _). rewrite it_node in W by auto. injection W as <-. rewrite L. apply iv_lt in H. apply it_nd; lia.
Qed.
(** ** the children as a chain of siblings *)
Inductive chain (x y : nat) : nat -> list (nat * nat) -> Prop :=
| ch_last : forall s, iv s y -> par s y x y -> sibling g B deg c (nd s y) = root c -> chain x y s [(s, y)]
| ch_cons : forall s e e' cs, iv s e -> par s e x y -> e < y -> sibling g B deg c (nd s e) = Some (nd (e + 1) e') -> chain x y (e + 1) ((e + 1, e') :: cs) -> chain x y s ((s, e) :: (e + 1, e') :: cs).
Lemma chain_from : forall k s e x y, y - e < k -> iv s e -> par s e x y -> exists cs, chain x y s ((s, e) :: cs).
Proof.
  induction k; intros s e x y K H P; [lia|]. destruct (p_sibling g B deg HB HB0 Hd A sa OK c MK s e (nd s e) x y H (it_node _ _ H) P (par_nroot _ _ _ _ P)) as (S1 & S2). pose proof (par_lt _ _ _ _ P).
  destruct (Nat.eq_dec e y) as [->|NE].
  - exists []. constructor; auto.
  - destruct (S2 ltac:(lia)) as (e' & w & E & W & H' & P'). rewrite it_node in W by auto. injection W as <-. pose proof (iv_lt _ _ H'). destruct (IHk (e + 1) e' x y ltac:(lia) H' P') as (cs & C). exists ((e + 1, e') :: cs). econstructor; eauto. lia.
Qed.
Lemma chain_in : forall x y s cs, chain x y s cs -> forall a b, In (a, b) cs -> iv a b /\ par a b x y /\ s <= a.
Proof.
  clear HB HB0 Hd OK MK. induction 1 as [s H P S|s e e' cs H P L S C IH]; intros a b I.
  - destruct I as [E|[]]. injection E as <- <-. auto.
  - destruct I as [E|I]; [injection E as <- <-; auto|]. destruct (IH a b I) as (I1 & I2 & I3). pose proof (iv_lt _ _ H). split; auto. split; auto. lia.
Qed.
Lemma chain_sorted : forall x y s cs, chain x y s cs -> StronglySorted (fun a b => fst a < fst b) cs.
Proof.
  induction 1 as [s H P S|s e e' cs H P L S C IH]; (constructor; [auto; constructor|]); auto. apply Forall_forall. intros (a, b) I. destruct (chain_in _ _ _ _ C a b I) as (_ & _ & I3). pose proof (iv_lt _ _ H). cbn [fst]. lia.
Qed.
Lemma chain_cover : forall x y s cs, chain x y s cs -> forall p, s <= p <= y -> exists a b, In (a, b) cs /\ a <= p <= b.
Proof.
  induction 1 as [s H P S|s e e' cs H P L S C IH]; intros p I.
  - exists s, y. split; [left; auto|lia].
  - destruct (Nat.leb_spec p e) as [G|G]; [exists s, e; split; [left; auto|lia]|]. destruct (IH p ltac:(lia)) as (a & b & I1 & I2). exists a, b. split; [right; auto|auto].
Qed.
Lemma children : forall i j, iv i j -> i < j -> exists e cs, chain i j i ((i, e) :: cs) /\ kids A i j ((i, e) :: cs) /\ select_child g B deg c (nd i j) 1 = Some (nd i e).
Proof.
  intros i j H L. destruct (p_children g B deg HB HB0 Hd A sa OK c MK i j (nd i j) H L (it_node _ _ H)) as (l & _ & D2 & _ & CH & _ & AL). set (b := borders A i j l) in *.
  assert (MO : forall d q, q + d <= length b - 1 -> nth q b 0 + d <= nth (q + d) b 0). { induction d; intros q Q; [rewrite !Nat.add_0_r; lia|]. specialize (IHd q ltac:(lia)). destruct (CH (q + S d) ltac:(lia)) as (X & _). replace (q + S d - 1) with (q + d) in X by lia. lia. }
  destruct (CH 1 ltac:(lia)) as (C1 & C2 & C3 & w & C4 & C5). change (nth (1 - 1) b 0) with i in *. set (e := nth 1 b 0 - 1) in *. destruct (chain_from (S (j - e)) i e i j ltac:(lia) C2 C3) as (cs & C). exists e, cs. split; auto. rewrite it_node in C5 by auto. injection C5 as <-. split; [|exact C4].
  split; [eapply chain_sorted; eauto|]. intros a z. split; [intros I; destruct (chain_in _ _ _ _ C a z I) as (X & Y & _); auto|]. intros (X & Y). pose proof (par_lt _ _ _ _ Y) as Z. pose proof (iv_lt _ _ X).
  destruct (chain_cover _ _ _ _ C a ltac:(lia)) as (a' & z' & I & I'). destruct (chain_in _ _ _ _ C a' z' I) as (X' & Y' & _). destruct (AL a z X Y) as (q & Q1 & Q2 & Q3). destruct (AL a' z' X' Y') as (q' & Q1' & Q2' & Q3').
  assert (q = q') as EQ.
  { destruct (Nat.lt_trichotomy q q') as [G|[G|G]]; auto; exfalso.
    - pose proof (MO (q' - 1 - (q - 1)) (q - 1) ltac:(lia)) as M1. replace (q - 1 + (q' - 1 - (q - 1))) with (q' - 1) in M1 by lia. lia.
    - pose proof (MO (q - 1 - q') q' ltac:(lia)) as M1. replace (q' + (q - 1 - q')) with (q - 1) in M1 by lia. destruct (CH q' Q1') as (M2 & _). lia. }
  rewrite EQ in *. congruence.
Qed.
Lemma kids_smaller : forall i j a b, iv a b -> par a b i j -> b - a < j - i.
Proof. intros i j a b H P. apply iv_lt in H. apply par_lt in P. clear - H P. lia. Qed.

(** ** depth first *)
Hypothesis N32 : (N.of_nat n <= 2 ^ 32)%N.
Inductive path : list (nat * nat) -> nat -> nat -> Prop :=
| path_root : path [] 0 (n - 1)
| path_child : forall p i j x y, path p x y -> iv i j -> par i j x y -> path (p ++ [(x, y)]) i j.
Lemma path_len : forall p i j, path p i j -> length p + (j - i) <= n - 1 /\ iv i j.
Proof. induction 1 as [|p i j x y P (IH & IV) H PA]; [split; [cbn [length]; lia|apply iv_root]|]. split; auto. rewrite app_length. cbn [length]. pose proof (kids_smaller _ _ _ _ H PA). lia. Qed.
Lemma par_ex : forall i j, iv i j -> (i, j) <> (0, n - 1) -> exists x y, par i j x y.
Proof. intros i j H NR. destruct (p_parent g B deg HB HB0 Hd A sa OK c MK i j (nd i j) H (it_node _ _ H) NR) as (x & y & w & _ & _ & P). eauto. Qed.
Lemma path_ex : forall k i j, n - (j - i) < k -> iv i j -> exists p, path p i j.
Proof.
  induction k; intros i j K H; [lia|]. destruct (Nat.eq_dec i 0) as [E1|E1], (Nat.eq_dec j (n - 1)) as [E2|E2]; [subst; eexists; constructor|..].
  all: (destruct (par_ex i j H ltac:(congruence)) as (x & y & P); pose proof (par_lt _ _ _ _ P) as L; pose proof (iv_lt _ _ H); destruct (IHk x y ltac:(lia) ltac:(apply L)) as (p & Q); exists (p ++ [(x, y)]); constructor; auto).
Qed.
Definition good (p : list (nat * nat)) (a : option (list node)) (sz : N) : Prop :=
  match a with
  | None => True
  | Some a => length a = 128 /\ sz = N.of_nat (length p) /\ forall k i j, k < 128 -> nth_error p k = Some (i, j) -> nth_error a k = Some (nd i j)
  end.
Local Notation next := (dfs_next g B deg c).
Local Notation st i j v a sz := (mkdfs (nd i j) v true a sz).
Lemma up_parent : forall p i j x y v a sz, path p x y -> iv i j -> par i j x y -> good (p ++ [(x, y)]) a sz -> exists sz', dfs_parent g B deg c (st i j v a sz) = Some (nd x y, sz') /\ good p a sz'.
Proof.
  intros p i j x y v a sz P H PA G. unfold dfs_parent. cbn [d_size d_cache d_v]. destruct a as [a|].
  - destruct G as (G1 & G2 & G3). rewrite app_length in G2. cbn [length] in G2. destruct (path_len _ _ _ P) as (PL & _). pose proof (kids_smaller _ _ _ _ H PA).
    assert (E : ((sz + 2 ^ 32 - 1) mod 2 ^ 32)%N = N.of_nat (length p)). { rewrite G2. replace (N.of_nat (length p + 1) + 2 ^ 32 - 1)%N with (N.of_nat (length p) + 1 * 2 ^ 32)%N by lia. rewrite N.mod_add by lia. apply N.mod_small. lia. }
    rewrite E. exists (N.of_nat (length p)). unfold cache_size. split.
    + destruct (N.ltb_spec (N.of_nat (length p)) 128) as [L|L].
      * rewrite Nat2N.id. rewrite (G3 (length p) x y); [reflexivity|lia|]. rewrite nth_error_app2, Nat.sub_diag by lia. reflexivity.
      * rewrite (it_parent _ _ _ _ H PA). reflexivity.
    + split; auto. split; auto. intros k i' j' K E'. apply G3; auto. rewrite nth_error_app1; auto. apply nth_error_Some. congruence.
  - rewrite (it_parent _ _ _ _ H PA). eexists. split; [reflexivity|exact I].
Qed.
Lemma down_first : forall p i j v a sz, path p i j -> i < j -> good p a sz -> exists e cs a' sz', chain i j i ((i, e) :: cs) /\ kids A i j ((i, e) :: cs) /\
  dfs_first g B deg c (st i j v a sz) = Some (nd i e, a', sz') /\ good (p ++ [(i, j)]) a' sz'.
Proof.
  intros p i j v a sz P L G. destruct (path_len _ _ _ P) as (PL & IV). destruct (children i j IV L) as (e & cs & C & K & S). exists e, cs. unfold dfs_first. cbn [d_size d_cache d_v]. destruct a as [a|].
  - destruct G as (G1 & G2 & G3). subst sz. assert (E : ((N.of_nat (length p) + 1) mod 2 ^ 32)%N = N.of_nat (length (p ++ [(i, j)]))). { rewrite app_length. cbn [length]. rewrite N.mod_small by lia. lia. } rewrite E. unfold cache_size. destruct (N.ltb_spec (N.of_nat (length p)) 128) as [X|X].
    + rewrite Nat2N.id. rewrite aset_some by lia. cbn [obind]. rewrite S. cbn [obind]. eexists. eexists. split; [exact C|]. split; [exact K|]. split; [reflexivity|]. split; [rewrite upd_length; auto|]. split; auto. intros k i' j' K' E'.
      destruct (Nat.eq_dec k (length p)) as [->|NE].
      * rewrite nth_error_app2, Nat.sub_diag in E' by lia. injection E' as <- <-. apply nth_error_upd_eq. lia.
      * rewrite nth_error_upd_neq by auto. apply G3; auto. assert (k < length (p ++ [(i, j)])) as KL by (apply nth_error_Some; congruence). rewrite app_length in KL. cbn [length] in KL. rewrite nth_error_app1 in E' by lia. auto.
    + cbn [obind]. rewrite S. cbn [obind]. eexists. eexists. split; [exact C|]. split; [exact K|]. split; [reflexivity|]. split; auto. split; auto. intros k i' j' K' E'. apply G3; auto. rewrite nth_error_app1 in E' by lia. auto.
  - cbn [obind]. rewrite S. cbn [obind]. eexists. eexists. split; [exact C|]. split; [exact K|]. split; [reflexivity|exact I].
Qed.
Lemma isleaf : forall i j, is_leaf (nd i j) = (i =? j). Proof. reflexivity. Qed.
Lemma nroot : forall i j, (i, j) <> (0, n - 1) -> node_eqb (nd i j) (nd 0 (n - 1)) = false.
Proof. intros i j H. rewrite eqb_nd. destruct (Nat.eqb_spec i 0) as [E1|_]; auto. destruct (Nat.eqb_spec j (n - 1)) as [E2|_]; auto. subst. congruence. Qed.
(** leaving a node: a leaf, or an inner node for the second time *)
Lemma leave : forall p i j x y v a sz, (v = true \/ i = j) -> path p x y -> iv i j -> par i j x y -> good (p ++ [(x, y)]) a sz ->
  (sibling g B deg c (nd i j) = root c -> exists sz', next (st i j v a sz) = Some (st x y true a sz') /\ good p a sz') /\
  (forall e, j < y -> sibling g B deg c (nd i j) = Some (nd (j + 1) e) -> next (st i j v a sz) = Some (st (j + 1) e false a sz)).
Proof.
  intros p i j x y v a sz V P H PA G. unfold dfs_next. cbn [d_val d_v d_vis negb]. rewrite it_root. cbn [obind]. rewrite (nroot i j) by (eapply par_nroot; eauto). cbn [andb]. rewrite isleaf. destruct (up_parent p i j x y v a sz P H PA G) as (sz' & E & G'). split.
  - intros S. exists sz'. split; auto. rewrite S. cbn [obind]. rewrite eqb_nd, !Nat.eqb_refl. cbn [andb d_cache]. rewrite E. cbn [obind fst snd]. destruct v; cbn [negb]; auto. destruct V as [V| ->]; [discriminate|]. rewrite Nat.eqb_refl. reflexivity.
  - intros e L S. rewrite S. cbn [obind]. rewrite (nroot (j + 1) e) by (intros X; injection X; lia). cbn [d_cache d_size]. destruct v; cbn [negb]; auto. destruct V as [V| ->]; [discriminate|]. rewrite Nat.eqb_refl. reflexivity.
Qed.
Lemma enter : forall p i j a sz, path p i j -> i < j -> good p a sz -> exists e cs a' sz', chain i j i ((i, e) :: cs) /\ kids A i j ((i, e) :: cs) /\ next (st i j false a sz) = Some (st i e false a' sz') /\ good (p ++ [(i, j)]) a' sz'.
Proof.
  intros p i j a sz P L G. destruct (down_first p i j false a sz P L G) as (e & cs & a' & sz' & C & K & E & G'). exists e, cs, a', sz'. split; auto. split; auto. split; auto. unfold dfs_next. cbn [d_val d_v d_vis negb]. rewrite it_root. cbn [obind]. rewrite andb_false_r. rewrite isleaf, (proj2 (Nat.eqb_neq i j)) by lia. rewrite E. reflexivity.
Qed.
Definition obs (it : dfs) : nat * nat * bool := (lb (d_v it), rb (d_v it), d_vis it).
Inductive reach : dfs -> list (nat * nat * bool) -> dfs -> Prop :=
| re_nil : forall it, reach it [] it
| re_cons : forall it it1 l it', d_val it = true -> next it = Some it1 -> reach it1 l it' -> reach it (obs it :: l) it'.
Lemma reach_app : forall a l b l' d, reach a l b -> reach b l' d -> reach a (l ++ l') d.
Proof. intros a l b l' d H. induction H; intros R; cbn [app]; auto. econstructor; eauto. Qed.
Definition within (i j : nat) (o : nat * nat * bool) : Prop := inside (fst (fst o)) (snd (fst o)) i j.
Lemma dfs_node : forall k i j, j - i < k -> forall p a sz, path p i j -> good p a sz -> exists a' sz' l,
  reach (st i j false a sz) l (st i j (negb (i =? j)) a' sz') /\ tour A i j (l ++ [(i, j, negb (i =? j))]) /\ good p a' sz' /\ Forall (within i j) l.
Proof.
  induction k; intros i j K p a sz P G; [lia|]. destruct (path_len _ _ _ P) as (_ & IV). pose proof (iv_lt _ _ IV). destruct (Nat.eqb_spec i j) as [->|NE].
  { exists a, sz, []. split; [constructor|]. split; [constructor|]. auto. }
  destruct (enter p i j a sz P ltac:(lia) G) as (e & cs & a1 & sz1 & C & KI & E & G1).
  assert (CH : forall s t, chain i j s t -> forall e cs a sz, t = (s, e) :: cs -> good (p ++ [(i, j)]) a sz -> exists a' sz' l, reach (st s e false a sz) l (st i j true a' sz') /\ tours A t l /\ good p a' sz' /\ Forall (within i j) l).
  { clear e cs C KI E G1 a1 sz1 G a sz. induction 1 as [s H1 PA S|s e1 e' cs1 H1 PA L S C IH]; intros e cs a sz E G.
    - injection E as <- <-. pose proof (kids_smaller _ _ _ _ H1 PA). destruct (IHk s j ltac:(lia) (p ++ [(i, j)]) a sz ltac:(constructor; auto) G) as (a1 & sz1 & l & R & T & G1 & W).
      destruct (leave p s j i j (negb (s =? j)) a1 sz1 ltac:(destruct (Nat.eqb_spec s j) as [E0|_]; auto) P H1 PA G1) as (L1 & _). destruct (L1 S) as (sz2 & N1 & G2). exists a1, sz2, (l ++ [(s, j, negb (s =? j))]). split; [|split; [|split; auto]].
      + eapply reach_app; [exact R|]. eapply re_cons with (it := st s j (negb (s =? j)) a1 sz1); [reflexivity|exact N1|constructor].
      + rewrite <- (app_nil_r (l ++ _)). constructor; [exact T|constructor].
      + pose proof (par_lt _ _ _ _ PA). apply Forall_app. split; [|constructor; [unfold within, inside; cbn [fst snd]; lia|constructor]]. eapply Forall_impl; [|exact W]. intros o. unfold within, inside. lia.
    - injection E as <- <-. pose proof (kids_smaller _ _ _ _ H1 PA). destruct (IHk s e1 ltac:(lia) (p ++ [(i, j)]) a sz ltac:(constructor; auto) G) as (a1 & sz1 & l & R & T & G1 & W).
      destruct (leave p s e1 i j (negb (s =? e1)) a1 sz1 ltac:(destruct (Nat.eqb_spec s e1) as [E0|_]; auto) P H1 PA G1) as (_ & L1). specialize (L1 e' L S). destruct (IH e' cs1 a1 sz1 eq_refl G1) as (a2 & sz2 & l2 & R2 & T2 & G2 & W2). exists a2, sz2, ((l ++ [(s, e1, negb (s =? e1))]) ++ l2). split; [|split; [|split; auto]].
      + eapply reach_app; [|exact R2]. eapply reach_app; [exact R|]. eapply re_cons with (it := st s e1 (negb (s =? e1)) a1 sz1); [reflexivity|exact L1|constructor].
      + constructor; [exact T|exact T2].
      + pose proof (par_lt _ _ _ _ PA). apply Forall_app. split; auto. apply Forall_app. split; [|constructor; [unfold within, inside; cbn [fst snd]; lia|constructor]]. eapply Forall_impl; [|exact W]. intros o. unfold within, inside. lia. }
  destruct (CH _ _ C e cs a1 sz1 eq_refl G1) as (a' & sz' & l & R & T & G' & W). exists a', sz', ((i, j, false) :: l). split; [|split; [|split; auto]].
  - eapply re_cons with (it := st i j false a sz); [reflexivity|exact E|exact R].
  - cbn [app negb]. econstructor; eauto. lia.
  - constructor; auto. unfold within, inside. cbn [fst snd]. lia.
Qed.
Lemma dfs_eqb_obs : forall x y, dfs_eqb x y = true -> d_val x = d_val y /\ obs x = obs y.
Proof.
  intros x y. unfold dfs_eqb, node_eqb, obs, lb, rb. rewrite !andb_true_iff, !Nat.eqb_eq, !eqb_true_iff. intros ((E1 & E2) & E3 & E4). rewrite E1, E3, E4. auto.
Qed.
Lemma collect_reach : forall it l it', reach it l it' -> forall last, dfs_eqb it' last = true -> (d_val last = true -> Forall (fun o => o <> obs last) l) -> forall fuel, length l < fuel -> dfs_collect g B deg c fuel it last = Some l.
Proof.
  induction 1 as [it|it it1 l it' V N1 R IH]; intros last E F fuel FU; (destruct fuel as [|fuel]; [cbn [length] in FU; lia|]); cbn [dfs_collect].
  - rewrite E. reflexivity.
  - destruct (dfs_eqb it last) eqn:Q.
    + apply dfs_eqb_obs in Q. destruct Q as (Q1 & Q2). rewrite V in Q1. symmetry in Q1. specialize (F Q1). apply Forall_inv in F. congruence.
    + rewrite N1. cbn [obind]. rewrite (IH last E); [reflexivity| |cbn [length] in FU; lia]. intros X. specialize (F X). apply Forall_inv_tail in F. auto.
Qed.
Lemma begin_ok : forall i j junk, 2 <= n -> iv i j -> exists a sz, dfs_begin c (nd i j) junk = Some (st i j false a sz) /\ forall p, path p i j -> good p a sz.
Proof.
  intros i j junk N2 H. unfold dfs_begin, dfs_make. rewrite it_root. cbn [obind]. destruct (node_eqb (nd i j) (nd 0 (n - 1))) eqn:E; cbn [andb negb].
  - eexists. eexists. split; [reflexivity|]. intros p P. rewrite eqb_nd, andb_true_iff, !Nat.eqb_eq in E. destruct E as (-> & ->). destruct (path_len _ _ _ P) as (PL & _). destruct p; [|cbn [length] in PL; lia]. split; [reflexivity|]. split; [reflexivity|]. intros [|k] i j _ X; discriminate.
  - eexists. eexists. split; [reflexivity|]. intros. exact I.
Qed.
Lemma dfs_ok : forall i j w junk junk', 2 <= n -> iv i j -> mknode g B deg c i j = Some w -> exists b e l, dfs_begin c w junk = Some b /\ dfs_end g B deg c w junk' = Some e /\ tour A i j l /\ forall fuel, length l < fuel -> dfs_collect g B deg c fuel b e = Some l.
Proof.
  intros i j w junk junk' N2 H W. rewrite it_node in W by auto. injection W as <-. destruct (begin_ok i j junk N2 H) as (a & sz & E & G). destruct (path_ex (S (n - (j - i))) i j ltac:(lia) H) as (p & P). specialize (G p P). destruct (dfs_node (S (j - i)) i j ltac:(lia) p a sz P G) as (a1 & sz1 & l & R & T & G1 & W).
  exists (st i j false a sz). unfold dfs_end. rewrite it_root. cbn [obind]. destruct (node_eqb (nd 0 (n - 1)) (nd i j)) eqn:Q.
  - rewrite eqb_nd, andb_true_iff, !Nat.eqb_eq in Q. destruct Q as (<- & <-). unfold dfs_make. rewrite it_root. cbn [obind negb]. rewrite andb_false_r. cbn [andb]. eexists. exists (l ++ [(0, n - 1, negb (0 =? n - 1))]). split; [exact E|]. split; [reflexivity|]. split; [exact T|].
    intros fuel F. rewrite (proj2 (Nat.eqb_neq 0 (n - 1))) in * by lia. eapply collect_reach; [| |discriminate|exact F]. { eapply reach_app; [exact R|]. eapply re_cons with (it := st 0 (n - 1) true a1 sz1); [reflexivity| |constructor]. unfold dfs_next. cbn [d_val d_v d_vis negb]. rewrite it_root. cbn [obind]. rewrite eqb_nd, !Nat.eqb_refl. cbn [andb]. reflexivity. }
    unfold dfs_eqb. cbn [d_vis d_val d_v]. rewrite eqb_nd, !Nat.eqb_refl. reflexivity.
  - destruct P as [|p i j x y P IV PA]; [rewrite eqb_nd, !Nat.eqb_refl in Q; discriminate|]. unfold dfs_make. rewrite it_root. cbn [obind negb]. rewrite andb_false_r. cbn [andb]. pose proof (iv_lt _ _ IV) as LT. pose proof (par_lt _ _ _ _ PA) as PL.
    destruct (leave p i j x y (negb (i =? j)) a1 sz1 ltac:(destruct (Nat.eqb_spec i j) as [E0|_]; auto) P IV PA G1) as (L1 & L2). destruct (leave p i j x y true None junk' ltac:(auto) P IV PA I) as (L3 & L4).
    destruct (p_sibling g B deg HB HB0 Hd A sa OK c MK i j (nd i j) x y IV (it_node _ _ IV) PA (par_nroot _ _ _ _ PA)) as (S1 & S2). destruct (Nat.eq_dec j y) as [EY|NY].
    + destruct (L1 (S1 EY)) as (sz2 & N1 & _). destruct (L3 (S1 EY)) as (sz3 & N3 & _). eexists. exists (l ++ [(i, j, negb (i =? j))]). split; [exact E|]. split; [exact N3|]. split; [exact T|]. intros fuel F. eapply collect_reach; [| | |exact F].
      { eapply reach_app; [exact R|]. eapply re_cons with (it := st i j (negb (i =? j)) a1 sz1); [reflexivity|exact N1|constructor]. }
      { unfold dfs_eqb. cbn [d_vis d_val d_v]. rewrite eqb_nd, !Nat.eqb_refl. reflexivity. }
      intros _. apply Forall_app. split; [eapply Forall_impl; [|exact W]|constructor; [|constructor]].
      * intros ((o1, o2), o3) O X. unfold obs in X. cbn [d_v d_vis lb rb CstProofs4.nd n_i n_j] in X. injection X as -> -> ->. unfold within, inside in O. cbn [fst snd] in O. lia.
      * unfold obs. cbn [d_v d_vis lb rb CstProofs4.nd n_i n_j]. intros X. injection X as <- <- _. lia.
    + destruct (S2 ltac:(lia)) as (e & w & N1 & W1 & IV1 & _). rewrite it_node in W1 by auto. injection W1 as <-. specialize (L2 e ltac:(lia) N1). specialize (L4 e ltac:(lia) N1). pose proof (iv_lt _ _ IV1). eexists. exists (l ++ [(i, j, negb (i =? j))]). split; [exact E|]. split; [exact L4|]. split; [exact T|]. intros fuel F. eapply collect_reach; [| | |exact F].
      { eapply reach_app; [exact R|]. eapply re_cons with (it := st i j (negb (i =? j)) a1 sz1); [reflexivity|exact L2|constructor]. }
      { unfold dfs_eqb. cbn [d_vis d_val d_v]. rewrite eqb_nd, !Nat.eqb_refl. reflexivity. }
      intros _. apply Forall_app. split; [eapply Forall_impl; [|exact W]|constructor; [|constructor]].
      * intros ((o1, o2), o3) O X. unfold obs in X. cbn [d_v d_vis lb rb CstProofs4.nd n_i n_j] in X. injection X as -> -> ->. unfold within, inside in O. cbn [fst snd] in O. lia.
      * unfold obs. cbn [d_v d_vis lb rb CstProofs4.nd n_i n_j]. intros X. injection X as X _ _. lia.
Qed.
(** ** skip_subtree *)
Definition inv (it : dfs) : Prop := d_val it = false \/ exists p i j v a sz, path p i j /\ good p a sz /\ it = st i j v a sz.
Lemma inv_skip : forall it, inv it -> inv (dfs_skip it).
Proof. intros it [H|(p & i & j & v & a & sz & P & G & ->)]; unfold dfs_skip; [rewrite H; left; auto|]. cbn [d_val d_vis d_v d_cache d_size]. right. exists p, i, j, true, a, sz. destruct v; auto. Qed.
Lemma leave_any : forall p i j x y v a sz, (v = true \/ i = j) -> path p x y -> iv i j -> par i j x y -> good (p ++ [(x, y)]) a sz -> exists q i' j' v' sz', next (st i j v a sz) = Some (st i' j' v' a sz') /\ path q i' j' /\ good q a sz' /\
  forall a2 v2 sz2, (v2 = true \/ i = j) -> good (p ++ [(x, y)]) a2 sz2 -> exists sz3, next (st i j v2 a2 sz2) = Some (st i' j' v' a2 sz3).
Proof.
  intros p i j x y v a sz V P IV PA G. destruct (leave p i j x y v a sz V P IV PA G) as (L1 & L2). pose proof (par_lt _ _ _ _ PA) as PL.
  destruct (p_sibling g B deg HB HB0 Hd A sa OK c MK i j (nd i j) x y IV (it_node _ _ IV) PA (par_nroot _ _ _ _ PA)) as (S1 & S2). destruct (Nat.eq_dec j y) as [EY|NY].
  - destruct (L1 (S1 EY)) as (sz2 & N1 & G1). exists p, x, y, true, sz2. split; auto. split; auto. split; auto. intros a2 v2 sz3 V2 G2. destruct (leave p i j x y v2 a2 sz3 V2 P IV PA G2) as (L3 & _). destruct (L3 (S1 EY)) as (sz4 & N2 & _). eauto.
  - destruct (S2 ltac:(lia)) as (e & w & N1 & W1 & IV1 & PA1). rewrite it_node in W1 by auto. injection W1 as <-. exists (p ++ [(x, y)]), (j + 1), e, false, sz. split; [apply L2; auto; lia|]. split; [constructor; auto|]. split; auto. intros a2 v2 sz3 V2 G2. destruct (leave p i j x y v2 a2 sz3 V2 P IV PA G2) as (_ & L3). exists sz3. apply L3; auto. lia.
Qed.
Hypothesis N2 : 2 <= n.
Lemma inv_next : forall it, inv it -> exists it', next it = Some it' /\ inv it'.
Proof.
  intros it [H|(p & i & j & v & a & sz & P & G & ->)]; [exists it; split; [unfold dfs_next; rewrite H; auto|left; auto]|]. destruct (path_len _ _ _ P) as (_ & IV). pose proof (iv_lt _ _ IV).
  assert (D : (v = false /\ i < j) \/ (v = true \/ i = j)). { destruct v; auto. destruct (Nat.eq_dec i j); auto. left. split; auto. lia. }
  destruct D as [(-> & L)|V].
  - destruct (enter p i j a sz P L G) as (e & cs & a' & sz' & C & _ & E & G'). eexists. split; [exact E|]. right. destruct (chain_in _ _ _ _ C i e ltac:(left; auto)) as (X & Y & _). exists (p ++ [(i, j)]), i, e, false, a', sz'. split; [constructor; auto|]. auto.
  - destruct P as [|p i j x y P IV' PA].
    + destruct V as [->|V]; [|lia]. eexists. split; [unfold dfs_next; cbn [d_val d_v d_vis negb]; rewrite it_root; cbn [obind]; rewrite eqb_nd, !Nat.eqb_refl; cbn [andb]; reflexivity|]. left. reflexivity.
    + destruct (leave_any p i j x y v a sz V P IV PA G) as (q & i' & j' & v' & sz' & E & Q & GQ & _). eexists. split; [exact E|]. right. exists q, i', j', v', a, sz'. auto.
Qed.
Lemma inv_run : forall ops it, inv it -> exists it', dfs_run g B deg c ops it = Some it' /\ inv it'.
Proof.
  induction ops as [|[|] ops IH]; intros it H; cbn [dfs_run].
  - eauto.
  - cbn [obind]. apply IH. apply inv_skip. auto.
  - destruct (inv_next it H) as (it' & E & H'). rewrite E. cbn [obind]. apply IH. auto.
Qed.
Lemma reach_run : forall it l it', reach it l it' -> dfs_run g B deg c (repeat false (length l)) it = Some it'.
Proof. induction 1 as [it|it it1 l it' V N1 R IH]; cbn [repeat length dfs_run]; auto. rewrite N1. cbn [obind]. exact IH. Qed.
Lemma eqb_st : forall i j v b a sz a' sz', dfs_eqb (mkdfs (nd i j) v b a sz) (mkdfs (nd i j) v b a' sz') = true.
Proof. intros. unfold dfs_eqb. cbn [d_vis d_val d_v]. rewrite eqb_nd, !Nat.eqb_refl, !eqb_reflx. reflexivity. Qed.
Lemma skip_ok : forall junk r ops, root c = Some r -> exists b it, dfs_begin c r junk = Some b /\ dfs_run g B deg c ops b = Some it /\
  (d_val it = true -> exists i j, lcp_interval A i j /\ lb (d_v it) = i /\ rb (d_v it) = j /\
     (d_vis it = false -> exists l x y, tour A i j l /\ dfs_run g B deg c (repeat false (length l)) it = Some x /\ dfs_next g B deg c (dfs_skip it) = Some y /\ dfs_eqb x y = true)).
Proof.
  intros junk r ops RT. rewrite it_root in RT. injection RT as <-. destruct (begin_ok 0 (n - 1) junk N2 iv_root) as (a & sz & E & G). specialize (G [] path_root). assert (IN : inv (st 0 (n - 1) false a sz)) by (right; exists [], 0, (n - 1), false, a, sz; split; [constructor|auto]).
  destruct (inv_run ops _ IN) as (it & RU & [V|(p & i & j & v & a1 & sz1 & P & G1 & ->)]); exists (st 0 (n - 1) false a sz); eexists; (split; [exact E|]); (split; [exact RU|]); [congruence|].
  intros _. destruct (path_len _ _ _ P) as (_ & IV). exists i, j. split; auto. split; [reflexivity|]. split; [reflexivity|]. cbn [d_vis]. intros ->. clear RU. pose proof (iv_lt _ _ IV) as LT.
  destruct (dfs_node (S (j - i)) i j ltac:(lia) p a1 sz1 P G1) as (a2 & sz2 & l & R & T & G2 & _). exists (l ++ [(i, j, negb (i =? j))]). unfold dfs_skip. cbn [d_val d_vis negb d_v d_cache d_size]. destruct P as [|p i j x y P IV' PA].
  - rewrite (proj2 (Nat.eqb_neq 0 (n - 1))) in * by lia.
    assert (NX : forall a sz, next (st 0 (n - 1) true a sz) = Some (mkdfs (nd 0 (n - 1)) true false a sz)). { intros. unfold dfs_next; cbn [d_val d_v d_vis negb]; rewrite it_root; cbn [obind]; rewrite eqb_nd, !Nat.eqb_refl; cbn [andb]. reflexivity. }
    eexists. eexists. split; [exact T|]. split; [|split; [apply NX|apply eqb_st]]. apply reach_run. eapply reach_app; [exact R|]. eapply re_cons with (it := st 0 (n - 1) true a2 sz2); [reflexivity|apply NX|constructor].
  - destruct (leave_any p i j x y (negb (i =? j)) a2 sz2 ltac:(destruct (Nat.eqb_spec i j) as [E0|_]; auto) P IV PA G2) as (q & i' & j' & v' & sz' & E1 & Q & GQ & OT). destruct (OT a1 true sz1 ltac:(auto) G1) as (sz3 & E3). eexists. eexists. split; [exact T|]. split; [|split; [exact E3|apply eqb_st]].
    apply reach_run. eapply reach_app; [exact R|]. eapply re_cons with (it := st i j (negb (i =? j)) a2 sz2); [reflexivity|exact E1|constructor].
Qed.
End I.

(** ** bottom up and breadth first *)
Section U.
Variable g : padding.
Variables B deg : nat.
Hypothesis HB : B mod 8 = 0.
Hypothesis HB0 : 0 < B.
Hypothesis Hd : 2 <= deg.
Variable A : list N.
Variable sa : list nat.
Hypothesis OK : lcp_ok A.
Variable c : cst.
Hypothesis MK : cst_make B deg A (zero_count A) sa = Some c.
Local Notation n := (length A).
Local Notation nd := (nd A).
Local Notation iv := (lcp_interval A).
Local Notation par := (parent_of A).
Local Notation ctx f := (f g B deg HB HB0 Hd A sa OK c MK).
Local Notation chain := (chain g B deg A c).
Inductive breach : node -> list (nat * nat) -> node -> Prop :=
| br_nil : forall v, breach v [] v
| br_cons : forall v w l u, bup_next g B deg c (mkbup v true) = Some (mkbup w true) -> breach w l u -> breach v ((lb v, rb v) :: l) u.
Lemma breach_app : forall a l b l' d, breach a l b -> breach b l' d -> breach a (l ++ l') d.
Proof. intros a l b l' d H. induction H; intros R; cbn [app]; auto. econstructor; eauto. Qed.
Lemma bup_up : forall s y x, iv s y -> par s y x y -> sibling g B deg c (nd s y) = root c -> bup_next g B deg c (mkbup (nd s y) true) = Some (mkbup (nd x y) true).
Proof.
  intros s y x H P S. unfold bup_next. cbn [b_val b_v negb]. rewrite (ctx it_root). cbn [obind]. rewrite (nroot A s y) by (eapply par_nroot; eauto). rewrite S, (ctx it_root). cbn [obind]. rewrite eqb_nd, !Nat.eqb_refl. cbn [andb]. rewrite (ctx it_parent _ _ _ _ H P). reflexivity.
Qed.
Lemma bup_side : forall s e e' x y, iv s e -> par s e x y -> iv (e + 1) e' -> sibling g B deg c (nd s e) = Some (nd (e + 1) e') -> bup_next g B deg c (mkbup (nd s e) true) = Some (mkbup (nd (e + 1) (e + 1)) true).
Proof.
  intros s e e' x y H P H' S. unfold bup_next. cbn [b_val b_v negb]. rewrite (ctx it_root). cbn [obind]. rewrite (nroot A s e) by (eapply par_nroot; eauto). rewrite S. cbn [obind]. rewrite (nroot A (e + 1) e') by (intros X; injection X; lia). rewrite (ctx it_leaf _ _ H'). reflexivity.
Qed.
Lemma bup_node : forall k i j, j - i < k -> iv i j -> exists l, breach (nd i i) l (nd i j) /\ post A i j (l ++ [(i, j)]).
Proof.
  induction k; intros i j K IV; [lia|]. pose proof (iv_lt _ _ _ IV). destruct (Nat.eq_dec i j) as [->|NE]; [exists []; split; constructor|].
  destruct (ctx children i j IV ltac:(lia)) as (e & cs & C & KI & _).
  assert (CH : forall s t, chain i j s t -> exists l, breach (nd s s) l (nd i j) /\ posts A t l).
  { clear e cs C KI. induction 1 as [s H1 PA S|s e1 e' cs1 H1 PA L S C IH].
    - pose proof (kids_smaller _ _ _ _ _ H1 PA). destruct (IHk s j ltac:(lia) H1) as (l & R & P). exists (l ++ [(s, j)]). split.
      + eapply breach_app; [exact R|]. eapply br_cons with (v := nd s j); [apply bup_up; eauto|constructor].
      + rewrite <- (app_nil_r (l ++ _)). constructor; [exact P|constructor].
    - pose proof (kids_smaller _ _ _ _ _ H1 PA). destruct (IHk s e1 ltac:(lia) H1) as (l & R & P). destruct IH as (l2 & R2 & P2). exists ((l ++ [(s, e1)]) ++ l2). split.
      + eapply breach_app; [|exact R2]. eapply breach_app; [exact R|]. destruct (chain_in _ _ _ _ _ _ _ _ _ C (e1 + 1) e' ltac:(left; auto)) as (X & _). eapply br_cons with (v := nd s e1); [eapply bup_side; eauto|constructor].
      + constructor; auto. }
  destruct (CH _ _ C) as (l & R & P). exists l. split; auto. econstructor; eauto. lia.
Qed.
Lemma bcollect : forall v l u, breach v l u -> u = nd 0 (n - 1) -> forall fuel, length l + 1 < fuel -> bup_collect g B deg c fuel (mkbup v true) (mkbup (nd 0 (n - 1)) false) = Some (l ++ [(0, n - 1)]).
Proof.
  induction 1 as [v|v w l u N1 R IH]; intros E fuel F; (destruct fuel as [|fuel]; [lia|]); cbn [bup_collect]; unfold bup_eqb at 1; cbn [b_val eqb andb].
  - subst v. unfold bup_next. cbn [b_val b_v negb]. rewrite (ctx it_root). cbn [obind]. rewrite eqb_nd, !Nat.eqb_refl. cbn [andb obind]. destruct fuel as [|fuel]; [lia|]. cbn [bup_collect]. unfold bup_eqb. cbn [b_val b_v eqb andb]. rewrite eqb_nd, !Nat.eqb_refl. reflexivity.
  - rewrite N1. cbn [obind]. rewrite IH by (auto; cbn [length] in F; lia). reflexivity.
Qed.
Lemma bup_ok : exists b e l, bup_begin g B deg c = Some b /\ bup_end c = Some e /\ post A 0 (n - 1) l /\ forall fuel, length l < fuel -> bup_collect g B deg c fuel b e = Some l.
Proof.
  destruct (bup_node (S (n - 1 - 0)) 0 (n - 1) ltac:(lia) (ctx iv_root)) as (l & R & P). unfold bup_begin, bup_end. rewrite (ctx it_root). cbn [obind]. rewrite (ctx it_leaf _ _ (ctx iv_root)). cbn [obind]. eexists. eexists. exists (l ++ [(0, n - 1)]). split; [reflexivity|]. split; [reflexivity|]. split; [exact P|]. intros fuel F. rewrite app_length in F. cbn [length] in F. eapply bcollect; eauto.
Qed.

(** ** breadth first *)
Definition nds (q : list (nat * nat)) : list node := map (fun p => nd (fst p) (snd p)) q.
Lemma chain_len : forall x y s cs, chain x y s cs -> length cs + s <= y + 1.
Proof. induction 1 as [s H P S|s e e' cs H P L S C IH]; pose proof (iv_lt _ _ _ H); cbn [length] in *; lia. Qed.
Lemma push_root : forall fuel q, bfs_push g B deg c (S fuel) (nd 0 (n - 1)) q = Some q.
Proof. intros. cbn [bfs_push]. rewrite (ctx it_root). cbn [obind]. rewrite eqb_nd, !Nat.eqb_refl. reflexivity. Qed.
Lemma push_chain : forall x y s t, chain x y s t -> forall e cs fuel q, t = (s, e) :: cs -> length t < fuel -> bfs_push g B deg c fuel (nd s e) q = Some (q ++ nds t).
Proof.
  induction 1 as [s H P S|s e0 e' cs0 H P L S C IH]; intros e cs fuel q E F; injection E as <- <-; (destruct fuel as [|fuel]; [cbn [length] in F; lia|]); cbn [bfs_push]; rewrite (ctx it_root); cbn [obind].
  - replace (node_eqb (nd 0 (n - 1)) (nd s y)) with false by (symmetry; rewrite eqb_nd; pose proof (nroot A s y (par_nroot _ _ _ _ _ P)) as X; rewrite eqb_nd in X; rewrite (Nat.eqb_sym 0), (Nat.eqb_sym (n - 1)); exact X). rewrite S, (ctx it_root). cbn [obind]. destruct fuel as [|fuel]; [cbn [length] in F; lia|]. rewrite push_root. reflexivity.
  - replace (node_eqb (nd 0 (n - 1)) (nd s e0)) with false by (symmetry; rewrite eqb_nd; pose proof (nroot A s e0 (par_nroot _ _ _ _ _ P)) as X; rewrite eqb_nd in X; rewrite (Nat.eqb_sym 0), (Nat.eqb_sym (n - 1)); exact X). rewrite S. cbn [obind]. rewrite (IH e' cs0 fuel (q ++ [nd s e0]) eq_refl) by (cbn [length] in *; lia). rewrite <- app_assoc. reflexivity.
Qed.
Lemma bfs_step : forall i j q, iv i j -> exists cs, kids A i j cs /\ bfs_next g B deg c (mkbfs (nd i j :: q) true) = Some (mkbfs (q ++ nds cs) true).
Proof.
  intros i j q IV. pose proof (iv_lt _ _ _ IV). unfold bfs_next. cbn [q_val q_l negb]. destruct (Nat.eq_dec i j) as [->|NE].
  - exists []. split.
    + split; [constructor|]. intros a b. split; [intros []|]. intros (H1 & H2). pose proof (kids_smaller _ _ _ _ _ H1 H2). lia.
    + unfold select_child. rewrite isleaf, Nat.eqb_refl, (ctx it_root). cbn [obind]. rewrite push_root. cbn [obind nds map]. rewrite app_nil_r. reflexivity.
  - destruct (ctx children i j IV ltac:(lia)) as (e & cs & C & KI & S). exists ((i, e) :: cs). split; auto. rewrite S. cbn [obind]. rewrite (it_size B deg HB0 Hd A sa OK c MK). rewrite (push_chain i j i _ C e cs (Datatypes.S n) q eq_refl); [reflexivity|]. pose proof (chain_len _ _ _ _ C). lia.
Qed.
Lemma level_step : forall q r0, (forall i j, In (i, j) q -> iv i j) -> exists r, next_level A q r /\
  (forall i j, In (i, j) r -> iv i j /\ exists x y, In (x, y) q /\ j - i < y - x) /\
  forall fuel l, bfs_collect g B deg c fuel (mkbfs (nds (r0 ++ r)) true) bfs_end = Some l -> bfs_collect g B deg c (length q + fuel) (mkbfs (nds (q ++ r0)) true) bfs_end = Some (q ++ l).
Proof.
  induction q as [|(i, j) q IH]; intros r0 H.
  - exists []. split; [constructor|]. split; [intros ? ? []|]. intros fuel l E. rewrite app_nil_r in E. exact E.
  - pose proof (H i j (or_introl eq_refl)) as IV. destruct (bfs_step i j (nds (q ++ r0)) IV) as (cs & KI & E). destruct (IH (r0 ++ cs) ltac:(intros a b X; apply H; right; auto)) as (r & NL & R & CO). exists (cs ++ r). split; [constructor; auto|]. split.
    + intros a b X. apply in_app_iff in X. destruct X as [X|X].
      * apply KI in X. destruct X as (X1 & X2). split; auto. exists i, j. split; [left; auto|]. eapply kids_smaller; eauto.
      * destruct (R a b X) as (X1 & x & y & X2 & X3). split; auto. exists x, y. split; [right; auto|auto].
    + intros fuel l EL. rewrite app_assoc in EL. specialize (CO fuel l EL). cbn [length Nat.add bfs_collect app nds map fst snd]. unfold bfs_eqb. cbn [q_l q_val length bfs_end Nat.eqb negb nth_error obind]. fold (nds (q ++ r0)). rewrite E. cbn [obind]. unfold nds in CO |- *. rewrite app_assoc, map_app in CO. rewrite CO. reflexivity.
Qed.
Lemma bfs_levels : forall k q, (forall i j, In (i, j) q -> iv i j /\ j - i < k) -> exists l, levels A q l /\ forall fuel, length l < fuel -> bfs_collect g B deg c fuel (mkbfs (nds q) true) bfs_end = Some l.
Proof.
  induction k; intros q H.
  - destruct q as [|(i, j) q]; [|destruct (H i j (or_introl eq_refl)); lia]. exists []. split; [constructor|]. intros [|fuel] F; [cbn [length] in F; lia|reflexivity].
  - destruct q as [|v q']; [exists []; split; [constructor|]; intros [|fuel] F; [cbn [length] in F; lia|reflexivity]|]. remember (v :: q') as q eqn:EQ. assert (NQ : q <> []) by (subst; discriminate). clear v q' EQ.
    destruct (level_step q [] ltac:(intros i j I; apply H; auto)) as (r & NL & R & CO). destruct (IHk r) as (l & LV & CL). { intros i j I. destruct (R i j I) as (X & x & y & I' & L). destruct (H x y I'). split; auto. lia. }
    exists (q ++ l). split; [econstructor; eauto|]. intros fuel F. rewrite app_length in F. replace fuel with (length q + (fuel - length q)) by lia. rewrite app_nil_r in CO. apply CO. cbn [app]. apply CL. lia.
Qed.
Lemma bfs_ok : forall i j w, iv i j -> mknode g B deg c i j = Some w -> exists l, levels A [(i, j)] l /\ forall fuel, length l < fuel -> bfs_collect g B deg c fuel (bfs_begin w) bfs_end = Some l.
Proof.
  intros i j w IV W. rewrite (ctx it_node) in W by auto. injection W as <-. apply (bfs_levels (S (j - i)) [(i, j)]). intros a b [E|[]]. injection E as <- <-. split; auto; lia.
Qed.
End U.
