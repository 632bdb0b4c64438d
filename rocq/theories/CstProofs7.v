(** * The tree operations of cst_sct3 on the intervals of the LCP array *)
From Coq Require Import NArith ZArith List Bool Arith Lia.
From Verif Require Import Base SpecBits SpecBp AbsVec RankSelect WtBase WtProofs CsaProofs2 Bp BpRmq BpProofs BpProofs3 BpRmqProofs5 BpRmqProofs6 SpecCst Cst CstProofs CstProofs2 CstProofs3 CstProofs5 CstProofs4 CstProofs6.
Import ListNotations.
Open Scope nat_scope.

Section BO.
Variable v : list N.
Lemma bo_step : forall i j l m a, inner v i j l -> j - a <= m -> i <= a <= j -> (a = i \/ av v a = l) ->
  (forall q, 1 <= q <= length (fl v l a j) + 1 -> bord v i j l (nth (q - 1) (a :: fl v l a j ++ [j + 1]) 0) (nth q (a :: fl v l a j ++ [j + 1]) 0)) /\
  (forall k, a <= k <= j -> exists q, 1 <= q <= length (fl v l a j) + 1 /\ nth (q - 1) (a :: fl v l a j ++ [j + 1]) 0 <= k < nth q (a :: fl v l a j ++ [j + 1]) 0).
Proof.
  intros i j l. induction m; intros a H M AL AE.
  all: pose proof H as (H1 & H2 & _); destruct (next_border v l a j ltac:(lia)) as (b & B1 & B2 & B3).
  all: assert (GT : forall k, a < k < b -> (l < av v k)%N) by (intros k K; specialize (B3 k K); specialize (H2 k ltac:(lia)); lia).
  all: assert (BD : bord v i j l a b) by (split; [lia|]; split; [lia|]; auto).
  all: destruct (Nat.eq_dec b (j + 1)) as [E|NE]; [rewrite (fl_nil v l a j) by (intros k K; apply B3; lia); subst b; cbn [length app]; split;
    [intros q Q; replace q with 1 by lia; exact BD|intros k K; exists 1; cbn [nth Nat.sub]; lia]|].
  1: lia.
  assert (BE : av v b = l) by (destruct B2; auto; lia). rewrite (fl_app v l a b j), (fl_one v l a b) by (auto; lia). cbn [app length].
  destruct (IHm b H ltac:(lia) ltac:(lia) ltac:(auto)) as (I1 & I2). split.
  - intros q Q. destruct (Nat.eq_dec q 1) as [->|QN]; [exact BD|]. specialize (I1 (q - 1) ltac:(lia)). destruct q as [|[|q]]; [lia|lia|]. replace (S (S q) - 1) with (S q) in * by lia. replace (S q - 1) with q in * by lia. exact I1.
  - intros k K. destruct (Nat.lt_ge_cases k b) as [L|L]. { exists 1. cbn [nth Nat.sub]. lia. } destruct (I2 k ltac:(lia)) as (q & Q & R). exists (S q). split; [lia|]. destruct q as [|q]; [lia|]. replace (S (S q) - 1) with (S q) by lia. replace (S q - 1) with q in R by lia. exact R.
Qed.
Lemma bo_len : forall i j l, length (borders v i j l) - 1 = length (fl v l i j) + 1.
Proof. intros. unfold borders. cbn [length]. rewrite app_length. cbn [length]. unfold fl. lia. Qed.
Lemma bo_child : forall i j l q, inner v i j l -> 1 <= q <= length (borders v i j l) - 1 -> bord v i j l (nth (q - 1) (borders v i j l) 0) (nth q (borders v i j l) 0).
Proof. intros i j l q H Q. pose proof H as (H1 & _). rewrite bo_len in Q. apply (bo_step i j l (j - i) i); auto; lia. Qed.
Lemma bo_all : forall i j l i' j', inner v i j l -> lcp_interval v i' j' -> parent_of v i' j' i j -> exists q, 1 <= q <= length (borders v i j l) - 1 /\ i' = nth (q - 1) (borders v i j l) 0 /\ j' = nth q (borders v i j l) 0 - 1.
Proof.
  intros i j l i' j' H H' P. pose proof H as (H1 & H2 & _ & H4 & H5). pose proof (node_lt _ _ _ H') as L'. pose proof P as (P1 & (P2 & P2') & P3 & P4).
  destruct (proj2 (bo_step i j l (j - i) i H ltac:(lia) ltac:(lia) ltac:(auto)) i' ltac:(lia)) as (q & Q & R). exists q. rewrite bo_len. split; auto. fold (min_positions v i j l) in *. 
  change (i :: fl v l i j ++ [j + 1]) with (borders v i j l) in R. pose proof (bo_child i j l q H ltac:(rewrite bo_len; lia)) as BD. set (a := nth (q - 1) (borders v i j l) 0) in *. set (b := nth q (borders v i j l) 0) in *.
  pose proof (bord_node v i j l a b H BD) as CN. pose proof (bord_neq v i j l a b H BD) as NE. pose proof BD as (D1 & D2 & D3 & D4 & D5).
  destruct (Nat.le_gt_cases b j') as [LB|LB].
  - exfalso. assert (BE : av v b = l) by (destruct D4; auto; lia). destruct (node_inner v i' j' H' ltac:(lia)) as (l' & X1 & X2 & X3 & X4 & X5). specialize (X2 b ltac:(lia)).
    destruct (Nat.eq_dec i' i) as [->|NI].
    + assert (j' < j) by (destruct (Nat.eq_dec j' j) as [->|]; [exfalso; apply P3; auto|lia]). specialize (H2 (j' + 1) ltac:(lia)). destruct X5; lia.
    + specialize (H2 i' ltac:(lia)). destruct X4; lia.
  - destruct (Nat.eq_dec i' a) as [->|NA]; [destruct (Nat.eq_dec j' (b - 1)) as [->|NB]; auto|].
    all: exfalso; destruct (P4 a (b - 1) CN ltac:(split; lia) ltac:(intros E; injection E; intros; lia)) as (R1 & R2); lia.
Qed.
End BO.

Section P.
Variable g : padding.
Variables B deg : nat.
Hypothesis HB : B mod 8 = 0.
Hypothesis HB0 : 0 < B.
Hypothesis Hd : 2 <= deg.
Variable A : list N.
Variable sa : list nat.
Hypothesis OK : lcp_ok A.
Variable c : cst.
Hypothesis MK : cst_make B deg A (zero_count A) sa = Some c.
Local Notation n := (length A).
Local Notation node_ := (mknode g B deg c).

Ltac go := destruct (make_setup B deg HB0 Hd A sa OK c MK) as (bp & t & fc & nodes & -> & BI & T & FL & FB & ND); pose proof OK as (N0 & A0 & A1 & SM).
Notation ctx2 L := (fun bp t fc nodes BI T FL FB => L g B deg HB HB0 Hd A (proj1 OK) (proj1 (proj2 OK)) bp t fc nodes sa BI FL FB).
Notation ctx L := (fun bp t fc nodes BI T FL FB => L g B deg HB HB0 Hd A (proj1 OK) (proj1 (proj2 OK)) bp t fc nodes sa BI T FL FB).
Lemma p_root : root c = node_ 0 (n - 1) /\ lcp_interval A 0 (n - 1) /\ root c <> None.
Proof.
  go. pose proof (ctx2 root_ok bp t fc nodes BI T FL FB) as R. cbn beta in R. rewrite R. split; [|split; [apply root_node; auto|discriminate]]. symmetry. apply (ctx mknode_ok bp t fc nodes BI T FL FB); lia.
Qed.
Lemma p_leaf : forall i, i < n -> select_leaf g B deg c (i + 1) = node_ i i /\ lcp_interval A i i /\ node_ i i <> None.
Proof.
  intros i I. go. pose proof (ctx select_leaf_ok bp t fc nodes BI T FL FB i I) as R. cbn beta in R. rewrite R. pose proof (ctx mknode_ok bp t fc nodes BI T FL FB i i I I) as M. cbn beta in M. rewrite M. split; auto. split; [split; [lia|auto]|discriminate].
Qed.
Lemma p_node : forall i j, lcp_interval A i j -> exists w, node_ i j = Some w /\ lb w = i /\ rb w = j /\ node_size w = Some (j - i + 1) /\ is_leaf w = (i =? j) /\ leftmost_leaf g B deg c w = node_ i i /\ rightmost_leaf g B deg c w = node_ j j.
Proof.
  intros i j H. pose proof (node_lt _ _ _ H) as L. pose proof (proj1 (p_leaf i ltac:(lia))) as L1. pose proof (proj1 (p_leaf j ltac:(lia))) as L2. revert L1 L2. go. intros L1 L2. pose proof (ctx mknode_ok bp t fc nodes BI T FL FB i j ltac:(lia) ltac:(lia)) as M. cbn beta in M. rewrite M.
  eexists. split; [reflexivity|]. split; [reflexivity|]. split; [reflexivity|]. split; [unfold node_size; cbn [nd n_i n_j]; rewrite csub_le by lia; reflexivity|]. split; [reflexivity|]. split; [exact L1|exact L2].
Qed.
Lemma p_parent : forall i j w, lcp_interval A i j -> node_ i j = Some w -> (i, j) <> (0, n - 1) -> exists i' j' w', parent g B deg c w = Some w' /\ node_ i' j' = Some w' /\ parent_of A i j i' j'.
Proof.
  intros i j w H W NR. pose proof (node_lt _ _ _ H) as L. revert W. go. intros W. rewrite (ctx mknode_ok bp t fc nodes BI T FL FB i j ltac:(lia) ltac:(lia)) in W. injection W as <-.
  destruct (ctx parent_ok bp t fc nodes BI T FL FB i j H NR) as (i' & j' & E & P). exists i', j', (nd A i' j'). split; [exact E|]. split; [|exact P]. pose proof P as (P1 & _). pose proof (node_lt _ _ _ P1). apply (ctx mknode_ok bp t fc nodes BI T FL FB); lia.
Qed.
Lemma p_parent_root : forall w, root c = Some w -> parent g B deg c w = Some w.
Proof.
  intros w. go. intros W. rewrite (ctx2 root_ok bp t fc nodes BI T FL FB) in W. injection W as <-. apply (ctx parent_root bp t fc nodes BI T FL FB). apply root_node. auto.
Qed.
Lemma p_leaf_degree : forall i w, i < n -> node_ i i = Some w -> degree g c w = Some 0 /\ forall q, select_child g B deg c w q = root c.
Proof.
  intros i w I. go. intros W. rewrite (ctx mknode_ok bp t fc nodes BI T FL FB i i ltac:(lia) ltac:(lia)) in W. injection W as <-. split; [apply degree_leaf|]. intros q. unfold select_child. rewrite leaf_nd, Nat.eqb_refl. auto.
Qed.
Lemma p_children : forall i j w, lcp_interval A i j -> i < j -> node_ i j = Some w -> exists l, lcp_value A i j l /\
  let b := borders A i j l in let dg := length b - 1 in 2 <= dg /\ degree g c w = Some dg /\
  (forall q, 1 <= q <= dg -> nth (q - 1) b 0 < nth q b 0 /\ lcp_interval A (nth (q - 1) b 0) (nth q b 0 - 1) /\ parent_of A (nth (q - 1) b 0) (nth q b 0 - 1) i j /\
     exists w', select_child g B deg c w q = Some w' /\ node_ (nth (q - 1) b 0) (nth q b 0 - 1) = Some w') /\
  (forall q, dg < q -> select_child g B deg c w q = root c) /\
  (forall i' j', lcp_interval A i' j' -> parent_of A i' j' i j -> exists q, 1 <= q <= dg /\ i' = nth (q - 1) b 0 /\ j' = nth q b 0 - 1).
Proof.
  intros i j w H LT W. pose proof (node_lt _ _ _ H) as L. revert W. go. intros W. rewrite (ctx mknode_ok bp t fc nodes BI T FL FB i j ltac:(lia) ltac:(lia)) in W. injection W as <-.
  destruct (node_inner A i j H LT) as (l & IN). exists l. pose proof IN as (H1 & H2 & H3 & _). split; [split; [exact H2|exact H3]|]. cbn zeta. rewrite bo_len. split.
  { destruct H3 as (k & K & E). assert (IK : In k (fl A l i j)) by (apply fl_In; auto). destruct (fl A l i j); [contradiction|cbn [length]; lia]. }
  split; [apply (ctx2 degree_ok bp t fc nodes BI T FL FB); auto|]. split; [|split].
  - intros q Q. pose proof (bo_child A i j l q IN ltac:(rewrite bo_len; lia)) as BD. pose proof BD as (D1 & D2 & _). split; [lia|]. pose proof (bord_node _ _ _ _ _ _ IN BD) as BN. split; auto. split; [eapply bord_parent; eauto|]. eexists. split; [apply (ctx select_child_ok bp t fc nodes BI T FL FB i j l q); auto|]. pose proof (node_lt _ _ _ BN). apply (ctx mknode_ok bp t fc nodes BI T FL FB); lia.
  - intros q Q. rewrite (ctx2 root_ok bp t fc nodes BI T FL FB). apply (ctx select_child_none bp t fc nodes BI T FL FB i j l); auto.
  - intros i' j' H' P. rewrite <- bo_len. apply bo_all; auto.
Qed.
Lemma p_sibling : forall i j w x y, lcp_interval A i j -> node_ i j = Some w -> parent_of A i j x y -> (i, j) <> (0, n - 1) ->
  (j = y -> sibling g B deg c w = root c) /\ (j < y -> exists e w', sibling g B deg c w = Some w' /\ node_ (j + 1) e = Some w' /\ lcp_interval A (j + 1) e /\ parent_of A (j + 1) e x y).
Proof.
  intros i j w x y H W P NR. pose proof (node_lt _ _ _ H) as L. revert W. go. intros W. rewrite (ctx mknode_ok bp t fc nodes BI T FL FB i j ltac:(lia) ltac:(lia)) in W. injection W as <-. split.
  - intros ->. rewrite (ctx2 root_ok bp t fc nodes BI T FL FB). apply (ctx sibling_last bp t fc nodes BI T FL FB); auto. intros a b Q. apply (parent_uniq g B deg HB HB0 Hd A N0 A0 fc FL FB _ _ _ _ _ _ P Q).
  - intros JY. destruct (ctx sibling_ok bp t fc nodes BI T FL FB i j x y H NR P JY) as (e & E & PE & NE). exists e, (nd A (j + 1) e). pose proof (node_lt _ _ _ NE) as LE. split; [exact E|]. split; [apply (ctx mknode_ok bp t fc nodes BI T FL FB); lia|]. auto.
Qed.
Lemma p_lca : forall i j k l v w, lcp_interval A i j -> lcp_interval A k l -> node_ i j = Some v -> node_ k l = Some w -> exists x y u, lca g B deg c v w = Some u /\ node_ x y = Some u /\ lca_of A i j k l x y.
Proof.
  intros i j k l v w H H' V W. pose proof (node_lt _ _ _ H) as L. pose proof (node_lt _ _ _ H') as L'. revert V W. go. intros V W. rewrite (ctx mknode_ok bp t fc nodes BI T FL FB i j ltac:(lia) ltac:(lia)) in V. rewrite (ctx mknode_ok bp t fc nodes BI T FL FB k l ltac:(lia) ltac:(lia)) in W. injection V as <-. injection W as <-.
  destruct (ctx lca_ok bp t fc nodes BI T FL FB i j k l H H') as (x & y & E & P). exists x, y, (nd A x y). pose proof P as (P1 & _). pose proof (node_lt _ _ _ P1). split; [exact E|]. split; [|exact P]. apply (ctx mknode_ok bp t fc nodes BI T FL FB); lia.
Qed.
Lemma p_depth_leaf : forall i w, i < n -> length sa = n -> nth i sa 0 <= n -> node_ i i = Some w -> depth_ g B deg c w = Some (N.of_nat (n - nth i sa 0)).
Proof.
  intros i w I SL SN. go. intros W. rewrite (ctx mknode_ok bp t fc nodes BI T FL FB i i ltac:(lia) ltac:(lia)) in W. injection W as <-. apply (ctx2 depth_leaf bp t fc nodes BI T FL FB); auto.
Qed.
Lemma p_depth : forall i j w, lcp_interval A i j -> i < j -> node_ i j = Some w -> exists l, depth_ g B deg c w = Some l /\ lcp_value A i j l.
Proof.
  intros i j w H LT W. pose proof (node_lt _ _ _ H) as L. revert W. go. intros W. rewrite (ctx mknode_ok bp t fc nodes BI T FL FB i j ltac:(lia) ltac:(lia)) in W. injection W as <-.
  destruct (node_inner A i j H LT) as (l & IN). pose proof IN as (H1 & H2 & H3 & _). exists l. split; [|split; [exact H2|exact H3]]. rewrite (ctx depth_inner bp t fc nodes BI T FL FB i j l IN). destruct (Nat.eqb_spec i 0) as [E1|E1], (Nat.eqb_spec j (n - 1)) as [E2|E2]; auto. cbn [andb]. subst i j.
  specialize (A1 ltac:(lia)). specialize (H2 1 ltac:(lia)). unfold av in H2. rewrite A1 in H2. f_equal. lia.
Qed.
Lemma p_node_depth : forall i j w fuel, lcp_interval A i j -> node_ i j = Some w -> n <= fuel -> exists e, node_depth g B deg c fuel w = Some e /\ level A i j e.
Proof.
  intros i j w fuel H W F. pose proof (node_lt _ _ _ H) as L. revert W. go. intros W. rewrite (ctx mknode_ok bp t fc nodes BI T FL FB i j ltac:(lia) ltac:(lia)) in W. injection W as <-. apply (ctx node_depth_ok bp t fc nodes BI T FL FB); auto. lia.
Qed.
Lemma p_id : forall i j w, lcp_interval A i j -> node_ i j = Some w -> exists id, node_id c w = Some id /\ id < c_nodes c /\ inv_id g B deg c id = Some w.
Proof.
  intros i j w H. pose proof (node_lt _ _ _ H) as L. go. intros W. rewrite (ctx mknode_ok bp t fc nodes BI T FL FB i j ltac:(lia) ltac:(lia)) in W. injection W as <-. cbn [c_nodes]. rewrite ND. destruct (ctx node_id_ok bp t fc nodes BI T FL FB A1 i j H) as (id & X). exists id. rewrite <- ND in *. exact X.
Qed.
Lemma p_inv_id : forall id, id < c_nodes c -> exists i j w, inv_id g B deg c id = Some w /\ node_ i j = Some w /\ lcp_interval A i j /\ node_id c w = Some id.
Proof.
  intros id. go. cbn [c_nodes]. rewrite ND. intros I. destruct (ctx inv_id_ok bp t fc nodes BI T FL FB A1 id I) as (i & j & E & H & ID). pose proof (node_lt _ _ _ H). exists i, j, (nd A i j). rewrite <- ND. split; [rewrite ND; exact E|]. split; [apply (ctx mknode_ok bp t fc nodes BI T FL FB); lia|]. split; auto.
Qed.
Lemma p_tlcp : exists f, (forall i, i < n -> tlcp_idx g B deg c i = Some (f i)) /\ forall i i', i < n -> i' < n -> f i = f i' -> nth i A 0%N = nth i' A 0%N.
Proof.
  go. exists (fun i => rank_of (t_bit fc) (zi A i)). split.
  - intros i I. apply (ctx tlcp_ok bp t fc nodes BI T FL FB i I).
  - intros i i' I I' E. apply (ctx2 tlcp_inj bp t fc nodes BI T FL FB i i' I I' E).
Qed.
End P.
