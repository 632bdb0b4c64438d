(** * Code trees and the queries of a laid out wavelet tree *)
From Coq Require Import NArith List Arith Bool Lia Permutation.
From Verif Require Import Base SpecBits RankSelect AbsVec WtBase SpecWt WtProofs WtPc.
Import ListNotations.

(** ** Code trees *)
Inductive ct := CL (s : nat) | CN (l r : ct).
Fixpoint leaves (t : ct) : list nat := match t with CL s => [s] | CN l r => leaves l ++ leaves r end.
Fixpoint csize (t : ct) : nat := match t with CL _ => 1 | CN l r => S (csize l + csize r) end.
Fixpoint depth (t : ct) : nat := match t with CL _ => 0 | CN l r => S (Nat.max (depth l) (depth r)) end.
Fixpoint sub (t : ct) (p : list bool) {struct p} : option ct :=
  match p, t with [], _ => Some t | b :: p', CN l r => sub (if b then r else l) p' | _, CL _ => None end.
Definition mem (t : ct) (x : N) : bool := existsb (Nat.eqb (N.to_nat x)) (leaves t).

Lemma mem_in : forall t x, mem t x = true <-> In (N.to_nat x) (leaves t).
Proof.
  intros. unfold mem. rewrite existsb_exists. split. { intros (y & Y & E). apply Nat.eqb_eq in E. congruence. } intros I. eexists. split; eauto. apply Nat.eqb_refl.
Qed.
Lemma mem_CN : forall l r x, mem (CN l r) x = mem l x || mem r x.
Proof. intros. unfold mem. cbn [leaves]. apply existsb_app. Qed.
Lemma sub_app : forall p t q, sub t (p ++ q) = match sub t p with Some u => sub u q | None => None end.
Proof. induction p; intros; cbn [app sub]; [destruct t|destruct t]; auto. Qed.
Lemma sub_snoc : forall t p b, sub t (p ++ [b]) = match sub t p with Some (CN l r) => Some (if b then r else l) | _ => None end.
Proof. intros. rewrite sub_app. destruct (sub t p) as [[|]|]; auto. Qed.
Lemma depth_size : forall t, depth t < csize t.
Proof. induction t; cbn [depth csize]; lia. Qed.
Lemma sub_leaves : forall p t u, sub t p = Some u -> incl (leaves u) (leaves t).
Proof.
  induction p; intros t u E; destruct t; cbn [sub] in E; try discriminate; try (injection E as <-; apply incl_refl).
  apply IHp in E. intros x X. apply E in X. cbn [leaves]. apply in_or_app. destruct a; auto.
Qed.
Lemma nd_app : forall (a b : list nat), NoDup (a ++ b) -> NoDup a /\ NoDup b.
Proof.
  induction a; intros b D. { split; [constructor|auto]. } inversion D; subst. destruct (IHa _ H2). split; auto. constructor; auto. intros I. apply H1. apply in_or_app. auto.
Qed.
Lemma sub_nodup : forall p t u, NoDup (leaves t) -> sub t p = Some u -> NoDup (leaves u).
Proof.
  induction p; intros t u D E; destruct t; cbn [sub] in E; try discriminate; try (injection E as <-; auto).
  cbn [leaves] in D. apply nd_app in D. destruct D as [D1 D2]. destruct a; [apply (IHp t2) | apply (IHp t1)]; auto.
Qed.
Lemma sub_depth : forall p t u, sub t p = Some u -> length p + depth u <= depth t.
Proof.
  induction p; intros t u E; destruct t; cbn [sub] in E; try discriminate; try (injection E as <-; cbn [length depth]; lia).
  apply IHp in E. cbn [length depth]. destruct a; lia.
Qed.
Lemma nodup_app : forall (a b : list nat), NoDup (a ++ b) -> forall x, In x a -> In x b -> False.
Proof. induction a; intros b D x A B; [destruct A|]. inversion D; subst. destruct A as [<- | A]. { apply H1. apply in_or_app. auto. } eapply IHa; eauto. Qed.
Lemma mem_split : forall l r x, NoDup (leaves (CN l r)) -> mem (CN l r) x = true -> mem l x = negb (mem r x).
Proof.
  intros l r x D M. rewrite mem_CN in M. destruct (mem l x) eqn:L, (mem r x) eqn:R; auto. exfalso.
  apply mem_in in L. apply mem_in in R. cbn [leaves] in D. eapply nodup_app; eauto.
Qed.
Lemma leaf_path : forall t x, In x (leaves t) -> exists p, sub t p = Some (CL x).
Proof.
  induction t; cbn [leaves]; intros x I. { destruct I as [<- | []]. exists []. auto. }
  apply in_app_or in I. destruct I as [I | I]; [destruct (IHt1 _ I) as [p P]; exists (false :: p) | destruct (IHt2 _ I) as [p P]; exists (true :: p)]; auto.
Qed.
Lemma sub_inj : forall t p q x, NoDup (leaves t) -> sub t p = Some (CL x) -> sub t q = Some (CL x) -> p = q.
Proof.
  induction t; intros p q x D P Q. { destruct p, q; cbn in *; try discriminate; auto. }
  destruct p as [|a p]; [discriminate|]. destruct q as [|b q]; [discriminate|]. cbn [sub] in P, Q. cbn [leaves] in D.
  pose proof (sub_leaves _ _ _ P x (or_introl eq_refl)) as PI. pose proof (sub_leaves _ _ _ Q x (or_introl eq_refl)) as QI.
  assert (a = b). { destruct a, b; auto; exfalso; eapply nodup_app; eauto. } subst b. f_equal.
  destruct (nd_app _ _ D). destruct a; eauto.
Qed.

(** ** Layouts: [pth] gives the path of every node *)
Record laid (t : ct) (ns : list node) (pth : list (list bool)) : Prop := mk_laid {
  la_len : length ns = length pth;
  la_size : length ns = csize t;
  la_0 : nth_error pth 0 = Some [];
  la_nd : NoDup pth;
  la_leaf : forall i p s d, nth_error pth i = Some p -> sub t p = Some (CL s) -> nth_error ns i = Some d -> d_c0 d = None /\ d_rank d = s;
  la_node : forall i p l r d, nth_error pth i = Some p -> sub t p = Some (CN l r) -> nth_error ns i = Some d ->
    exists i0 i1, d_c0 d = Some i0 /\ d_c1 d = Some i1 /\ nth_error pth i0 = Some (p ++ [false]) /\ nth_error pth i1 = Some (p ++ [true]);
  la_sub : forall i p, nth_error pth i = Some p -> sub t p <> None;
  la_par : forall i p b d, nth_error pth i = Some (p ++ [b]) -> nth_error ns i = Some d -> exists q, d_par d = Some q /\ nth_error pth q = Some p }.

(** the bits of the inner nodes *)
Record filled (S : list N) (t : ct) (ns : list node) (pth : list (list bool)) (bv : list bool) : Prop := mk_filled {
  fi_len : forall i p l r d, nth_error pth i = Some p -> sub t p = Some (CN l r) -> nth_error ns i = Some d ->
    d_pos d + length (filter (mem (CN l r)) S) <= length bv;
  fi_bit : forall i p l r d k, nth_error pth i = Some p -> sub t p = Some (CN l r) -> nth_error ns i = Some d ->
    k < length (filter (mem (CN l r)) S) -> t_bit bv (d_pos d + k) = mem r (nth k (filter (mem (CN l r)) S) 0%N);
  fi_rank : forall i p l r d, nth_error pth i = Some p -> sub t p = Some (CN l r) -> nth_error ns i = Some d -> d_rank d = rank_of (t_bit bv) (d_pos d) }.

(** a path packed in a word: the first [length p] bits *)
Definition bits_are (w : N) (p : list bool) : Prop := forall k, k < length p -> tb w k = nth k p false.
(** the code of symbol c *)
Definition code_ok (byte : bool) (path : list N) (c : N) (p : list bool) : Prop :=
  exists w, bit_path byte path c = Some w /\ N.to_nat (shr w 56) = length p /\ bits_are w p /\ length p <= 56 /\ is_word w.

Lemma tb_odd : forall w, N.odd w = tb w 0.
Proof. intros. unfold tb. symmetry. apply N.bit0_odd. Qed.
Lemma bits_are_tl : forall w b p, bits_are w (b :: p) -> N.odd w = b /\ bits_are (shr w 1) p.
Proof.
  intros w b p H. split. { rewrite tb_odd. apply (H 0). cbn. lia. } intros k K. rewrite tb_shr, Nat.add_1_r. specialize (H (S k)). cbn [length nth] in H. apply H. lia.
Qed.

Section Q.
Variables (S : list N) (t : ct) (w : wtpc) (pth : list (list bool)).
Hypothesis ND : NoDup (leaves t).
Hypothesis CV : forall x, In x S -> mem t x = true.
Hypothesis LA : laid t (w_ns w) pth.
Hypothesis FI : filled S t (w_ns w) pth (w_bv w).
Notation at_ i p := (nth_error pth i = Some p).
Definition sq (u : ct) : list N := filter (mem u) S.

Lemma node_ex : forall i p, at_ i p -> exists d, nth_error (w_ns w) i = Some d.
Proof.
  intros i p H. destruct (nth_error (w_ns w) i) eqn:E; eauto. apply nth_error_None in E. rewrite (la_len _ _ _ LA) in E. apply nth_error_None in E. congruence.
Qed.
Lemma sq_all : sq t = S. Proof. unfold sq. apply filter_all. auto. Qed.
Lemma sub_mem : forall p u v x, sub u p = Some v -> mem v x = true -> mem u x = true.
Proof. intros p u v x E M. apply mem_in. apply mem_in in M. eapply sub_leaves; eauto. Qed.
Lemma sq_child : forall l r (b : bool), filter (mem (if b then r else l)) (sq (CN l r)) = sq (if b then r else l).
Proof. intros. unfold sq. apply filter_filter_same. intros x _ M. rewrite mem_CN. destruct b; rewrite M; auto. apply orb_true_r. Qed.
Lemma sq_in : forall u x, In x (sq u) -> mem u x = true.
Proof. intros u x H. apply filter_In in H. tauto. Qed.
Lemma rnk1_ok : forall i p l r k, at_ i p -> sub t p = Some (CN l r) -> k <= length (sq (CN l r)) -> rnk1 w i k = Some (cnt (mem r) (sq (CN l r)) k).
Proof.
  intros i p l r k A U K. destruct (node_ex _ _ A) as [d D]. unfold rnk1. rewrite D. cbn [obind]. pose proof (fi_len _ _ _ _ _ FI i p l r d A U D) as L. fold (sq (CN l r)) in L.
  rewrite t_rank_some by lia. cbn [obind]. rewrite (rank_node (w_bv w) (mem r) (d_pos d) (sq (CN l r)) k); auto. 2: { intros k' K'. apply (fi_bit _ _ _ _ _ FI i p l r d k' A U D K'). }
  apply csub_some. rewrite (fi_rank _ _ _ _ _ FI i p l r d A U D). auto.
Qed.
Lemma child_ok : forall i p l r b, at_ i p -> sub t p = Some (CN l r) -> exists j, child (w_ns w) i b = Some j /\ at_ j (p ++ [b]) /\ sub t (p ++ [b]) = Some (if b then r else l).
Proof.
  intros i p l r b A U. destruct (node_ex _ _ A) as [d D]. destruct (la_node _ _ _ LA i p l r d A U D) as (i0 & i1 & C0 & C1 & A0 & A1). unfold child. rewrite D. cbn [obind].
  rewrite sub_snoc, U. destruct b; [exists i1 | exists i0]; auto.
Qed.
Lemma nd_at : forall p u, sub t p = Some u -> NoDup (leaves u).
Proof. intros. eapply sub_nodup; eauto. Qed.
Lemma split_cnt : forall p l r k, sub t p = Some (CN l r) -> k <= length (sq (CN l r)) -> cnt (mem l) (sq (CN l r)) k = k - cnt (mem r) (sq (CN l r)) k.
Proof.
  intros p l r k U K. assert (H : cnt (mem r) (sq (CN l r)) k + cnt (mem l) (sq (CN l r)) k = k); [|lia].
  apply cnt_split; auto. intros x X. apply mem_split. { eapply nd_at; eauto. } apply sq_in; auto.
Qed.
(* counting in the node and in the child *)
Lemma cnt_child : forall (f g : N -> bool) (T : list N) k, (forall x, In x T -> f x = true -> g x = true) -> cnt f (filter g T) (cnt g T k) = cnt f T k.
Proof.
  intros f g T k H. unfold cnt at 1. rewrite firstn_filter. unfold cnt. f_equal. apply filter_filter_same. intros x X. apply H. eapply In_firstn; eauto.
Qed.
Lemma leaf_all : forall s x, In x (sq (CL s)) -> N.to_nat x = s.
Proof. intros s x H. apply sq_in in H. apply mem_in in H. destruct H as [-> | []]. auto. Qed.

Lemma isel_ok : forall u f p v i, at_ v p -> sub t p = Some u -> depth u < f -> i < length (sq u) ->
  isel_loop f w v i = Some (cnt (N.eqb (nth i (sq u) 0%N)) (sq u) i, nth i (sq u) 0%N).
Proof.
  induction u as [s|l IHl r IHr]; intros f p v i A U F I; (destruct f as [|f]; [lia|]); cbn [isel_loop]; destruct (node_ex _ _ A) as [d D]; rewrite D; cbn [obind].
  - destruct (la_leaf _ _ _ LA v p s d A U D) as [C0 R]. rewrite C0. cbn [is_some negb].
    assert (E : forall k, k < length (sq (CL s)) -> nth k (sq (CL s)) 0%N = N.of_nat s). { intros k K. pose proof (leaf_all s _ (nth_In (sq (CL s)) 0%N K)). lia. }
    rewrite (E i I), R. f_equal. f_equal. unfold cnt. rewrite filter_all. { rewrite firstn_length. lia. } intros x X. apply In_firstn in X. apply leaf_all in X. apply N.eqb_eq. lia.
  - destruct (la_node _ _ _ LA v p l r d A U D) as (i0 & i1 & C0 & _). rewrite C0. cbn [is_some negb]. pose proof (fi_len _ _ _ _ _ FI v p l r d A U D) as L. fold (sq (CN l r)) in L.
    rewrite t_get_some by lia. cbn [obind]. rewrite (rnk1_ok v p l r i) by (auto; lia). cbn [obind]. rewrite (fi_bit _ _ _ _ _ FI v p l r d i A U D) by auto. fold (sq (CN l r)).
    cbn [depth] in F. pose proof (nth_In (sq (CN l r)) 0%N I) as XI. apply sq_in in XI. destruct (mem r (nth i (sq (CN l r)) 0%N)) eqn:M.
    + destruct (child_ok v p l r true A U) as (j & -> & AJ & UJ). cbn [obind]. pose proof (nth_filter (mem r) (sq (CN l r)) i 0%N I M) as [E L2]. pose proof (sq_child l r true) as SC. cbn iota in SC. rewrite SC in E, L2.
      rewrite (IHr f (p ++ [true]) j) by (auto; lia). rewrite E. f_equal. f_equal. rewrite <- SC at 1. apply cnt_child. intros x _ X. apply N.eqb_eq in X. subst x. auto.
    + assert (ML : mem l (nth i (sq (CN l r)) 0%N) = true). { rewrite (mem_split l r) by (auto; eapply nd_at; eauto). rewrite M. auto. }
      rewrite (csub_some i _ (cnt (mem l) (sq (CN l r)) i)). 2: { rewrite (split_cnt p) by (auto; lia). pose proof (cnt_le (mem r) (sq (CN l r)) i). lia. }
      cbn [obind]. destruct (child_ok v p l r false A U) as (j & -> & AJ & UJ). cbn [obind]. pose proof (nth_filter (mem l) (sq (CN l r)) i 0%N I ML) as [E L2]. pose proof (sq_child l r false) as SC. cbn iota in SC. rewrite SC in E, L2.
      rewrite (IHl f (p ++ [false]) j) by (auto; lia). rewrite E. f_equal. f_equal. rewrite <- SC at 1. apply cnt_child. intros x _ X. apply N.eqb_eq in X. subst x. auto.
Qed.
Theorem inverse_select_ok : forall i, i < length S -> wp_inverse_select w i = Some (occ S (nth i S 0%N) i, nth i S 0%N).
Proof.
  intros i I. unfold wp_inverse_select. rewrite (isel_ok t _ [] 0); rewrite ?sq_all; auto. { apply (la_0 _ _ _ LA). } rewrite (la_size _ _ _ LA). pose proof (depth_size t). lia.
Qed.
Theorem access_ok : forall i, i < length S -> wp_access w i = Some (nth i S 0%N).
Proof. intros i I. unfold wp_access. rewrite inverse_select_ok; auto. Qed.

(** the symbol at the end of path q below u *)
Lemma rank_loop_ok : forall q u p v wd s k, at_ v p -> sub t p = Some u -> sub u q = Some (CL s) -> bits_are wd q -> k <= length (sq u) ->
  rank_loop (length q) w wd v k = Some (cnt (mem (CL s)) (sq u) k).
Proof.
  induction q as [|b q IH]; intros u p v wd s k A U Q B K; cbn [length rank_loop].
  - destruct u; cbn in Q; [|discriminate]. injection Q as ->. f_equal. unfold cnt. rewrite filter_all. { rewrite firstn_length. lia. } intros x X. apply In_firstn in X. apply sq_in; auto.
  - destruct (Nat.eqb_spec k 0) as [-> | Z]. { auto. }
    destruct u as [|l r]; [discriminate|]. cbn [sub] in Q. rewrite (rnk1_ok v p l r k) by auto. cbn [obind]. apply bits_are_tl in B. destruct B as [-> B].
    destruct (child_ok v p l r b A U) as (j & CJ & AJ & UJ).
    assert (E : (if b then Some (cnt (mem r) (sq (CN l r)) k) else csub k (cnt (mem r) (sq (CN l r)) k)) = Some (cnt (mem (if b then r else l)) (sq (CN l r)) k)).
    { destruct b; auto. rewrite (split_cnt p) by auto. apply csub_some. pose proof (cnt_le (mem r) (sq (CN l r)) k). lia. }
    rewrite E. cbn [obind]. rewrite CJ. cbn [obind]. rewrite (IH (if b then r else l) (p ++ [b]) j _ s); auto.
    2: { rewrite <- sq_child. apply cnt_le_all. } f_equal. rewrite <- sq_child. apply cnt_child. intros x _. eapply sub_mem; eauto.
Qed.
(* selecting an element of a node *)
Lemma bsel_ok : forall v p l r d k, at_ v p -> sub t p = Some (CN l r) -> nth_error (w_ns w) v = Some d -> k < length (sq (CN l r)) ->
  if mem r (nth k (sq (CN l r)) 0%N) then t_sel1 (w_bv w) (d_rank d + cnt (mem r) (sq (CN l r)) k + 1) = Some (d_pos d + k)
  else exists o, csub (d_pos d) (d_rank d) = Some o /\ t_sel0 (w_bv w) (o + cnt (mem l) (sq (CN l r)) k + 1) = Some (d_pos d + k).
Proof.
  intros v p l r d k A U D K. pose proof (fi_len _ _ _ _ _ FI v p l r d A U D) as L. fold (sq (CN l r)) in L. rewrite (fi_rank _ _ _ _ _ FI v p l r d A U D).
  pose proof (fi_bit _ _ _ _ _ FI v p l r d k A U D K) as B. fold (sq (CN l r)) in B.
  assert (R : rank_of (t_bit (w_bv w)) (d_pos d + k) = rank_of (t_bit (w_bv w)) (d_pos d) + cnt (mem r) (sq (CN l r)) k). { apply rank_node; [|lia]. intros k' K'. apply (fi_bit _ _ _ _ _ FI v p l r d k' A U D K'). }
  destruct (mem r (nth k (sq (CN l r)) 0%N)).
  - apply t_sel1_some; [|lia]. split; auto.
  - pose proof (rank_of_le (t_bit (w_bv w)) (d_pos d)). exists (d_pos d - rank_of (t_bit (w_bv w)) (d_pos d)). split. { apply csub_some. lia. }
    apply t_sel0_some; [|lia]. split; [rewrite B; auto|]. rewrite rank_of_negb, R. rewrite (split_cnt p) by (auto; lia). pose proof (cnt_le (mem r) (sq (CN l r)) k). lia.
Qed.
(* the k-th element that satisfies f *)
Lemma nth_sel : forall (f : N -> bool) (T : list N) k, k < length (filter f T) -> exists q, q < length T /\ f (nth q T 0%N) = true /\ cnt f T q = k.
Proof.
  intros f T. induction T as [|a T IH]; intros k K; cbn [filter] in K. { cbn in K. lia. } destruct (f a) eqn:FA.
  - destruct k as [|k]. { exists 0. cbn. split; [lia|auto]. } cbn in K. destruct (IH k ltac:(lia)) as (q & Q1 & Q2 & Q3). exists (Datatypes.S q). cbn [length nth]. split; [lia|]. split; auto. unfold cnt. cbn [firstn filter]. rewrite FA. cbn [length]. unfold cnt in Q3. lia.
  - destruct (IH k K) as (q & Q1 & Q2 & Q3). exists (Datatypes.S q). cbn [length nth]. split; [lia|]. split; auto. unfold cnt. cbn [firstn filter]. rewrite FA. auto.
Qed.
Lemma sel_loop_ok : forall p u v wd k, at_ v p -> sub t p = Some u -> (forall j, j < length p -> tb wd (63 - j) = nth (length p - 1 - j) p false) -> length p <= 56 -> is_word wd ->
  k < length (sq u) -> exists q, sel_loop (length p) w wd v k = Some q /\ q < length S /\ mem u (nth q S 0%N) = true /\ cnt (mem u) S q = k /\ nth q S 0%N = nth k (sq u) 0%N.
Proof.
  induction p as [|b p IH] using rev_ind; intros u v wd k A U B LP WD K.
  - cbn [length sel_loop]. cbn in U. injection U as <-. rewrite sq_all in *. exists k. split; auto. split; auto. split. { apply CV. apply nth_In; auto. } split; auto. unfold cnt. rewrite filter_all. { rewrite firstn_length. lia. } intros x X. apply CV. eapply In_firstn; eauto.
  - rewrite app_length in *. cbn [length] in *. rewrite Nat.add_1_r in *. cbn [sel_loop]. destruct (node_ex _ _ A) as [d D]. rewrite D. cbn [obind]. destruct (la_par _ _ _ LA v p b d A D) as (vp & -> & AP). cbn [obind].
    destruct (node_ex _ _ AP) as [dp DP]. rewrite DP. cbn [obind]. rewrite sub_snoc in U. destruct (sub t p) as [[|l r]|] eqn:UP; try discriminate. injection U as EU.
    destruct (nth_sel (mem u) (sq (CN l r)) k) as (q & Q1 & Q2 & Q3). { rewrite <- EU, sq_child, EU. auto. }
    pose proof (bsel_ok vp p l r dp q AP UP DP Q1) as BS.
    assert (TB : tb wd 63 = b). { specialize (B 0 ltac:(lia)). rewrite Nat.sub_0_r in B. rewrite B. replace (Datatypes.S (length p) - 1 - 0) with (length p) by lia. rewrite app_nth2, Nat.sub_diag by lia. auto. }
    rewrite TB. assert (E : (if negb b then let* o := csub (d_pos dp) (d_rank dp) in let* q := t_sel0 (w_bv w) (o + k + 1) in csub q (d_pos dp) else let* q := t_sel1 (w_bv w) (d_rank dp + k + 1) in csub q (d_pos dp)) = Some q).
    { assert (MU : mem (CN l r) (nth q (sq (CN l r)) 0%N) = true) by (apply sq_in; apply nth_In; auto). pose proof (mem_split l r _ (nd_at _ _ UP) MU) as MS. destruct b; subst u; cbn [negb].
      - rewrite Q2 in BS. rewrite Q3 in BS. rewrite BS. cbn [obind]. apply csub_some. auto.
      - rewrite Q2 in MS. destruct (mem r (nth q (sq (CN l r)) 0%N)); [discriminate|]. destruct BS as (o & -> & BS). cbn [obind]. rewrite Q3 in BS. rewrite BS. cbn [obind]. apply csub_some. auto. }
    rewrite E. cbn [obind]. destruct (IH (CN l r) vp (shl wd 1) q) as (x & X1 & X2 & X3 & X4 & X5); auto.
    { intros j J. rewrite tb_shl. destruct (Nat.ltb_spec (63 - j) 64); [|lia]. destruct (Nat.leb_spec 1 (63 - j)); [|lia]. cbn [andb]. replace (63 - j - 1) with (63 - Datatypes.S j) by lia. rewrite B by lia.
      replace (Datatypes.S (length p) - 1 - Datatypes.S j) with (length p - 1 - j) by lia. apply app_nth1. lia. }
    { lia. } { apply is_word_shl. }
    exists x. split; auto. split; auto. rewrite X5. split; auto. split.
    + rewrite <- Q3. rewrite <- X4. symmetry. unfold sq. apply cnt_child. intros y _ Y. rewrite mem_CN. destruct b; subst u; rewrite Y; auto. apply orb_true_r.
    + pose proof (nth_filter (mem u) (sq (CN l r)) q 0%N Q1 Q2) as [N1 _]. rewrite <- EU in N1 at 2. rewrite sq_child, EU, Q3 in N1. auto.
Qed.
End Q.
