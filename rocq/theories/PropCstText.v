(** * C59: cst_sct3 is the suffix tree of the text: node labels, child, edge, suffix links and Weiner links *)
From Coq Require Import NArith List Bool Arith Lia.
From Verif Require Import Base AbsVec WtBase SpecCsa SpecLcp Alphabet AlphabetProofs CsaSample CsaProofs CsaProofs2 CsaProofs6 Csa Bp BpRmq SpecCst CstProofs6 CstProofs7 Cst CstText SpecCstText CstTextProofs CstTextProofs3.
Import ListNotations.
Open Scope nat_scope.

(** [x] is the suffix array and [c] the tree that construction makes from the text [T], its suffix array [sa] and its LCP
    array [L]; [k] and [a] choose the type of the suffix array (sampling, alphabet) *)
Definition tree_of (B deg : nat) (k : ikind) (a : akind) (T sa L : list nat) (x : csa) (c : cst) : Prop :=
  B mod 8 = 0 /\ 0 < B /\ 2 <= deg /\ kind_ok k /\ text_ok T /\ is_sa T sa /\ is_lcp T sa L /\ (forall ch, In ch T -> sym_fits a ch) /\
  build k a T sa = Some x /\ cst_make B deg (map N.of_nat L) (al_sigma (c_al x)) sa = Some c.
(** the rows i..j are a node of the tree, [w] is its handle, and [P] is its string *)
Definition tnode (g : padding) (B deg : nat) (c : cst) (T sa L : list nat) (i j : nat) (w : node) (P : list nat) : Prop :=
  lcp_interval (map N.of_nat L) i j /\ mknode g B deg c i j = Some w /\ node_label T sa i j P.

(** the LCP array of a text meets the hypotheses of C58, with the alphabet size of the text as the number of its zeros, and
    construction succeeds *)
Lemma open_tree : forall B deg k a T sa L x c, tree_of B deg k a T sa L x c -> forall Q, (forall ch, In ch Q -> sym_fits a ch) ->
  exists M, csa_ok M T sa x /\ (forall ch, In ch T -> ch < M) /\ forall ch, In ch Q -> ch < M.
Proof.
  intros B deg k a T sa L x c (_ & _ & _ & K & TOK & SA & _ & F & E & _) Q FQ. destruct (pat_bound a T Q F FQ) as (M & M1 & M2 & M3). destruct (build_ok T sa TOK SA k a K F) as (x' & E' & H). rewrite E in E'. injection E' as <-. exists M. split; [exact (H M M1)|split; auto].
Qed.
Theorem C59_text : forall B deg k a T sa L, 0 < B -> 2 <= deg -> kind_ok k -> text_ok T -> is_sa T sa -> is_lcp T sa L -> (forall ch, In ch T -> sym_fits a ch) ->
  lcp_ok (map N.of_nat L) /\ zero_count (map N.of_nat L) = dist T /\
  exists x c, build k a T sa = Some x /\ al_sigma (c_al x) = dist T /\ cst_make B deg (map N.of_nat L) (al_sigma (c_al x)) sa = Some c.
Proof.
  intros B deg k a T sa L HB0 Hd K TOK SA LC F. pose proof (text_lcp_ok T sa L TOK SA LC) as OK. pose proof (text_zeros T sa L TOK SA LC) as Z. split; [exact OK|]. split; [exact Z|].
  destruct (pat_bound a T [] F ltac:(intros ? [])) as (M & M1 & _). destruct (build_ok T sa TOK SA k a K F) as (x & E & H). pose proof (ao_sigma _ _ _ (co_al _ _ _ _ (H M M1))) as SG. destruct (make_some B deg HB0 Hd _ sa OK) as (c & bp & t & fc & nodes & EC & _). exists x, c. rewrite SG, <- Z. auto.
Qed.
Print Assumptions C59_text.
(** every node has exactly one string; its rows are exactly the suffixes that start with it, and depth is its length.
    Conversely the rows of every string that occurs in the text are a node *)
Theorem C59_labels : forall g B deg k a T sa L x c, tree_of B deg k a T sa L x c ->
  (forall i j, lcp_interval (map N.of_nat L) i j -> exists w P, tnode g B deg c T sa L i j w P /\
     (forall Q, node_label T sa i j Q -> Q = P) /\ sa_interval T sa P i (j + 1) /\ depth_ g B deg c w = Some (N.of_nat (length P))) /\
  (forall P l r, sa_interval T sa P l r -> l < r -> lcp_interval (map N.of_nat L) l (r - 1)).
Proof.
  intros g B deg k a T sa L x c TR. destruct (open_tree _ _ _ _ _ _ _ _ _ TR [] ltac:(intros ? [])) as (M & CO & MT & _). destruct TR as (HB & HB0 & Hd & K & TOK & SA & LC & F & E & MK). split; [|intros; eapply locus; eauto].
  intros i j H. destruct (node_has_label T sa L TOK SA LC i j H) as (P & LB & SI & LF & IF). pose proof (text_lcp_ok T sa L TOK SA LC) as OK. pose proof (node_bounds g B deg HB HB0 Hd T sa L LC M MT i j H) as BB.
  assert (MK' := MK). rewrite (ao_sigma _ _ _ (co_al _ _ _ _ CO)), <- (text_zeros T sa L TOK SA LC) in MK'. destruct (p_node g B deg HB HB0 Hd _ sa OK c MK' i j H) as (w & W & _). exists w, P. split; [split; auto|]. split; [intros Q LQ; eapply label_uniq; eauto|]. split; [exact SI|].
  pose proof (A_len T sa L LC) as AL. pose proof (sa_len T sa SA) as SL. destruct (Nat.eq_dec i j) as [EQ|NE].
  - subst j. specialize (LF eq_refl). pose proof (row_lt T sa SA i ltac:(lia)) as RL. unfold row in *. rewrite (p_depth_leaf g B deg HB HB0 Hd _ sa OK c MK' i w) by (rewrite ?AL; auto; lia). rewrite AL, LF. reflexivity.
  - specialize (IF ltac:(lia)). destruct IF as (_ & H2 & (y & Y & EY) & _). destruct (p_depth g B deg HB HB0 Hd _ sa OK c MK' i j w H ltac:(lia) W) as (l & -> & V1 & (z & Z & EZ)). f_equal. apply N.le_antisymm.
    + rewrite <- EY. apply V1. lia.
    + rewrite <- EZ. apply H2. lia.
Qed.
Print Assumptions C59_labels.
(** child(v, ch): the node below v on the branch that starts with ch, the root if there is no such branch *)
Theorem C59_child : forall g B deg k a T sa L x c, tree_of B deg k a T sa L x c -> forall dens i j w P ch, tnode g B deg c T sa L i j w P -> sym_fits a ch ->
  ((exists p, occurs_at T (P ++ [ch]) p) -> exists i' j' w' P', child g B deg c x dens w ch = Some w' /\ tnode g B deg c T sa L i' j' w' P' /\
     parent_of (map N.of_nat L) i' j' i j /\ sa_interval T sa (P ++ [ch]) i' (j' + 1)) /\
  (~ (exists p, occurs_at T (P ++ [ch]) p) -> child g B deg c x dens w ch = root c).
Proof.
  intros g B deg k a T sa L x c TR dens i j w P ch (H & W & LB) FC. destruct (open_tree _ _ _ _ _ _ _ _ _ TR [ch] ltac:(intros ? [<-|[]]; auto)) as (M & CO & MT & MC). specialize (MC ch (or_introl eq_refl)). destruct TR as (HB & HB0 & Hd & K & TOK & SA & LC & F & E & MK).
  destruct (t_child g B deg HB HB0 Hd T sa L TOK SA LC M x CO MT dens c MK i j w P ch H W LB MC) as (C1 & C2). split; [|exact C2]. intros EX. destruct (C1 EX) as (i' & j' & w' & D1 & D2 & D3 & D4 & D5). destruct (node_has_label T sa L TOK SA LC i' j' D4) as (P' & LB' & _). exists i', j', w', P'. split; [exact D1|]. split; [split; auto|]. auto.
Qed.
Print Assumptions C59_child.
(** edge(v, d): the d-th symbol of the string of v *)
Theorem C59_edge : forall g B deg k a T sa L x c, tree_of B deg k a T sa L x c -> forall dens i j w P d, tnode g B deg c T sa L i j w P -> 1 <= d <= length P ->
  edge x dens w d = Some (nth (d - 1) P 0).
Proof.
  intros g B deg k a T sa L x c TR dens i j w P d (H & W & LB) D. destruct (open_tree _ _ _ _ _ _ _ _ _ TR [] ltac:(intros ? [])) as (M & CO & MT & _). destruct TR as (HB & HB0 & Hd & K & TOK & SA & LC & F & E & MK).
  exact (t_edge g B deg HB HB0 Hd T sa L TOK SA LC M x CO MT dens c MK i j w P d H W LB D).
Qed.
Print Assumptions C59_edge.
(** sl(v): the node whose string is that of v without the first symbol; the root is its own suffix link *)
Theorem C59_sl : forall g B deg k a T sa L x c, tree_of B deg k a T sa L x c ->
  (forall i j w P, tnode g B deg c T sa L i j w P -> root c <> Some w -> exists i' j' w', sl g B deg c x w = Some w' /\ tnode g B deg c T sa L i' j' w' (tl P)) /\
  (forall w, root c = Some w -> sl g B deg c x w = Some w).
Proof.
  intros g B deg k a T sa L x c TR. split; [|intros; eapply t_sl_root; eauto]. intros i j w P (H & W & LB) NR. destruct (open_tree _ _ _ _ _ _ _ _ _ TR [] ltac:(intros ? [])) as (M & CO & MT & _). destruct TR as (HB & HB0 & Hd & K & TOK & SA & LC & F & E & MK).
  destruct (t_sl g B deg HB HB0 Hd T sa L TOK SA LC M x CO MT 0 c MK i j w P H W) as (i' & j' & w' & D1 & D2 & D3 & D4); auto.
  - intros EQ. injection EQ as -> ->. apply NR. rewrite <- W. assert (MK' := MK). rewrite (ao_sigma _ _ _ (co_al _ _ _ _ CO)), <- (text_zeros T sa L TOK SA LC) in MK'. destruct (p_root g B deg HB HB0 Hd _ sa (text_lcp_ok T sa L TOK SA LC) c MK') as (-> & _). rewrite (A_len T sa L LC). reflexivity.
  - exists i', j', w'. split; [exact D1|]. split; auto.
Qed.
Print Assumptions C59_sl.
(** wl(v, ch) for ch <> 0: the node of the string ch followed by that of v, the root if this does not occur.  Missing, because
    false: ch = 0 (C59_wl_zero_refuted) *)
Theorem C59_wl_partial : forall g B deg k a T sa L x c, tree_of B deg k a T sa L x c -> forall i j w P ch, tnode g B deg c T sa L i j w P -> sym_fits a ch -> ch <> 0 ->
  ((exists p, occurs_at T (ch :: P) p) -> exists i' j' w' P', wl g B deg c x w ch = Some w' /\ tnode g B deg c T sa L i' j' w' P' /\ sa_interval T sa (ch :: P) i' (j' + 1)) /\
  (~ (exists p, occurs_at T (ch :: P) p) -> wl g B deg c x w ch = root c).
Proof.
  intros g B deg k a T sa L x c TR i j w P ch (H & W & LB) FC NZ. destruct (open_tree _ _ _ _ _ _ _ _ _ TR [ch] ltac:(intros ? [<-|[]]; auto)) as (M & CO & MT & MC). specialize (MC ch (or_introl eq_refl)). destruct TR as (HB & HB0 & Hd & K & TOK & SA & LC & F & E & MK).
  destruct (t_wl g B deg HB HB0 Hd T sa L TOK SA LC M x CO MT c MK i j w P ch H W LB ltac:(lia)) as (C1 & C2). split; [|exact C2]. intros EX. destruct (C1 EX) as (i' & j' & w' & D1 & D2 & D3 & D4). destruct (node_has_label T sa L TOK SA LC i' j' D3) as (P' & LB' & _). exists i', j', w', P'. split; [exact D1|]. split; [split; auto|]. auto.
Qed.
Print Assumptions C59_wl_partial.

(** abracadabra$ as 1 2 5 1 3 1 4 1 2 5 1 0 *)
Definition ct_T : list nat := [1; 2; 5; 1; 3; 1; 4; 1; 2; 5; 1; 0].
Definition ct_SA : list nat := [11; 10; 7; 0; 3; 5; 8; 1; 4; 6; 9; 2].
Definition ct_L : list nat := [0; 0; 1; 4; 1; 1; 0; 3; 0; 0; 0; 2].
Definition ct_demo {X} (f : csa -> cst -> option X) : option X :=
  let* x := build KBC ABYTE ct_T ct_SA in let* c := cst_make 8 2 (map N.of_nat ct_L) (al_sigma (c_al x)) ct_SA in f x c.
Local Notation gg := (fun _ => true).
Example ct_tree : exists x c, tree_of 8 2 KBC ABYTE ct_T ct_SA ct_L x c.
Proof.
  eexists _, _. split; [reflexivity|]. split; [lia|]. split; [lia|]. split; [exact I|]. split; [exists (firstn 11 ct_T); split; [reflexivity|cbn; intuition lia]|]. split; [apply sa_check_ok; vm_compute; reflexivity|].
  split; [|split; [|split; [vm_compute; reflexivity|vm_compute; reflexivity]]].
  - split; [reflexivity|]. split; [reflexivity|]. intros i K. change (length ct_T) with 12 in K. do 12 (destruct i as [|i]; [solve [lia|vm_compute; reflexivity]|]). lia.
  - intros ch C. cbn [sym_fits]. apply Nat.ltb_lt. cbn in C. repeat (destruct C as [<- | C]; [vm_compute; reflexivity|]). tauto.
Qed.
Definition ct_pr (w : option node) : option (nat * nat) := let* w := w in Some (lb w, rb w).
Definition ct_at {X} (i j : nat) (f : csa -> cst -> node -> X) : option X := ct_demo (fun x c => let* w := mknode gg 8 2 c i j in Some (f x c w)).
(** children of the node "a" (rows 1..5): $, bra, c, d; the other symbols lead to the root *)
Example ct_child : ct_at 1 5 (fun x c w => map (fun ch => ct_pr (child gg 8 2 c x 4 w ch)) [0; 1; 2; 3; 4; 5; 6]) =
  Some [Some (1, 1); Some (0, 11); Some (2, 3); Some (4, 4); Some (5, 5); Some (0, 11); Some (0, 11)].
Proof. vm_compute. reflexivity. Qed.
(** "abra": edge *)
Example ct_edge : ct_at 2 3 (fun x c w => map (edge x 4 w) [1; 2; 3; 4]) = Some [Some 1; Some 2; Some 5; Some 1].
Proof. vm_compute. reflexivity. Qed.
(** suffix links: abra -> bra -> ra -> a -> root; the leaf $ -> root *)
Example ct_sl : ct_demo (fun x c => Some (map (fun q => let* w := mknode gg 8 2 c (fst q) (snd q) in ct_pr (sl gg 8 2 c x w)) [(2, 3); (6, 7); (10, 11); (1, 5); (0, 0); (3, 3)])) =
  Some [Some (6, 7); Some (10, 11); Some (1, 5); Some (0, 11); Some (0, 11); Some (7, 7)].
Proof. vm_compute. reflexivity. Qed.
(** Weiner links of "a": ca, da, ra; ba does not occur *)
Example ct_wl : ct_at 1 5 (fun x c w => map (fun ch => ct_pr (wl gg 8 2 c x w ch)) [1; 2; 3; 4; 5]) = Some [Some (0, 11); Some (0, 11); Some (8, 8); Some (9, 9); Some (10, 11)].
Proof. vm_compute. reflexivity. Qed.
(** Finding: wl(v, 0) treats the text as cyclic: for v = "abracadabra$" (row 3) it returns the leaf "$" although $ is followed
    by nothing *)
Theorem C59_wl_zero_refuted : exists x c v w, build KBC ABYTE ct_T ct_SA = Some x /\ cst_make 8 2 (map N.of_nat ct_L) (al_sigma (c_al x)) ct_SA = Some c /\
  mknode gg 8 2 c 3 3 = Some v /\ wl gg 8 2 c x v 0 = Some w /\ root c <> Some w /\ forall p, ~ occurs_at ct_T (0 :: ct_T) p.
Proof.
  eexists _, _, _, _. split; [vm_compute; reflexivity|]. split; [vm_compute; reflexivity|]. split; [vm_compute; reflexivity|]. split; [vm_compute; reflexivity|]. split; [vm_compute; discriminate|].
  intros p H. unfold occurs_at in H. apply (f_equal (@length nat)) in H. rewrite firstn_length, skipn_length in H. cbn [length ct_T] in H. lia.
Qed.
Print Assumptions C59_wl_zero_refuted.
