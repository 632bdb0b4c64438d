(** * Proofs about the hugepage allocator: all histories *)
From Coq Require Import NArith List Bool Arith Lia Permutation.
From Verif Require Import Base WtBase WtProofs Hugepage SpecHuge HugepageProofs HugepageProofs2 HugepageProofs3.
Import ListNotations.

Lemma words_le : forall n w, (n + 16 <= 8 * N.of_nat w)%N -> words n + 2 <= w.
Proof. intros n w H. unfold words. pose proof (N.mul_div_le (n + 7) 8 ltac:(lia)). lia. Qed.

(** each live allocation sits in a used block, and every used block belongs to one *)
Definition own (a : nat * N) (b : nat * nat) : Prop := fst a = fst b + 1 /\ (snd a + 16 <= 8 * N.of_nat (snd b))%N.
Definition rel (h : hp) (l : list (nat * N)) : Prop := exists bl u, inv h bl /\ Permutation (ul 0 bl) u /\ Forall2 own l u.

Lemma copy_strict : forall g m d s n, copy_bytes true g m d s n = None \/ copy_bytes true g m d s n = copy_bytes false g m d s n.
Proof. intros. unfold copy_bytes at 1 2. cbn [andb]. destruct (negb _) eqn:E; [left; reflexivity|right]. unfold copy_bytes. cbn [andb]. reflexivity. Qed.
Lemma realloc_strict : forall g h p n, mm_realloc true g h p n = Ub \/ mm_realloc true g h p n = mm_realloc false g h p n.
Proof.
  intros g h [p|] n; [|right; reflexivity]. unfold mm_realloc.
  assert (V : (let! r := mm_alloc h n in let! m := lift (copy_bytes true g (h_mem (snd r)) (fst r) p n) in let! h := lift (mm_free (h_setmem (snd r) m) p) in Ok (Some (fst r), h)) = Ub \/
    (let! r := mm_alloc h n in let! m := lift (copy_bytes true g (h_mem (snd r)) (fst r) p n) in let! h := lift (mm_free (h_setmem (snd r) m) p) in Ok (Some (fst r), h)) =
    (let! r := mm_alloc h n in let! m := lift (copy_bytes false g (h_mem (snd r)) (fst r) p n) in let! h := lift (mm_free (h_setmem (snd r) m) p) in Ok (Some (fst r), h))).
  { destruct (mm_alloc h n) as [[np h1]| |]; cbn [rbind]; auto. destruct (copy_strict g (h_mem (snd (np, h1))) (fst (np, h1)) p n) as [E|E]; rewrite E; auto. }
  destruct (n =? 0)%N; auto. destruct (lift (csub p 1)) as [q| |]; cbn [rbind]; auto. destruct (lift (block_datasize (h_mem h) q)) as [d| |]; cbn [rbind]; auto.
  destruct (n =? d)%N; auto. destruct (n <? d)%N; auto. destruct (lift (block_next (h_mem h) (h_top h) q)) as [[nx|]| |]; cbn [rbind]; auto.
  destruct (lift (ld (h_mem h) nx)) as [s2| |]; cbn [rbind]; auto. destruct (isfree s2).
  - destruct (n <=? wadd d (unmask s2))%N; auto.
  - destruct (lift (block_prev (h_mem h) q)) as [[pv|]| |]; cbn [rbind]; auto.
    destruct (lift (free_at (h_mem h) (Some pv))) as [[|]| |]; cbn [rbind]; auto. destruct (lift (ld (h_mem h) pv)) as [s1| |]; cbn [rbind]; auto.
    destruct (n <=? wadd d (unmask s1))%N; auto.
Qed.
Lemma own_split : forall l1 a l2 u, Forall2 own (l1 ++ a :: l2) u -> exists u1 b u2, u = u1 ++ b :: u2 /\ Forall2 own l1 u1 /\ own a b /\ Forall2 own l2 u2.
Proof.
  intros l1 a l2 u H. apply Forall2_app_inv_l in H. destruct H as (u1 & r & H1 & H2 & ->). inversion H2; subst. eauto 8.
Qed.
Lemma own_data : forall h bl u l a, inv h bl -> Permutation (ul 0 bl) u -> Forall2 own l u -> In a l -> exists b, In b (ul 0 bl) /\ own a b.
Proof. intros h bl u l a I P F H. apply in_split in H. destruct H as (l1 & l2 & ->). destruct (own_split _ _ _ _ F) as (u1 & b & u2 & -> & _ & O & _). exists b. split; auto. rewrite P. apply in_or_app. right. left. auto. Qed.

(** effect of one call on any related state *)
Lemma same_keeps : forall m m' l u v, keeps m m' v -> (forall b, In b u -> In b v) -> Forall2 own l u -> Forall (same_data m m') l.
Proof.
  intros m m' l u v K S F. induction F as [|a b l u O F IH]; constructor.
  - intros i Hi. destruct b as [P W]. destruct a as [p n]. destruct O as [O1 O2]. cbn [fst snd] in *. subst p. apply words_le in O2. apply (K P W).
    + apply S. left. auto.
    + lia.
  - apply IH. intros. apply S. right. auto.
Qed.
Lemma alloc_rel : forall h l n, rel h l -> req n ->
  match mm_alloc h n with
  | Ok (p, h') => rel h' ((p, n) :: l) /\ Forall (same_data (h_mem h) (h_mem h')) l /\ h_tot h' = h_tot h /\ h_top h <= h_top h'
  | Nomem => (h_tot h < 8 * N.of_nat (h_top h) + N.max 32 (n + 23))%N
  | Ub => False
  end.
Proof.
  intros h l n (bl & u & I & P & F) (H1 & H2). pose proof (alloc_ok h bl n I H1 H2) as A. destruct (mm_alloc h n) as [[p h']| |]; cbn [alloc_post] in A; auto.
  - destruct A as (bl' & w & P1 & I' & PM & Fit & K & TOP & TT). split; [|split; [|split]]; auto.
    + exists bl', ((p - 1, w) :: u). split; auto. split; [rewrite PM; apply perm_skip; auto|]. constructor; auto. split; cbn [fst snd]; auto. lia.
    + apply (same_keeps _ _ l u (ul 0 bl)); auto. intros. rewrite P. auto.
    + lia.
  - tauto.
Qed.
Lemma free_rel : forall h l1 l2 p n, rel h (l1 ++ (p, n) :: l2) ->
  exists h', mm_free h p = Some h' /\ rel h' (l1 ++ l2) /\ Forall (same_data (h_mem h) (h_mem h')) (l1 ++ l2) /\ h_top h' = h_top h /\ h_tot h' = h_tot h /\
    forall n', req n' -> (n' <= n)%N -> exists p' h'', mm_alloc h' n' = Ok (p', h'') /\ h_top h'' = h_top h.
Proof.
  intros h l1 l2 p n (bl & u & I & P & F). destruct (own_split _ _ _ _ F) as (u1 & [q w] & u2 & -> & F1 & [O1 O2] & F2). cbn [fst snd] in *. subst p.
  assert (HIn : In (q, w) (ul 0 bl)) by (rewrite P; apply in_or_app; right; left; auto).
  destruct (free_ok h bl q w I HIn) as (h' & bl' & E & I' & T1 & T2 & PM & K & (w' & W1 & W2)). exists h'. split; auto.
  assert (P' : Permutation (ul 0 bl') (u1 ++ u2)).
  { apply (Permutation_cons_inv (a := (q, w))). rewrite <- PM, P. symmetry. apply Permutation_middle. }
  split; [|split; [|split; [|split]]]; auto.
  - exists bl', (u1 ++ u2). split; auto. split; auto. apply Forall2_app; auto.
  - apply (same_keeps _ _ _ (u1 ++ u2) (ul 0 bl')); auto; [|apply Forall2_app; auto]. intros. rewrite P'. auto.
  - intros n' [R1 R2] L. pose proof (alloc_ok h' bl' n' I' R1 R2) as A. destruct (mm_alloc h' n') as [[p' h'']| |]; cbn [alloc_post] in A; [| |destruct A].
    + destruct A as (bl2 & w2 & _ & _ & _ & _ & _ & [TOP|[_ NF]] & _); [exists p', h''; split; auto; congruence|]. exfalso. specialize (NF w' W2). lia.
    + exfalso. destruct A as [NF _]. specialize (NF w' W2). lia.
Qed.
Lemma realloc_rel : forall strict g h l1 l2 p n n', rel h (l1 ++ (p, n) :: l2) -> req n' -> (1 <= n')%N ->
  match mm_realloc strict g h (Some p) n' with
  | Ok (Some p', h') => rel h' ((p', n') :: l1 ++ l2) /\ Forall (same_data (h_mem h) (h_mem h')) (l1 ++ l2) /\
      (forall i, i < words n -> i < words n' -> nth_error (h_mem h') (p' + i) = nth_error (h_mem h) (p + i)) /\ h_tot h' = h_tot h
  | Ok (None, _) => False
  | Nomem => True
  | Ub => strict = true
  end.
Proof.
  intros strict g h l1 l2 p n n' (bl & u & I & P & F) (R1 & R2) R3. destruct (own_split _ _ _ _ F) as (u1 & [q w] & u2 & -> & F1 & [O1 O2] & F2). cbn [fst snd] in *. subst p.
  assert (HIn : In (q, w) (ul 0 bl)) by (rewrite P; apply in_or_app; right; left; auto).
  assert (G : match mm_realloc false g h (Some (q + 1)) n' with
  | Ok (Some p', h') => rel h' ((p', n') :: l1 ++ l2) /\ Forall (same_data (h_mem h) (h_mem h')) (l1 ++ l2) /\
      (forall i, i < words n -> i < words n' -> nth_error (h_mem h') (p' + i) = nth_error (h_mem h) (q + 1 + i)) /\ h_tot h' = h_tot h
  | Ok (None, _) => False
  | Nomem => True
  | Ub => False end).
  { pose proof (realloc_ok g h bl q w n' I HIn ltac:(auto) R2) as A. destruct (mm_realloc false g h (Some (q + 1)) n') as [[[p'|] h']| |]; cbn [realloc_post] in A; auto.
    destruct A as (bl' & w' & R & P1 & I' & PR & PM & Fit & K & C & TT).
    assert (PR' : Permutation R (u1 ++ u2)).
    { apply (Permutation_cons_inv (a := (q, w))). rewrite <- PR, P. symmetry. apply Permutation_middle. }
    split; [|split; [|split]]; auto.
    - exists bl', ((p' - 1, w') :: u1 ++ u2). split; auto. split; [rewrite PM; apply perm_skip; auto|]. constructor; [split; cbn [fst snd]; auto; lia|]. apply Forall2_app; auto.
    - apply (same_keeps _ _ _ (u1 ++ u2) R); auto; [|apply Forall2_app; auto]. intros. rewrite PR'. auto.
    - intros i Hi Hi'. apply words_le in O2. apply words_le in Fit. apply C; lia. }
  destruct strict.
  - destruct (realloc_strict g h (Some (q + 1)) n') as [E|E]; rewrite E; auto. destruct (mm_realloc false g h (Some (q + 1)) n') as [[[p'|] h']| |]; auto. 
  - destruct (mm_realloc false g h (Some (q + 1)) n') as [[[p'|] h']| |]; auto.
Qed.
Lemma reach_rel : forall h l, reach h l -> rel h l.
Proof.
  intros h l R. induction R as [m Hm|h l n p h' R IH Rq E|h l1 l2 p n h' R IH E|strict g h l1 l2 p n n' p' h' R IH Rq R1 E|h l p n i v m R IH HIn Hi E].
  - exists [], []. split; [|split; constructor]. unfold inv, base_ok, hp_init. cbn. repeat split; auto; lia.
  - pose proof (alloc_rel h l n IH Rq) as A. rewrite E in A. tauto.
  - destruct (free_rel h l1 l2 p n IH) as (h2 & E2 & R2 & _). congruence.
  - pose proof (realloc_rel strict g h l1 l2 p n n' IH Rq R1) as A. rewrite E in A. tauto.
  - destruct IH as (bl & u & I & P & F). exists bl, u. split; auto. destruct (own_data h bl u l _ I P F HIn) as ([q w] & HB & [O1 O2]). cbn [fst snd] in *. subst p.
    apply words_le in O2. unfold st in E. destruct (Nat.ltb_spec (q + 1 + i) (length (h_mem h))) as [L|L]; [|discriminate]. injection E as <-.
    apply (inv_write h bl _ q w); auto; [apply upd_length|]. intros. apply nth_error_upd_neq. lia.
Qed.
Lemma rel_apart : forall h l, rel h l -> ForallOrdPairs apart l /\ Forall (fun a => 1 <= fst a /\ fst a + words (snd a) <= length (h_mem h)) l.
Proof.
  intros h l (bl & u & I & P & F). destruct (inv_ul h bl I) as (_ & _ & RG). assert (LT : h_top h <= length (h_mem h)) by apply I. split.
  - clear RG LT. assert (G : forall v, Permutation (ul 0 bl) (v ++ u) -> ForallOrdPairs apart l); [|apply (G []); auto]. clear P.
    induction F as [|a [q w] l u O F IH]; intros v P; constructor.
    + assert (X : forall l' u', Forall2 own l' u' -> (forall b, In b u' -> In b (v ++ u)) -> Forall (apart a) l'); [|apply (X l u); auto; intros; apply in_or_app; auto].
      intros l' u' F'. induction F' as [|a' [q' w'] l' u' O' F' IH']; intros S; constructor.
      * assert (P2 : Permutation (ul 0 bl) ((q, w) :: v ++ u)) by (rewrite P; symmetry; apply Permutation_middle).
        pose proof (ul_two h bl q w q' w' _ I P2 (S _ (or_introl eq_refl))). destruct O as [O1 O2]. destruct O' as [O1' O2']. cbn [fst snd] in *.
        apply words_le in O2. apply words_le in O2'. unfold apart. lia.
      * apply IH'. intros. apply S. right. auto.
    + apply (IH (v ++ [(q, w)])). rewrite <- app_assoc. auto.
  - apply Forall_forall. intros [p n] H. destruct (own_data h bl u l _ I P F H) as ([q w] & HB & [O1 O2]). cbn [fst snd] in *.
    destruct (RG _ _ HB). apply words_le in O2. lia.
Qed.
Lemma rel_empty : forall h n, rel h [] -> req n -> (n + 16 <= 8 * N.of_nat (h_top h))%N -> exists p h', mm_alloc h n = Ok (p, h') /\ h_top h' = h_top h.
Proof.
  intros h n (bl & u & I & P & F) (R1 & R2) L. inversion F; subst. apply Permutation_sym, Permutation_nil in P. pose proof (alloc_ok h bl n I R1 R2) as A.
  assert (EB : bl = [(h_top h, true)]).
  { destruct I as (HB & HT & T & NA & FR). destruct bl as [|[w f] bl]; [cbn [len] in HT; lia|]. cbn [ul] in P. destruct f; [|discriminate].
    destruct bl as [|[w2 f2] bl]; [cbn [len] in HT; f_equal; f_equal; lia|]. cbn [ul app] in P. destruct f2; [|discriminate]. cbn [na] in NA. destruct NA as (_ & X & _). discriminate. }
  destruct (mm_alloc h n) as [[p h']| |]; cbn [alloc_post] in A; [| |destruct A].
  - destruct A as (bl2 & w2 & _ & _ & _ & _ & _ & [TOP|[_ NF]] & _); [eauto|]. exfalso. specialize (NF (h_top h)). rewrite EB in NF. specialize (NF (or_introl eq_refl)). lia.
  - exfalso. destruct A as [NF _]. specialize (NF (h_top h)). rewrite EB in NF. specialize (NF (or_introl eq_refl)). lia.
Qed.
Lemma alloc_reach : forall h live n, reach h live -> req n ->
  match mm_alloc h n with
  | Ok (p, h') => reach h' ((p, n) :: live) /\ Forall (same_data (h_mem h) (h_mem h')) live
  | Nomem => (h_tot h < 8 * N.of_nat (h_top h) + N.max 32 (n + 23))%N
  | Ub => False
  end.
Proof.
  intros h l n R Q. pose proof (alloc_rel h l n (reach_rel _ _ R) Q) as A. destruct (mm_alloc h n) as [[p h']| |] eqn:E; auto. split; [|tauto]. eapply r_alloc; eauto.
Qed.
Lemma free_reach : forall h l1 l2 p n, reach h (l1 ++ (p, n) :: l2) ->
  exists h', mm_free h p = Some h' /\ reach h' (l1 ++ l2) /\ Forall (same_data (h_mem h) (h_mem h')) (l1 ++ l2) /\ h_top h' = h_top h /\
    forall n', req n' -> (n' <= n)%N -> exists p' h'', mm_alloc h' n' = Ok (p', h'') /\ h_top h'' = h_top h.
Proof.
  intros h l1 l2 p n R. destruct (free_rel h l1 l2 p n (reach_rel _ _ R)) as (h' & E & _ & S1 & T & _ & A). exists h'. split; auto. split; [eapply r_free; eauto|auto].
Qed.
Lemma realloc_reach : forall strict g h l1 l2 p n n', reach h (l1 ++ (p, n) :: l2) -> req n' -> (1 <= n')%N ->
  match mm_realloc strict g h (Some p) n' with
  | Ok (Some p', h') => reach h' ((p', n') :: l1 ++ l2) /\ Forall (same_data (h_mem h) (h_mem h')) (l1 ++ l2) /\
      forall i, i < words n -> i < words n' -> nth_error (h_mem h') (p' + i) = nth_error (h_mem h) (p + i)
  | Ok (None, _) => False
  | Nomem => True
  | Ub => strict = true
  end.
Proof.
  intros strict g h l1 l2 p n n' R Q Q1. pose proof (realloc_rel strict g h l1 l2 p n n' (reach_rel _ _ R) Q Q1) as A.
  destruct (mm_realloc strict g h (Some p) n') as [[[p'|] h']| |] eqn:E; auto. split; [eapply r_realloc; eauto|tauto].
Qed.
