(** * Proofs about the hugepage allocator: copying and mm_realloc *)
From Coq Require Import NArith List Bool Arith Lia Permutation.
From Verif Require Import Base WtBase WtProofs Hugepage HugepageProofs HugepageProofs2.
Import ListNotations.

Lemma put_words_ok : forall l m dst, dst + length l <= length m -> exists m', put_words m dst l = Some m' /\ length m' = length m /\
  forall q, nth_error m' q = if (dst <=? q) && (q <? dst + length l) then nth_error l (q - dst) else nth_error m q.
Proof.
  induction l as [|x l IH]; intros m dst H; cbn [put_words length] in *.
  - exists m. repeat split; auto. intros q. destruct (Nat.leb_spec dst q); destruct (Nat.ltb_spec q (dst + 0)); auto; lia.
  - unfold st. rewrite (proj2 (Nat.ltb_lt dst (length m))) by lia. cbn [obind]. destruct (IH (upd m dst x) (dst + 1)) as (m' & E1 & E2 & E3); [rewrite upd_length; lia|].
    exists m'. rewrite upd_length in E2. repeat split; auto. intros q. rewrite E3. destruct (Nat.eq_dec q dst) as [->|NE].
    + rewrite (proj2 (Nat.leb_gt (dst + 1) dst)) by lia. cbn [andb]. rewrite nth_error_upd_eq by lia. rewrite Nat.leb_refl, (proj2 (Nat.ltb_lt dst _)) by lia.
      rewrite Nat.sub_diag. reflexivity.
    + rewrite nth_error_upd_neq by auto. destruct (Nat.leb_spec dst q); destruct (Nat.leb_spec (dst + 1) q); try lia; cbn [andb]; auto.
      replace (dst + 1 + length l) with (dst + S (length l)) by lia. destruct (q <? dst + S (length l)); auto. replace (q - dst) with (S (q - (dst + 1))) by lia. reflexivity.
Qed.
Lemma copy_ok : forall g m dst src n c, (n <= 8 * N.of_nat c)%N -> dst + c <= length m ->
  exists m', copy_bytes false g m dst src n = Some m' /\ length m' = length m /\
    (forall i, (8 * N.of_nat (i + 1) <= n)%N -> src + i < length m -> nth_error m' (dst + i) = nth_error m (src + i)) /\
    (forall q, q < dst \/ dst + c <= q -> nth_error m' q = nth_error m q).
Proof.
  intros g m dst src n c Hc Hd. unfold copy_bytes. cbn [andb]. pose proof (N.div_mod n 8 ltac:(lia)) as DM. pose proof (N.mod_lt n 8 ltac:(lia)) as ML.
  set (k := N.to_nat (n / 8)). assert (EK : (n / 8 = N.of_nat k)%N) by (unfold k; lia).
  assert (LW : length (get_words g m src k) = k) by (unfold get_words; rewrite map_length, seq_length; auto).
  destruct (put_words_ok (get_words g m src k) m dst) as (m1 & E1 & E2 & E3). { rewrite LW. rewrite EK in DM. lia. }
  rewrite E1. cbn [obind]. rewrite LW in E3.
  assert (GW : forall i, i < k -> src + i < length m -> nth_error (get_words g m src k) i = nth_error m (src + i)).
  { intros i Hi Hs. unfold get_words. rewrite nth_error_map. rewrite (nth_error_nth' (seq 0 k) 0) by (rewrite seq_length; auto). rewrite seq_nth by auto. cbn [option_map].
    symmetry. apply nth_error_nth'. auto. }
  destruct (Nat.eqb_spec (N.to_nat (n mod 8)) 0) as [R0|R0].
  - exists m1. repeat split; auto.
    + intros i Hi Hs. rewrite E3. rewrite (proj2 (Nat.leb_le dst _)) by lia. rewrite (proj2 (Nat.ltb_lt _ (dst + k))) by (rewrite EK in DM; lia). cbn [andb].
      replace (dst + i - dst) with i by lia. apply GW; auto. rewrite EK in DM. lia.
    + intros q Hq. rewrite E3. destruct (Nat.leb_spec dst q); destruct (Nat.ltb_spec q (dst + k)); auto. exfalso. rewrite EK in DM. lia.
  - assert (KC : k < c) by (rewrite EK in DM; lia). rewrite ld_some by (rewrite E2; lia). cbn [obind]. unfold st. rewrite (proj2 (Nat.ltb_lt _ (length m1))) by (rewrite E2; lia).
    eexists. split; [reflexivity|]. rewrite upd_length. split; auto. split.
    + intros i Hi Hs. assert (i < k) by (rewrite EK in DM; lia). rewrite nth_error_upd_neq by lia. rewrite E3. rewrite (proj2 (Nat.leb_le dst _)) by lia.
      rewrite (proj2 (Nat.ltb_lt _ (dst + k))) by lia. cbn [andb]. replace (dst + i - dst) with i by lia. apply GW; auto.
    + intros q Hq. rewrite nth_error_upd_neq by lia. rewrite E3. destruct (Nat.leb_spec dst q); destruct (Nat.ltb_spec q (dst + k)); auto. lia.
Qed.

Lemma ul_disj : forall bl p, (forall w f, In (w, f) bl -> 1 <= w) -> NoDup (map fst (ul p bl)) /\
  forall P W P' W', In (P, W) (ul p bl) -> In (P', W') (ul p bl) -> (P = P' /\ W = W') \/ P + W <= P' \/ P' + W' <= P.
Proof.
  induction bl as [|[w f] bl IH]; intros p H; cbn [ul]. { split; [constructor|intros ? ? ? ? []]. }
  destruct (IH (p + w)) as [N1 D1]. { intros. eapply H. right. eauto. }
  pose proof (H w f ltac:(left; auto)) as Hw. destruct f; cbn [app]; [split; auto|]. split.
  - cbn [map fst]. constructor; auto. intros X. apply in_map_iff in X. destruct X as ([a b] & <- & X). apply ul_range in X. cbn in *. lia.
  - intros P W P' W' [X|X] [Y|Y].
    + injection X as <- <-. injection Y as <- <-. auto.
    + injection X as <- <-. apply ul_range in Y. lia.
    + injection Y as <- <-. apply ul_range in X. lia.
    + eauto.
Qed.
Lemma inv_ul : forall h bl, inv h bl -> NoDup (map fst (ul 0 bl)) /\
  (forall P W P' W', In (P, W) (ul 0 bl) -> In (P', W') (ul 0 bl) -> (P = P' /\ W = W') \/ P + W <= P' \/ P' + W' <= P) /\
  (forall P W, In (P, W) (ul 0 bl) -> 2 <= W /\ P + W <= h_top h).
Proof.
  intros h bl (HB & HT & T & NA & FR). destruct (ul_disj bl 0) as [A B]. { intros. pose proof (tiled_w _ _ _ T w f H). lia. }
  split; auto. split; auto. intros P W H. pose proof (ul_range _ _ _ _ H). destruct (ul_in _ _ _ _ H) as (X & Y & E & _).
  split; [|lia]. apply (tiled_w bl (h_mem h) 0 T W false). rewrite E. apply in_or_app. right. left. auto.
Qed.
(** two different entries of the used blocks do not meet *)
Lemma ul_two : forall h bl P W P' W' R, inv h bl -> Permutation (ul 0 bl) ((P, W) :: R) -> In (P', W') R -> P + W <= P' \/ P' + W' <= P.
Proof.
  intros h bl P W P' W' R I PM H. destruct (inv_ul h bl I) as (A & B & _). destruct (B P W P' W') as [[-> ->]|X]; auto.
  - rewrite PM. left. auto.
  - rewrite PM. right. auto.
  - exfalso. apply (Permutation_map fst) in PM. cbn [map fst] in PM. apply (Permutation_NoDup PM) in A. inversion A; subst. apply H2. apply in_map_iff. exists (P', W'). auto.
Qed.
Lemma tiled_write : forall bl m m' p P W, tiled m p bl -> In (P, W) (ul p bl) ->
  (forall q, ~ (P + 1 <= q < P + W - 1) -> nth_error m' q = nth_error m q) -> tiled m' p bl.
Proof.
  intros bl m m' p P W T H E. destruct (ul_in _ _ _ _ H) as (A & B & -> & ->). apply tiled_app in T. cbn [tiled] in T. destruct T as (TA & W2 & T1 & T2 & TB).
  apply tiled_app. split; [apply (tiled_frame A m); auto; intros; apply E; lia|]. cbn [tiled]. rewrite !E by lia. repeat split; auto.
  apply (tiled_frame B m); auto. intros. apply E. lia.
Qed.
Lemma inv_write : forall h bl m' P W, inv h bl -> In (P, W) (ul 0 bl) -> length m' = length (h_mem h) ->
  (forall q, ~ (P + 1 <= q < P + W - 1) -> nth_error m' q = nth_error (h_mem h) q) -> inv (h_setmem h m') bl.
Proof.
  intros h bl m' P W (HB & HT & T & NA & FR) H L E. unfold inv, base_ok. cbn [h_setmem h_mem h_top h_tot h_free]. rewrite L. repeat split; auto; try apply HB.
  eapply tiled_write; eauto.
Qed.

Definition realloc_post (h : hp) (bl : blocks) (p w : nat) (n : N) (r : res (option nat * hp)) : Prop :=
  match r with
  | Ok (Some p', h') => exists bl' w' R, p' >= 1 /\ inv h' bl' /\ Permutation (ul 0 bl) ((p, w) :: R) /\ Permutation (ul 0 bl') ((p' - 1, w') :: R) /\
      (n + 16 <= 8 * N.of_nat w')%N /\ keeps (h_mem h) (h_mem h') R /\
      (forall i, i < w - 2 -> i < w' - 2 -> nth_error (h_mem h') (p' + i) = nth_error (h_mem h) (p + 1 + i)) /\ h_tot h' = h_tot h
  | Ok (None, _) => False
  | Nomem => True
  | Ub => False
  end.
Lemma via_alloc_ok : forall g h bl p w n, inv h bl -> In (p, w) (ul 0 bl) -> (n < 2 ^ 62)%N -> (n mod 8 <> 1)%N -> (8 * N.of_nat w - 16 < n)%N ->
  realloc_post h bl p w n (let! r := mm_alloc h n in
         let! m := lift (copy_bytes false g (h_mem (snd r)) (fst r) (p + 1) n) in
         let! h := lift (mm_free (h_setmem (snd r) m) (p + 1)) in
         Ok (Some (fst r), h)).
Proof.
  intros g h bl p w n I HIn Hn H8 Hw. pose proof (alloc_ok h bl n I Hn H8) as AP. destruct (mm_alloc h n) as [[np h1]| |]; [|exact Logic.I|exact AP].
  cbn [alloc_post] in AP. destruct AP as (bl1 & w1 & N1 & I1 & P1 & F1 & K1 & _ & TT1). cbn [rbind fst snd].
  assert (IN1 : In (np - 1, w1) (ul 0 bl1)) by (rewrite P1; left; auto).
  destruct (inv_ul h1 bl1 I1) as (_ & _ & RG1). destruct (RG1 _ _ IN1) as [W1 TOP1]. assert (LT1 : h_top h1 <= length (h_mem h1)) by apply I1.
  destruct (inv_ul h bl I) as (_ & _ & RG). destruct (RG _ _ HIn) as [W2 TOP]. assert (LT : h_top h <= length (h_mem h)) by apply I.
  destruct (copy_ok g (h_mem h1) np (p + 1) n (w1 - 2)) as (m2 & C1 & C2 & C3 & C4); [lia|lia|]. rewrite C1. cbn [lift rbind].
  assert (OUT2 : forall q, ~ (np - 1 + 1 <= q < np - 1 + w1 - 1) -> nth_error m2 q = nth_error (h_mem h1) q) by (intros; apply C4; lia).
  pose proof (inv_write h1 bl1 m2 _ _ I1 IN1 C2 OUT2) as I2.
  assert (IN2 : In (p, w) (ul 0 bl1)) by (rewrite P1; right; auto).
  destruct (free_ok (h_setmem h1 m2) bl1 p w I2 IN2) as (h3 & bl3 & F & I3 & _ & TT3 & P3 & K3 & _). rewrite F. cbn [lift rbind realloc_post].
  destruct (in_split _ _ HIn) as (U1 & U2 & EU). exists bl3, w1, (U1 ++ U2).
  assert (PU : Permutation (ul 0 bl) ((p, w) :: U1 ++ U2)) by (rewrite EU; symmetry; apply Permutation_middle).
  assert (P3' : Permutation (ul 0 bl3) ((np - 1, w1) :: U1 ++ U2)).
  { apply (Permutation_cons_inv (a := (p, w))). rewrite <- P3, P1, PU. apply perm_swap. }
  split; auto. split; auto. split; auto. split; auto. split; auto. split; [|split].
  - intros P W q HR Hq. rewrite (K3 P W q); auto; [|rewrite P3'; right; auto]. cbn [h_mem h_setmem]. rewrite OUT2.
    + apply (K1 P W); auto. rewrite PU. right. auto.
    + assert (P1' : Permutation (ul 0 bl1) ((np - 1, w1) :: (p, w) :: U1 ++ U2)) by (rewrite P1, PU; reflexivity).
      destruct (ul_two h1 bl1 _ _ P W _ I1 P1') as [X|X]; [right; auto|lia|lia].
  - intros i Hi Hi'. rewrite (K3 (np - 1) w1); [|rewrite P3'; left; auto|lia]. cbn [h_mem h_setmem]. destruct (RG1 _ _ IN2) as [_ T2]. rewrite C3 by lia. apply (K1 p w); auto. lia.
  - cbn [h_setmem h_tot] in TT3. congruence.
Qed.

Lemma realloc_ok : forall g h bl p w n, inv h bl -> In (p, w) (ul 0 bl) -> (1 <= n < 2 ^ 62)%N -> (n mod 8 <> 1)%N ->
  realloc_post h bl p w n (mm_realloc false g h (Some (p + 1)) n).
Proof.
  intros g h bl p w n I HIn [Hn1 Hn] H8. pose proof HIn as HIn0. destruct (ul_in _ _ _ _ HIn) as (A & B & -> & ->). cbn [Nat.add] in *.
  destruct (inv_block h A w false B I) as (W2 & LEN & LM & THd & TFt & SM & TA & TB). pose proof I as (HB & HT & T & NA & FR).
  assert (H62 : (4 * 2 ^ 62 = W64)%N) by reflexivity. assert (H63 : (2 * 2 ^ 62 = 2 ^ 63)%N) by reflexivity. pose proof HB as (HB1 & HB2 & HB3).
  unfold mm_realloc. destruct (N.eqb_spec n 0); [lia|]. rewrite (csub_some (len A + 1) 1 (len A)) by lia. cbn [lift rbind].
  unfold block_datasize, ld at 1. rewrite THd. cbn [obind lift rbind]. rewrite unmask_hv by auto.
  rewrite (wsub_small (8 * N.of_nat w) 8) by (unfold is_word; clear - W2 SM; lia). rewrite (wsub_small (8 * N.of_nat w - 8) 8) by (unfold is_word; clear - W2 SM; lia).
  assert (UE : ul 0 (A ++ (w, false) :: B) = ul 0 A ++ (len A, w) :: ul (len A + w) B) by (rewrite ul_app; reflexivity).
  assert (PU : Permutation (ul 0 (A ++ (w, false) :: B)) ((len A, w) :: ul 0 A ++ ul (len A + w) B)) by (rewrite UE; symmetry; apply Permutation_middle).
  destruct (N.eqb_spec n (8 * N.of_nat w - 8 - 8)) as [E|NE].
  { cbn [realloc_post]. exists (A ++ (w, false) :: B), w, (ul 0 A ++ ul (len A + w) B). rewrite Nat.add_sub. repeat split; auto; try lia; try apply keeps_refl. }
  destruct (N.ltb_spec n (8 * N.of_nat w - 8 - 8)) as [LT|GE].
  { destruct (split_ok h A w B n I Hn) as (h' & bl' & w' & S1 & S2 & S3 & S4 & S5 & S6 & S7 & S8). rewrite S1. cbn [lift rbind realloc_post].
    exists bl', w', (ul 0 A ++ ul (len A + w) B). rewrite Nat.add_sub. split; [lia|]. split; auto. split; auto. split; [rewrite S5; symmetry; apply Permutation_middle|].
    split; [apply S6; clear - LT; lia|]. split; [|split; auto].
    - intros P W q HI Hq. apply (S8 P W); auto. rewrite S5. apply in_app_or in HI. apply in_or_app. destruct HI; [left|right; right]; auto.
    - intros i Hi Hi'. apply (S8 (len A) w'); [rewrite S5; apply in_or_app; right; left; auto|lia]. }
  assert (VIA : realloc_post h (A ++ (w, false) :: B) (len A) w n (let! r := mm_alloc h n in
         let! m := lift (copy_bytes false g (h_mem (snd r)) (fst r) (len A + 1) n) in
         let! h := lift (mm_free (h_setmem (snd r) m) (len A + 1)) in
         Ok (Some (fst r), h))) by (apply via_alloc_ok; auto; clear - GE NE W2; lia).
  rewrite (next_ok h A w false B HB HT T). cbn [lift rbind]. apply na_app in NA. cbn [na] in NA. destruct NA as (NA & _ & NB). destruct B as [|[w2 f2] B].
  - (* last block: grow *)
    cbn [len] in LEN. rewrite (wsub_small n) by (unfold is_word; clear - GE Hn H62; lia). rewrite align_up by (clear - Hn H62; lia).
    destruct (up8_nat (n - (8 * N.of_nat w - 8 - 8))) as (e & EE & BE). rewrite EE. clear EE. rewrite hsbrk_case by (auto; clear - BE Hn H63; lia).
    destruct (N.ltb_spec (h_tot h) (8 * N.of_nat (h_top h) + 8 * N.of_nat e)) as [LT|GE']. { exact Logic.I. }
    cbn [rbind snd h_mem]. unfold ld. rewrite THd. cbn [lift rbind]. rewrite unmask_hv by auto.
    assert (LB : h_top h + e <= length (h_mem h)) by (clear - HB1 GE'; lia). assert (SB : (8 * N.of_nat (w + e) + 1 < W64)%N) by (apply (base_small h); auto; lia).
    rewrite (update_8 _ _ (w + e)) by (auto; try lia; rewrite wadd_small; clear - SB; lia). cbn [lift rbind realloc_post h_setmem h_top h_tot h_free].
    assert (SAME : forall q, q <> len A -> q <> len A + (w + e) - 1 -> nth_error (bu (h_mem h) (len A) (w + e) false) q = nth_error (h_mem h) q) by (intros; apply bu_same; lia).
    exists (A ++ [(w + e, false)]), (w + e), (ul 0 A). rewrite Nat.add_sub. cbn [h_mem h_tot h_setmem h_setfree]. split; [lia|]. split; [|split; [|split; [|split; [|split; [|split]]]]]; auto.
    + unfold inv, base_ok. cbn [h_mem h_top h_tot h_free h_setmem h_setfree]. rewrite bu_len. repeat split; auto.
      * rewrite len_app. cbn [len]. lia.
      * apply tiled_app. split; [apply (tiled_frame A (h_mem h)); auto; intros; apply SAME; lia|]. cbn [tiled Nat.add].
        repeat split; try lia; [apply bu_hd; lia|apply bu_ft; lia].
      * apply na_app. cbn [na]. rewrite andb_false_r. auto.
      * rewrite fl_app in *. cbn [fl app] in *. auto.
    + cbn [ul] in PU. rewrite app_nil_r in PU. auto.
    + rewrite ul_app. cbn [ul app Nat.add]. symmetry. apply Permutation_cons_append.
    + clear - BE GE W2. lia.
    + intros P W q HI Hq. apply ul_range in HI. apply SAME; lia.
    + intros i Hi Hi'. apply SAME; lia.
  - unfold ld. cbn [tiled] in TB. destruct TB as (W2' & TBh & TBf & TB). rewrite TBh. cbn [lift rbind]. rewrite isfree_hv. cbn [len] in LEN.
    destruct f2.
    + (* the next block is free *)
      assert (SW2 : (8 * N.of_nat (w + w2) + 1 < W64)%N) by (apply (base_small h); auto; lia).
      rewrite unmask_hv by (clear - SW2; lia). rewrite wadd_small by (clear - SW2 W2; lia). destruct (N.leb_spec n (8 * N.of_nat w - 8 - 8 + 8 * N.of_nat w2)) as [FIT|]; [|exact VIA].
      destruct (remove_free_ok h (len A + w) w2) as (fs & R1 & R2); auto.
      { apply (Permutation_in _ (Permutation_sym FR)). rewrite fl_app. apply in_or_app. right. cbn [fl Nat.add app]. left. reflexivity. }
      rewrite R1. cbn [lift rbind h_mem h_setfree]. rewrite THd, TBh. cbn [lift rbind]. rewrite !unmask_hv by (clear - SW2; lia).
      rewrite (update_8 _ _ (w + w2)) by (auto; try lia; rewrite wadd_small; clear - SW2; lia). cbn [lift rbind realloc_post h_setmem h_setfree h_top h_tot h_free].
      assert (SAME : forall q, q <> len A -> q <> len A + (w + w2) - 1 -> nth_error (bu (h_mem h) (len A) (w + w2) false) q = nth_error (h_mem h) q) by (intros; apply bu_same; lia).
      exists (A ++ (w + w2, false) :: B), (w + w2), (ul 0 A ++ ul (len A + w + w2) B). rewrite Nat.add_sub. cbn [h_mem h_tot h_setmem h_setfree]. split; [lia|]. split; [|split; [|split; [|split; [|split; [|split]]]]]; auto.
      * unfold inv, base_ok. cbn [h_mem h_top h_tot h_free h_setmem h_setfree]. rewrite bu_len. repeat split; auto.
        -- rewrite len_app. cbn [len]. lia.
        -- apply tiled_app. split; [apply (tiled_frame A (h_mem h)); auto; intros; apply SAME; lia|]. cbn [tiled Nat.add].
           repeat split; try lia; [apply bu_hd; lia|apply bu_ft; lia|]. apply (tiled_frame B (h_mem h)); [rewrite Nat.add_assoc; auto|intros; apply SAME; lia].
        -- apply na_app. cbn [na]. rewrite andb_false_r. cbn [na] in NB. repeat split; auto. destruct B as [|[w3 f3] B]; auto. cbn [na] in *. tauto.
        -- rewrite fl_app. cbn [fl app Nat.add]. apply (Permutation_cons_inv (a := (hv w2 true, len A + w))). rewrite <- R2, FR, fl_app. cbn [fl app Nat.add]. rewrite Nat.add_assoc. symmetry. apply Permutation_middle.
      * rewrite ul_app. cbn [ul app Nat.add]. rewrite Nat.add_assoc. symmetry. apply Permutation_middle.
      * clear - FIT W2. lia.
      * intros P W q HI Hq. apply in_app_or in HI. destruct HI as [HI|HI]; apply ul_range in HI; apply SAME; lia.
      * intros i Hi Hi'. apply SAME; lia.
    + destruct A as [|a0 A0] eqn:EA.
      { cbn [len block_prev Nat.eqb lift rbind free_at]. exact VIA. }
      destruct (exists_last (l := a0 :: A0) ltac:(discriminate)) as (A2 & [w0 f0] & EL). rewrite EL in *. clear EL EA a0 A0.
      assert (LA : len (A2 ++ [(w0, f0)]) = len A2 + w0) by (rewrite len_app; cbn [len]; lia).
      rewrite (prev_ok h A2 w0 f0) by (auto; lia). cbn [lift rbind free_at]. pose proof TA as TA'. apply tiled_app in TA'. cbn [tiled Nat.add] in TA'. destruct TA' as (TA2 & W0 & TH0 & TF0 & _).
      unfold ld. rewrite TH0. cbn [obind lift rbind]. rewrite isfree_hv. destruct f0; [|exact VIA].
      assert (SW2 : (8 * N.of_nat (w0 + w) + 1 < W64)%N) by (apply (base_small h); auto; lia).
      rewrite unmask_hv by (clear - SW2; lia). rewrite (wadd_small (8 * N.of_nat w - 8 - 8)) by (clear - SW2 W2; lia).
      destruct (N.leb_spec n (8 * N.of_nat w - 8 - 8 + 8 * N.of_nat w0)) as [FIT|]; [|exact VIA]. clear VIA.
      destruct (remove_free_ok h (len A2) w0) as (fs & R1 & R2); auto.
      { apply (Permutation_in _ (Permutation_sym FR)). rewrite fl_app. apply in_or_app. left. rewrite fl_app. apply in_or_app. right. cbn [fl Nat.add app]. left. reflexivity. }
      rewrite R1. cbn [lift rbind h_mem h_setfree]. rewrite THd. cbn [lift rbind]. rewrite unmask_hv by auto.
      rewrite (update_8 _ _ (w0 + w)) by (auto; try lia; rewrite wadd_small; clear - SW2; lia). cbn [lift rbind].
      rewrite (markused_ok _ _ (w0 + w) false) by (rewrite ?bu_len; auto; try lia; apply bu_hd; lia). cbn [lift rbind].
      set (m2 := bu (bu _ _ _ _) _ _ _). assert (L2 : length m2 = length (h_mem h)) by (unfold m2; rewrite !bu_len; auto).
      assert (SAME : forall q, q <> len A2 -> q <> len A2 + (w0 + w) - 1 -> nth_error m2 q = nth_error (h_mem h) q).
      { intros. unfold m2. rewrite bu_same by (rewrite ?bu_len; lia). apply bu_same; lia. }
      destruct (copy_ok g m2 (len A2 + 1) (len (A2 ++ [(w0, true)]) + 1) (8 * N.of_nat w - 8 - 8) (w - 2)) as (m3 & C1 & C2 & C3 & C4); [clear - W2; lia|rewrite L2; lia|].
      rewrite C1. cbn [lift rbind realloc_post h_setmem h_setfree h_top h_tot h_free].
      exists (A2 ++ (w0 + w, false) :: (w2, false) :: B), (w0 + w), (ul 0 A2 ++ ul (len A2 + (w0 + w)) ((w2, false) :: B)). rewrite Nat.add_sub. cbn [h_mem h_tot h_setmem h_setfree]. split; [lia|].
      assert (OUT : forall q, q < len A2 \/ len A2 + (w0 + w) <= q -> nth_error m3 q = nth_error (h_mem h) q). { intros. rewrite C4 by lia. apply SAME; lia. }
      split; [|split; [|split; [|split; [|split; [|split]]]]]; auto.
      * unfold inv, base_ok. cbn [h_mem h_top h_tot h_free h_setmem h_setfree]. rewrite C2, L2. split; [exact HB|]. split; [|split; [|split]].
        -- rewrite HT, !len_app. cbn [len]. lia.
        -- apply tiled_app. split; [apply (tiled_frame A2 (h_mem h)); auto; intros; apply OUT; lia|]. cbn [tiled Nat.add]. rewrite !C4 by lia.
           assert (X : len A2 + (w0 + w) = len (A2 ++ [(w0, true)]) + w) by lia.
           repeat split; try lia; [unfold m2; apply bu_hd; rewrite ?bu_len; lia|unfold m2; apply bu_ft; rewrite ?bu_len; lia| | |].
           ++ rewrite SAME by lia. rewrite X. auto.
           ++ rewrite SAME by lia. rewrite X. auto.
           ++ apply (tiled_frame B (h_mem h)); [rewrite X; auto|intros; apply OUT; lia].
        -- apply na_app in NA. apply na_app. cbn [na] in *. rewrite !andb_false_r. tauto.
        -- rewrite fl_app. cbn [fl app Nat.add]. apply (Permutation_cons_inv (a := (hv w0 true, len A2))). rewrite <- R2, FR, !fl_app, LA. cbn [fl app Nat.add].
           rewrite <- app_assoc. cbn [app]. rewrite !Nat.add_assoc. symmetry. apply Permutation_middle.
      * rewrite PU. apply perm_skip. rewrite ul_app. cbn [ul app Nat.add]. rewrite app_nil_r, LA, !Nat.add_assoc. reflexivity.
      * rewrite ul_app. cbn [Nat.add]. change (ul (len A2) ((w0 + w, false) :: (w2, false) :: B)) with ((len A2, w0 + w) :: ul (len A2 + (w0 + w)) ((w2, false) :: B)). symmetry. apply Permutation_middle.
      * clear - FIT W2 W0. lia.
      * intros P W q HI Hq. apply OUT. apply in_app_or in HI. destruct HI as [HI|HI]; apply ul_range in HI; lia.
      * intros i Hi Hi'. rewrite C3 by (rewrite ?L2; lia). apply SAME; lia.
Qed.
