(** * Proofs about the hugepage allocator: split, alloc, free, realloc *)
From Coq Require Import NArith List Bool Arith Lia Permutation.
From Verif Require Import Base WtBase WtProofs Hugepage HugepageProofs.
Import ListNotations.

Lemma alignsplit_8N : forall k, (8 * k < W64)%N -> alignsplit (8 * k) = (8 * k)%N.
Proof. intros. rewrite <- (Nnat.N2Nat.id k) in *. apply alignsplit_8. auto. Qed.
Lemma inv_block : forall h A w f B, inv h (A ++ (w, f) :: B) -> 2 <= w /\ len A + w + len B = h_top h /\ h_top h <= length (h_mem h) /\
  nth_error (h_mem h) (len A) = Some (hv w f) /\ nth_error (h_mem h) (len A + w - 1) = Some (hv w f) /\ (8 * N.of_nat w + 1 < W64)%N /\
  tiled (h_mem h) 0 A /\ tiled (h_mem h) (len A + w) B.
Proof.
  intros h A w f B (HB & HT & T & NA & FR). rewrite len_app in HT. cbn [len] in HT. apply tiled_app in T. cbn [tiled Nat.add] in T.
  destruct T as (TA & W2 & THd & TFt & TB). assert (h_top h <= length (h_mem h)) by apply HB. repeat split; auto; try lia. apply (base_small h); auto. lia.
Qed.
Lemma keeps_refl : forall m u, keeps m m u. Proof. intros m u P W q _ _. reflexivity. Qed.
Lemma ul_out : forall A w B P W q, In (P, W) (ul 0 A ++ ul (len A + w) B) -> P + 1 <= q < P + W - 1 -> q < len A \/ len A + w <= q.
Proof. intros A w B P W q H Hq. apply in_app_or in H. destruct H as [H|H]; apply ul_range in H; lia. Qed.

Lemma split_ok : forall h A w B n, inv h (A ++ (w, false) :: B) -> (n < 2 ^ 62)%N ->
  exists h' bl' w', split_block h (len A) n = Some h' /\ inv h' bl' /\ h_top h' = h_top h /\ h_tot h' = h_tot h /\
    ul 0 bl' = ul 0 A ++ (len A, w') :: ul (len A + w) B /\ ((n + 16 <= 8 * N.of_nat w)%N -> (n + 16 <= 8 * N.of_nat w')%N) /\ w' <= w /\
    keeps (h_mem h) (h_mem h') (ul 0 bl').
Proof.
  intros h A w B n I Hn. destruct (inv_block h A w false B I) as (W2 & LEN & LM & THd & TFt & SM & TA & TB). pose proof I as (HB & HT & T & NA & FR).
  unfold split_block, ld. rewrite THd. cbn [obind]. rewrite unmask_hv by auto. unfold overhead, min_block.
  assert (H62 : (4 * 2 ^ 62 = W64)%N) by reflexivity. assert (H63 : (2 * 2 ^ 62 = 2 ^ 63)%N) by reflexivity.
  rewrite wadd_small by (clear - Hn H62; lia). rewrite align_up by (clear - Hn H62; lia).
  destruct (up8_nat (n + 16)) as (a & EA & BA). rewrite EA. clear EA.
  assert (NOOP : exists h' bl' w', Some h = Some h' /\ inv h' bl' /\ h_top h' = h_top h /\ h_tot h' = h_tot h /\
    ul 0 bl' = ul 0 A ++ (len A, w') :: ul (len A + w) B /\ ((n + 16 <= 8 * N.of_nat w)%N -> (n + 16 <= 8 * N.of_nat w')%N) /\ w' <= w /\ keeps (h_mem h) (h_mem h') (ul 0 bl')).
  { exists h, (A ++ (w, false) :: B), w. split; [reflexivity|]. split; [exact I|]. rewrite ul_app. cbn [ul Nat.add app]. repeat split; auto; apply keeps_refl. }
  assert (WS : (8 * N.of_nat w < 2 ^ 62)%N). { destruct HB as (B1 & B2 & B3). rewrite B1 in B2. clear - B2 LEN LM. lia. }
  destruct (Nat.le_gt_cases a w) as [L|L].
  - rewrite wsub_small by (unfold is_word; clear - L SM; lia). replace (8 * N.of_nat w - 8 * N.of_nat a)%N with (8 * N.of_nat (w - a))%N by (clear - L; lia).
    rewrite alignsplit_8 by (clear - L SM; lia).
    destruct ((8 * N.of_nat (w - a) <? 2 ^ 63)%N && (32 <=? 8 * N.of_nat (w - a))%N) eqn:C; [|exact NOOP].
    apply andb_true_iff in C. destruct C as [_ C]. apply N.leb_le in C. clear NOOP.
    rewrite wsub_small by (unfold is_word; clear - L SM; lia). replace (8 * N.of_nat w - 8 * N.of_nat (w - a))%N with (8 * N.of_nat a)%N by (clear - L; lia).
    assert (K4 : 4 <= w - a) by lia. assert (A2 : 2 <= a) by lia.
    rewrite (update_8 _ _ a) by (auto; clear - L SM LEN LM A2; lia). cbn [obind]. rewrite wofs_8. cbn [obind].
    set (m1 := bu (h_mem h) (len A) a false). assert (L1 : length m1 = length (h_mem h)) by apply bu_len.
    rewrite (update_8 m1 _ (w - a)) by (rewrite ?L1; auto; clear - L SM LEN LM A2 K4; lia). cbn [obind].
    set (m2 := bu m1 (len A + a) (w - a) false). assert (L2 : length m2 = length (h_mem h)) by (unfold m2; rewrite bu_len; auto).
    assert (SAME : forall q, q < len A \/ len A + w <= q \/ (len A < q /\ q < len A + a - 1) -> nth_error m2 q = nth_error (h_mem h) q).
    { intros q Hq. unfold m2, m1. rewrite bu_same by (rewrite ?bu_len; lia). rewrite bu_same by lia. reflexivity. }
    assert (T2 : tiled m2 0 ((A ++ [(a, false)]) ++ (w - a, false) :: B)).
    { rewrite <- app_assoc. cbn [app]. apply tiled_app. split; [apply (tiled_frame A (h_mem h)); auto; intros; apply SAME; lia|]. cbn [tiled Nat.add].
      repeat split; auto; try lia.
      - unfold m2. rewrite bu_same by (rewrite ?L1; lia). apply bu_hd; lia.
      - unfold m2. rewrite bu_same by (rewrite ?L1; lia). apply bu_ft; lia.
      - apply bu_hd; rewrite ?L1; lia.
      - apply bu_ft; rewrite ?L1; lia.
      - replace (len A + a + (w - a)) with (len A + w) by lia. apply (tiled_frame B (h_mem h)); auto. intros. apply SAME. lia. }
    apply na_app in NA. cbn [na] in NA. destruct NA as (NA & NF & NB).
    assert (LA1 : len (A ++ [(a, false)]) = len A + a) by (rewrite len_app; cbn [len]; lia).
    destruct (coalesce_ok (h_setmem h m2) (A ++ [(a, false)]) (w - a) false B) as (h' & bl' & C1 & C2 & C3 & C4 & C5 & C6 & C7).
    + unfold base_ok. cbn [h_mem h_tot h_top h_setmem]. rewrite L2. exact HB.
    + cbn [h_top h_setmem]. rewrite len_app, LA1. cbn [len]. lia.
    + exact T2.
    + apply na_app. cbn [na]. rewrite andb_false_r. auto.
    + auto.
    + cbn [h_free h_setmem]. rewrite LA1, fl_app. cbn [fl app]. rewrite app_nil_r. replace (len A + a + (w - a)) with (len A + w) by lia.
      rewrite fl_app in FR. cbn [fl app Nat.add] in FR. exact FR.
    + rewrite LA1 in *. exists h', bl', a. split; auto. split; auto. split; auto. split; auto.
      assert (U : ul 0 bl' = ul 0 A ++ (len A, a) :: ul (len A + w) B).
      { rewrite C5, ul_app. cbn [ul app Nat.add]. rewrite <- app_assoc. cbn [app]. replace (len A + a + (w - a)) with (len A + w) by lia. reflexivity. }
      split; auto. split; [intros; lia|]. split; [lia|]. intros P W q HIn Hq. rewrite C6 by eauto. cbn [h_mem h_setmem]. apply SAME.
      rewrite U in HIn. apply in_app_or in HIn. destruct HIn as [X|[X|X]]; [apply ul_range in X; lia|injection X as <- <-; lia|apply ul_range in X; lia].
  - assert (E : wsub (8 * N.of_nat w) (8 * N.of_nat a) = (8 * (2 ^ 61 - N.of_nat (a - w)))%N).
    { unfold wsub. assert (2 ^ 62 = 2 * 2 ^ 61)%N by reflexivity. rewrite N.mod_small; [|clear - L SM BA Hn H62 H; lia]. clear - L SM BA Hn H62 H. lia. }
    rewrite E. assert (H61 : (2 ^ 62 = 2 * 2 ^ 61)%N) by reflexivity. rewrite alignsplit_8N by (clear - H61 H62 L; lia).
    rewrite (proj2 (N.ltb_ge _ (2 ^ 63))) by (clear - H61 H62 H63 L BA Hn; lia). cbn [andb]. exact NOOP.
Qed.

Lemma free_ok : forall h bl p w, inv h bl -> In (p, w) (ul 0 bl) ->
  exists h' bl', mm_free h (p + 1) = Some h' /\ inv h' bl' /\ h_top h' = h_top h /\ h_tot h' = h_tot h /\
    Permutation (ul 0 bl) ((p, w) :: ul 0 bl') /\ keeps (h_mem h) (h_mem h') (ul 0 bl') /\ (exists w', w <= w' /\ In (w', true) bl').
Proof.
  intros h bl p w I HIn. destruct (ul_in _ _ _ _ HIn) as (A & B & -> & ->). cbn [Nat.add] in *.
  destruct (inv_block h A w false B I) as (W2 & LEN & LM & THd & TFt & SM & TA & TB). pose proof I as (HB & HT & T & NA & FR).
  unfold mm_free. rewrite (csub_some (len A + 1) 1 (len A)) by lia. cbn [obind]. rewrite (markfree_ok _ _ w false) by (auto; lia). cbn [obind].
  set (m1 := bu (h_mem h) (len A) w true). assert (L1 : length m1 = length (h_mem h)) by apply bu_len.
  assert (SAME : forall q, q < len A \/ len A + w <= q -> nth_error m1 q = nth_error (h_mem h) q) by (intros; apply bu_same; lia).
  apply na_app in NA. cbn [na] in NA. destruct NA as (NA & NF & NB).
  destruct (coalesce_ok (h_setmem h m1) A w true B) as (h' & bl' & C1 & C2 & C3 & C4 & C5 & C6 & C7).
  - unfold base_ok. cbn [h_mem h_tot h_top h_setmem]. rewrite L1. exact HB.
  - cbn [h_top h_setmem]. rewrite len_app. cbn [len]. lia.
  - cbn [h_mem h_setmem]. apply tiled_app. split; [apply (tiled_frame A (h_mem h)); auto; intros; apply SAME; lia|]. cbn [tiled Nat.add].
    repeat split; auto; [apply bu_hd; lia|apply bu_ft; lia|]. apply (tiled_frame B (h_mem h)); auto; intros; apply SAME; lia.
  - auto.
  - auto.
  - cbn [h_free h_setmem]. rewrite fl_app in FR. cbn [fl app Nat.add] in FR. exact FR.
  - exists h', bl'. split; auto. split; auto. split; auto. split; auto. rewrite C5. split.
    + rewrite ul_app. cbn [ul app Nat.add]. symmetry. apply Permutation_middle.
    + split; auto. rewrite <- C5. intros P W q HI Hq. rewrite C6 by eauto. apply SAME. rewrite C5 in HI. eapply ul_out; eauto.
Qed.

Lemma last_ok : forall h A w f, inv h (A ++ [(w, f)]) -> last_block h = Some (Some (len A)).
Proof.
  intros h A w f I. destruct (inv_block h A w f [] I) as (W2 & LEN & LM & THd & TFt & SM & TA & TB). cbn [len] in LEN.
  unfold last_block. destruct (Nat.eqb_spec (h_top h) 0); [lia|]. unfold ld. replace (h_top h - 1) with (len A + w - 1) by lia. rewrite TFt. cbn [obind].
  rewrite unmask_hv by auto. rewrite wofs_8. cbn [obind]. rewrite (csub_some _ _ (len A)) by lia. reflexivity.
Qed.
Lemma hsbrk_case : forall h a, base_ok h -> (8 * N.of_nat a < 2 ^ 63)%N ->
  hsbrk h (8 * N.of_nat a) = if (h_tot h <? 8 * N.of_nat (h_top h) + 8 * N.of_nat a)%N then Nomem
                             else Ok (h_top h, mkhp (h_mem h) (h_top h + a) (h_tot h) (h_free h)).
Proof.
  intros h a (B1 & B2 & B3) H. unfold hsbrk. rewrite (proj2 (N.ltb_lt (8 * N.of_nat a) (2 ^ 63)) H). cbn [andb]. rewrite wofs_8. cbn [lift rbind].
  destruct (N.ltb_spec (h_tot h - 8 * N.of_nat (h_top h)) (8 * N.of_nat a)); destruct (N.ltb_spec (h_tot h) (8 * N.of_nat (h_top h) + 8 * N.of_nat a)); auto; exfalso; clear B2 H; lia.
Qed.

Definition nofit (bl : blocks) (n : N) : Prop := forall w, In (w, true) bl -> (8 * N.of_nat w < n + 16)%N.
Definition alloc_post (h : hp) (bl : blocks) (n : N) (r : res (nat * hp)) : Prop :=
  match r with
  | Ok (p, h') => exists bl' w, p >= 1 /\ inv h' bl' /\ Permutation (ul 0 bl') ((p - 1, w) :: ul 0 bl) /\ (n + 16 <= 8 * N.of_nat w)%N /\
                  keeps (h_mem h) (h_mem h') (ul 0 bl) /\ (h_top h' = h_top h \/ (h_top h < h_top h' /\ nofit bl n)) /\ h_tot h' = h_tot h
  | Nomem => nofit bl n /\ (h_tot h < 8 * N.of_nat (h_top h) + N.max 32 (n + 23))%N
  | Ub => False
  end.
Lemma alloc_ok : forall h bl n, inv h bl -> (n < 2 ^ 62)%N -> (n mod 8 <> 1)%N -> alloc_post h bl n (mm_alloc h n).
Proof.
  intros h bl n I Hn H8. pose proof I as (HB & HT & T & NA & FR).
  assert (H62 : (4 * 2 ^ 62 = W64)%N) by reflexivity. assert (H63 : (2 * 2 ^ 62 = 2 ^ 63)%N) by reflexivity.
  pose proof HB as (HB1 & HB2 & HB3).
  unfold mm_alloc, overhead. rewrite wadd_small by (clear - Hn H62; lia).
  destruct (fs_find (n + 16) (h_free h)) as [[p f]|] eqn:EF.
  - destruct (fs_find_some _ _ _ _ EF) as (k' & LK & PK).
    assert (HIn : In (k', p) (fl 0 bl)). { apply (Permutation_in _ FR). rewrite PK. left. reflexivity. }
    destruct (fl_in _ _ _ _ HIn) as (A & w & B & -> & -> & ->). cbn [Nat.add] in *. clear HIn.
    destruct (inv_block h A w true B I) as (W2 & LEN & LM & THd & TFt & SM & TA & TB).
    assert (FIT : (n + 16 <= 8 * N.of_nat w)%N).
    { unfold hv in LK. destruct (N.eq_dec (n + 16) (8 * N.of_nat w + 1)) as [E|NE]; [|clear - LK NE; lia]. exfalso. apply H8.
      assert (2 <= N.of_nat w)%N by (clear - W2; lia). replace n with (1 + (N.of_nat w - 2) * 8)%N by (clear - E H; lia). rewrite N.mod_add by discriminate. reflexivity. }
    cbn [h_setfree h_mem]. rewrite (markused_ok _ _ w true) by (auto; lia). cbn [lift rbind].
    set (m1 := bu (h_mem h) (len A) w false). assert (L1 : length m1 = length (h_mem h)) by apply bu_len.
    assert (SAME : forall q, q < len A \/ len A + w <= q -> nth_error m1 q = nth_error (h_mem h) q) by (intros; apply bu_same; lia).
    apply na_app in NA. cbn [na] in NA. destruct NA as (NA & NF & NB).
    destruct (split_ok (h_setmem (h_setfree h f) m1) A w B n) as (h' & bl' & w' & S1 & S2 & S3 & S4 & S5 & S6 & S7 & S8); auto.
    { unfold inv, base_ok. cbn [h_mem h_tot h_top h_setmem h_setfree h_free]. rewrite L1. split; [exact HB|]. split; [rewrite HT, !len_app; reflexivity|]. split; [|split].
      - apply tiled_app. split; [apply (tiled_frame A (h_mem h)); auto; intros; apply SAME; lia|]. cbn [tiled Nat.add].
        repeat split; auto; [apply bu_hd; lia|apply bu_ft; lia|]. apply (tiled_frame B (h_mem h)); auto; intros; apply SAME; lia.
      - apply na_app. cbn [na]. rewrite andb_false_r. repeat split; auto. destruct B as [|[w2 f2] B]; auto. cbn [na] in *. tauto.
      - rewrite fl_app. cbn [fl app Nat.add]. apply (Permutation_cons_inv (a := (hv w true, len A))). rewrite <- PK, FR, fl_app. cbn [fl app Nat.add]. symmetry. apply Permutation_middle. }
    rewrite S1. cbn [lift rbind alloc_post]. exists bl', w'. split; [lia|]. split; auto. rewrite Nat.add_sub.
    assert (U : ul 0 (A ++ (w, true) :: B) = ul 0 A ++ ul (len A + w) B) by (rewrite ul_app; reflexivity).
    split; [rewrite S5, U; symmetry; apply Permutation_middle|]. split; auto. split; auto.
    rewrite U. intros P W q HI Hq. rewrite (S8 P W q); auto. { apply SAME. eapply ul_out; eauto. }
    rewrite S5. apply in_app_or in HI. apply in_or_app. destruct HI; [left|right; right]; auto.
  - assert (NFIT : nofit bl n).
    { intros w Hw. apply in_split in Hw. destruct Hw as (A & B & ->). assert (K : (hv w true < n + 16)%N); [|unfold hv in K; lia].
      apply (fs_find_none _ _ EF _ (len A)). apply (Permutation_in _ (Permutation_sym FR)). rewrite fl_app. cbn [fl app Nat.add]. apply in_or_app. right. left. reflexivity. }
    destruct (lastf false bl) eqn:LF.
    + assert (EB : exists A w, bl = A ++ [(w, true)]).
      { destruct bl as [|b0 bl0]; [discriminate|]. destruct (exists_last (l := b0 :: bl0) ltac:(discriminate)) as (A & [w f] & EL). rewrite EL in *.
        rewrite lastf_app in LF. cbn in LF. subst f. eauto. }
      destruct EB as (A & w & ->). destruct (inv_block h A w true [] I) as (W2 & LEN & LM & THd & TFt & SM & TA & _). cbn [len] in LEN.
      rewrite (last_ok h A w true I). cbn [lift rbind free_at]. unfold ld. rewrite THd. cbn [obind lift rbind]. rewrite isfree_hv.
      unfold block_datasize, ld. rewrite THd. cbn [obind lift rbind]. rewrite unmask_hv by auto.
      pose proof (NFIT w ltac:(apply in_or_app; right; left; reflexivity)) as NW.
      rewrite (wsub_small (8 * N.of_nat w) 8) by (unfold is_word; clear - W2 SM; lia). rewrite (wsub_small (8 * N.of_nat w - 8) 8) by (unfold is_word; clear - W2 SM; lia).
      rewrite (wsub_small n) by (unfold is_word; clear - NW Hn H62 W2; lia).
      rewrite align_up by (clear - Hn H62; lia).
      destruct (up8_nat (n - (8 * N.of_nat w - 8 - 8))) as (e & EE & BE). rewrite EE. clear EE. rewrite hsbrk_case by (auto; clear - BE Hn H63; lia).
      destruct (N.ltb_spec (h_tot h) (8 * N.of_nat (h_top h) + 8 * N.of_nat e)) as [LT|GE].
      { cbn [rbind alloc_post]. split; auto. clear - LT BE W2 NW. lia. }
      assert (E1 : 1 <= e) by (clear - BE NW W2; lia). assert (LB : h_top h + e <= length (h_mem h)) by (clear - HB1 GE; lia).
      cbn [rbind snd]. destruct (remove_free_ok (mkhp (h_mem h) (h_top h + e) (h_tot h) (h_free h)) (len A) w) as (fs & R1 & R2); auto.
      { cbn [h_free]. apply (Permutation_in _ (Permutation_sym FR)). rewrite fl_app. cbn [fl app Nat.add]. apply in_or_app. right. left. reflexivity. }
      rewrite R1. cbn [lift rbind h_setfree h_mem h_setmem h_top h_tot h_free]. cbn [h_free] in R2.
      assert (SB : (8 * N.of_nat (w + e) + 1 < W64)%N) by (apply (base_small h); auto; lia).
      rewrite (update_8 _ _ (w + e)). 2:{ rewrite (wadd_small (8 * N.of_nat w - 8 - 8)) by (clear - SB W2; lia). rewrite wadd_small by (clear - SB W2; lia). clear - W2. lia. } 2-4: auto; lia.
      cbn [lift rbind]. rewrite (markused_ok _ _ (w + e) false) by (rewrite ?bu_len; auto; try lia; apply bu_hd; lia). cbn [lift rbind alloc_post].
      set (m2 := bu _ _ _ _). exists (A ++ [(w + e, false)]), (w + e). rewrite Nat.add_sub. split; [lia|]. cbn [h_mem h_top h_tot h_free h_setmem h_setfree].
      assert (SAME : forall q, q < len A -> nth_error m2 q = nth_error (h_mem h) q).
      { intros. unfold m2. rewrite bu_same by (rewrite ?bu_len; lia). apply bu_same; lia. }
      split; [|split; [|split; [|split; [|split]]]]; auto.
      * unfold inv, base_ok. cbn [h_mem h_top h_tot h_free h_setmem h_setfree]. assert (L2 : length m2 = length (h_mem h)) by (unfold m2; rewrite !bu_len; auto). rewrite L2. repeat split; auto.
        -- rewrite len_app. cbn [len]. lia.
        -- apply tiled_app. split; [apply (tiled_frame A (h_mem h)); auto; intros; apply SAME; lia|]. cbn [tiled Nat.add].
           repeat split; try lia; unfold m2; [apply bu_hd; rewrite ?bu_len; lia|apply bu_ft; rewrite ?bu_len; lia].
        -- apply na_app in NA. apply na_app. cbn [na]. rewrite andb_false_r. tauto.
        -- rewrite fl_app. cbn [fl app]. apply (Permutation_cons_inv (a := (hv w true, len A))). rewrite <- R2, FR, fl_app. cbn [fl app Nat.add]. symmetry. apply Permutation_middle.
      * rewrite !ul_app. cbn [ul app Nat.add]. rewrite app_nil_r. symmetry. apply Permutation_cons_append.
      * clear - BE W2 NW. lia.
      * rewrite ul_app. cbn [ul app Nat.add]. rewrite app_nil_r. intros P W q HI Hq. apply SAME. apply ul_range in HI. lia.
      * right. split; auto. lia.
    + assert (LBK : exists lb, last_block h = Some lb /\ free_at (h_mem h) lb = Some false).
      { destruct bl as [|b0 bl0]. { cbn [len] in HT. exists None. unfold last_block. rewrite HT. auto. }
        destruct (exists_last (l := b0 :: bl0) ltac:(discriminate)) as (A & [w f] & EL). rewrite EL in *.
        rewrite lastf_app in LF. cbn in LF. subst f. exists (Some (len A)). split; [eapply last_ok; eauto|].
        destruct (inv_block h A w false [] I) as (_ & _ & _ & THd & _). cbn [free_at]. unfold ld. rewrite THd. cbn [obind]. rewrite isfree_hv. reflexivity. }
      destruct LBK as (lb & LB1 & LB2). rewrite LB1. cbn [lift rbind]. rewrite LB2. cbn [lift rbind].
      replace (match lb with Some _ | _ => let! r := new_block h n in Ok (fst r + 1, snd r) end) with (let! r := new_block h n in Ok (fst r + 1, snd r)) by (destruct lb; reflexivity).
      unfold new_block, overhead, min_block. rewrite wadd_small by (clear - Hn H62; lia). rewrite align_up by (clear - Hn H62; lia).
      destruct (up8_nat (n + 16)) as (a & EA & BA). rewrite EA. clear EA.
      assert (EB : exists b, (if (8 * N.of_nat a <? 32)%N then 32%N else (8 * N.of_nat a)%N) = (8 * N.of_nat b)%N /\ 4 <= b /\ (n + 16 <= 8 * N.of_nat b)%N /\ (8 * N.of_nat b <= N.max 32 (n + 23))%N).
      { destruct (N.ltb_spec (8 * N.of_nat a) 32); [exists 4|exists a]; repeat split; clear - H BA; lia. }
      destruct EB as (b & -> & B4 & BN & BM). rewrite hsbrk_case by (auto; clear - BM Hn H63; lia).
      destruct (N.ltb_spec (h_tot h) (8 * N.of_nat (h_top h) + 8 * N.of_nat b)) as [LT|GE].
      { cbn [rbind alloc_post]. split; auto. clear - LT BM. lia. }
      cbn [rbind fst snd h_mem]. assert (LB : h_top h + b <= length (h_mem h)) by (clear - HB1 GE; lia).
      assert (SB : (8 * N.of_nat b + 1 < W64)%N) by (apply (base_small h); auto; lia).
      rewrite (update_8 _ _ b) by (auto; lia). cbn [lift rbind alloc_post fst snd h_setmem h_top h_tot h_free].
      exists (bl ++ [(b, false)]), b. rewrite Nat.add_sub. split; [lia|]. cbn [h_mem h_top h_tot h_free h_setmem h_setfree].
      assert (SAME : forall q, q < h_top h -> nth_error (bu (h_mem h) (h_top h) b false) q = nth_error (h_mem h) q) by (intros; apply bu_same; lia).
      split; [|split; [|split; [|split; [|split]]]]; auto.
      * unfold inv, base_ok. cbn [h_mem h_top h_tot h_free h_setmem h_setfree]. rewrite bu_len. repeat split; auto.
        -- rewrite len_app. cbn [len]. lia.
        -- apply tiled_app. split; [apply (tiled_frame bl (h_mem h)); auto; intros; apply SAME; lia|]. cbn [tiled Nat.add]. rewrite <- HT.
          repeat split; try lia; [apply bu_hd; lia|apply bu_ft; lia].
        -- apply na_app. cbn [na]. rewrite andb_false_r. auto.
        -- rewrite fl_app. cbn [fl app]. rewrite app_nil_r. auto.
      * rewrite ul_app. cbn [ul app Nat.add]. rewrite <- HT. symmetry. apply Permutation_cons_append.
      * intros P W q HI Hq. apply SAME. apply ul_range in HI. lia.
      * right. split; auto. lia. Qed.
