(** * Proofs about the hugepage allocator: numbers, free set, tiling of the arena, coalesce and split *)
From Coq Require Import NArith List Bool Arith Lia Permutation.
From Verif Require Import Base WtBase WtProofs Hugepage.
Import ListNotations.

(** ** Numbers *)
Definition hv (w : nat) (f : bool) : N := (8 * N.of_nat w + (if f then 1 else 0))%N.
Lemma land_hi : forall r k x, r + k = 64 -> is_word x -> N.land x (W64 - 2 ^ N.of_nat k) = (2 ^ N.of_nat k * (x / 2 ^ N.of_nat k))%N.
Proof.
  intros r k x Hk Hx. replace (2 ^ N.of_nat k * (x / 2 ^ N.of_nat k))%N with (shl (shr x k) k).
  - replace (W64 - 2 ^ N.of_nat k)%N with (shl (lo_set r) k).
    + apply tb_ext. intros j. rewrite tb_land, !tb_shl, tb_shr, tb_lo_set.
      destruct (Nat.leb_spec k j); destruct (Nat.ltb_spec j 64); destruct (Nat.ltb_spec (j - k) r); cbn [andb]; rewrite ?andb_false_r, ?andb_true_r; auto; try lia.
      replace (j - k + k) with j by lia. reflexivity.
    + rewrite shl_mul, lo_set_val. unfold W64. rewrite N.mul_sub_distr_r, N.mul_1_l, <- N.pow_add_r. replace (N.of_nat r + N.of_nat k)%N with 64%N by lia.
      apply N.mod_small. assert (2 ^ N.of_nat k <> 0)%N by (apply N.pow_nonzero; discriminate). change (2 ^ 64)%N with W64. unfold W64 in *. lia.
  - rewrite shl_mul, shr_div. rewrite N.mod_small; [apply N.mul_comm|].
    pose proof (N.mul_div_le x (2 ^ N.of_nat k)). assert (2 ^ N.of_nat k <> 0)%N by (apply N.pow_nonzero; discriminate). unfold is_word in Hx. lia.
Qed.
Lemma unmask_hv : forall w f, (8 * N.of_nat w + 1 < W64)%N -> unmask (hv w f) = (8 * N.of_nat w)%N.
Proof.
  intros w f H. unfold unmask. change (W64 - 2)%N with (W64 - 2 ^ N.of_nat 1)%N. rewrite (land_hi 63) by (auto; unfold is_word, hv; destruct f; lia).
  change (2 ^ N.of_nat 1)%N with 2%N. unfold hv. generalize (N.of_nat w). intros. destruct f.
  - replace ((8 * n + 1) / 2)%N with (4 * n)%N; [lia|]. apply (N.div_unique _ 2 _ 1); lia.
  - replace ((8 * n + 0) / 2)%N with (4 * n)%N; [lia|]. apply (N.div_unique _ 2 _ 0); lia.
Qed.
Lemma isfree_hv : forall w f, isfree (hv w f) = f.
Proof. intros. unfold isfree, hv. rewrite N.add_comm, N.odd_add_mul_even; [destruct f; reflexivity|]. exists 4%N. reflexivity. Qed.
Lemma setfree_hv : forall w f, setfree (hv w f) = hv w true.
Proof.
  intros. unfold setfree, hv. replace (8 * N.of_nat w)%N with (2 * (4 * N.of_nat w))%N by lia. generalize (4 * N.of_nat w)%N. intros n.
  destruct f; destruct n; reflexivity.
Qed.
Lemma wofs_8 : forall w, wofs (8 * N.of_nat w) = Some w.
Proof. intros. unfold wofs. rewrite N.mul_comm, N.mod_mul by lia. rewrite N.eqb_refl, N.div_mul by lia. rewrite Nnat.Nat2N.id. reflexivity. Qed.
Definition up8 (n : N) : N := (8 * ((n + 7) / 8))%N.
Lemma align_up : forall n, (n + 7 < W64)%N -> align n = up8 n.
Proof. intros. unfold align. rewrite wadd_small by auto. change (W64 - 8)%N with (W64 - 2 ^ N.of_nat 3)%N. apply (land_hi 61); auto. Qed.
Lemma alignsplit_8 : forall a, (8 * N.of_nat a < W64)%N -> alignsplit (8 * N.of_nat a) = (8 * N.of_nat a)%N.
Proof.
  intros. unfold alignsplit. change (W64 - 8)%N with (W64 - 2 ^ N.of_nat 3)%N. rewrite (land_hi 61) by auto. change (2 ^ N.of_nat 3)%N with 8%N.
  rewrite (N.mul_comm 8 (N.of_nat a)), N.div_mul by lia. lia.
Qed.
Lemma up8_nat : forall n, exists a, up8 n = (8 * N.of_nat a)%N /\ (n <= 8 * N.of_nat a < n + 8)%N.
Proof.
  intros. exists (N.to_nat ((n + 7) / 8)). rewrite Nnat.N2Nat.id. split; auto.
  pose proof (N.div_mod (n + 7) 8 ltac:(lia)). pose proof (N.mod_lt (n + 7) 8 ltac:(lia)). lia.
Qed.
Global Opaque up8.

(** ** The free set *)
Lemma fs_insert_perm : forall k p l, Permutation (fs_insert k p l) ((k, p) :: l).
Proof.
  induction l as [|[k' p'] t IH]; cbn [fs_insert]; auto. destruct (k' <=? k)%N; auto.
  rewrite IH. apply perm_swap.
Qed.
Lemma fs_find_some : forall k l p t, fs_find k l = Some (p, t) -> exists k', (k <= k')%N /\ Permutation l ((k', p) :: t).
Proof.
  induction l as [|[k' p'] l IH]; intros p t H; cbn [fs_find] in H; [discriminate|]. destruct (N.leb_spec k k').
  - injection H as <- <-. eauto.
  - destruct (fs_find k l) as [[p1 t1]|] eqn:E; [|discriminate]. injection H as <- <-. destruct (IH p1 t1 eq_refl) as (k2 & A & B).
    exists k2. split; auto. rewrite B. apply perm_swap.
Qed.
Lemma fs_find_none : forall k l, fs_find k l = None -> forall k' p, In (k', p) l -> (k' < k)%N.
Proof.
  induction l as [|[k1 p1] l IH]; intros H k' p Hin; [destruct Hin|]. cbn [fs_find] in H. destruct (N.leb_spec k k1); [discriminate|].
  destruct (fs_find k l) as [[p2 t2]|] eqn:E; [discriminate|]. destruct Hin as [X|X]; [injection X as <- <-; auto|eauto].
Qed.
Lemma fs_remove_some : forall k p l, In (k, p) l -> exists t, fs_remove k p l = Some t /\ Permutation l ((k, p) :: t).
Proof.
  induction l as [|[k1 p1] l IH]; intros H; [destruct H|]. cbn [fs_remove]. destruct ((k1 =? k)%N && (p1 =? p)) eqn:E.
  - apply andb_true_iff in E. destruct E as [E1 E2]. apply N.eqb_eq in E1. apply Nat.eqb_eq in E2. subst. eauto.
  - destruct H as [X|X].
    + injection X as -> ->. rewrite N.eqb_refl, Nat.eqb_refl in E. discriminate.
    + destruct (IH X) as (t & A & B). rewrite A. cbn [obind]. eexists. split; [reflexivity|]. rewrite B. apply perm_swap.
Qed.

(** ** Blocks *)
Notation blocks := (list (nat * bool)).
Fixpoint len (bl : blocks) : nat := match bl with [] => 0 | (w, _) :: t => w + len t end.
Fixpoint tiled (m : mem) (p : nat) (bl : blocks) : Prop :=
  match bl with
  | [] => True
  | (w, f) :: t => 2 <= w /\ nth_error m p = Some (hv w f) /\ nth_error m (p + w - 1) = Some (hv w f) /\ tiled m (p + w) t
  end.
Fixpoint fl (p : nat) (bl : blocks) : list (N * nat) :=
  match bl with [] => [] | (w, f) :: t => (if f then [(hv w true, p)] else []) ++ fl (p + w) t end.
Fixpoint ul (p : nat) (bl : blocks) : list (nat * nat) :=
  match bl with [] => [] | (w, f) :: t => (if f then [] else [(p, w)]) ++ ul (p + w) t end.
Fixpoint na (b : bool) (bl : blocks) : Prop :=
  match bl with [] => True | (_, f) :: t => (b && f = false) /\ na f t end.
Fixpoint lastf (b : bool) (bl : blocks) : bool := match bl with [] => b | (_, f) :: t => lastf f t end.

Lemma len_app : forall a b, len (a ++ b) = len a + len b.
Proof. induction a as [|[w f] a IH]; intros; cbn [app len]; [auto|]. rewrite IH. lia. Qed.
Lemma tiled_app : forall a b m p, tiled m p (a ++ b) <-> tiled m p a /\ tiled m (p + len a) b.
Proof.
  induction a as [|[w f] a IH]; intros; cbn [app len tiled]. { rewrite Nat.add_0_r. tauto. }
  rewrite IH. rewrite Nat.add_assoc. tauto.
Qed.
Lemma fl_app : forall a b p, fl p (a ++ b) = fl p a ++ fl (p + len a) b.
Proof. induction a as [|[w f] a IH]; intros; cbn [app len fl]; [rewrite Nat.add_0_r; auto|]. rewrite IH, app_assoc, Nat.add_assoc. auto. Qed.
Lemma ul_app : forall a b p, ul p (a ++ b) = ul p a ++ ul (p + len a) b.
Proof. induction a as [|[w f] a IH]; intros; cbn [app len ul]; [rewrite Nat.add_0_r; auto|]. rewrite IH, app_assoc, Nat.add_assoc. auto. Qed.
Lemma na_app : forall a b pr, na pr (a ++ b) <-> na pr a /\ na (lastf pr a) b.
Proof. induction a as [|[w f] a IH]; intros; cbn [app na lastf]; [tauto|]. rewrite IH. tauto. Qed.
Lemma lastf_app : forall a b pr, lastf pr (a ++ b) = lastf (lastf pr a) b.
Proof. induction a as [|[w f] a IH]; intros; cbn [app lastf]; auto. Qed.
Lemma tiled_frame : forall bl m m' p, tiled m p bl -> (forall q, p <= q < p + len bl -> nth_error m' q = nth_error m q) -> tiled m' p bl.
Proof.
  induction bl as [|[w f] bl IH]; intros m m' p H E; cbn [tiled len] in *; auto. destruct H as (A & B & C & D).
  rewrite !E by lia. repeat split; auto. apply (IH m); auto. intros. apply E. lia.
Qed.
Lemma ul_range : forall bl p P W, In (P, W) (ul p bl) -> p <= P /\ P + W <= p + len bl.
Proof.
  induction bl as [|[w f] bl IH]; intros p P W H; cbn [ul len] in *; [destruct H|]. apply in_app_or in H. destruct H as [H|H].
  - destruct f; [destruct H|]. destruct H as [X|[]]. injection X as <- <-. lia.
  - apply IH in H. lia.
Qed.
Lemma ul_in : forall bl p P W, In (P, W) (ul p bl) -> exists A B, bl = A ++ (W, false) :: B /\ P = p + len A.
Proof.
  induction bl as [|[w f] bl IH]; intros p P W H; cbn [ul] in *; [destruct H|]. apply in_app_or in H. destruct H as [H|H].
  - destruct f; [destruct H|]. destruct H as [X|[]]. injection X as <- <-. exists [], bl. split; cbn; auto; lia.
  - destruct (IH _ _ _ H) as (A & B & -> & ->). exists ((w, f) :: A), B. split; auto. cbn [len]. lia.
Qed.
Lemma fl_in : forall bl p k P, In (k, P) (fl p bl) -> exists A w B, bl = A ++ (w, true) :: B /\ P = p + len A /\ k = hv w true.
Proof.
  induction bl as [|[w f] bl IH]; intros p k P H; cbn [fl] in *; [destruct H|]. apply in_app_or in H. destruct H as [H|H].
  - destruct f; [|destruct H]. destruct H as [X|[]]. injection X as <- <-. exists [], w, bl. repeat split; cbn; auto; lia.
  - destruct (IH _ _ _ H) as (A & x & B & -> & -> & ->). exists ((w, f) :: A), x, B. repeat split; auto. cbn [len]. lia.
Qed.
Lemma tiled_w : forall bl m p, tiled m p bl -> forall w f, In (w, f) bl -> 2 <= w.
Proof. induction bl as [|[w f] bl IH]; intros m p T w' f' H; [destruct H|]. destruct T as (A & _ & _ & B). destruct H as [X|X]; [injection X as <- <-; auto|eauto]. Qed.

(** ** Updates *)
Definition bu (m : mem) (p w : nat) (f : bool) : mem := upd (upd m p (hv w f)) (p + w - 1) (hv w f).
Lemma bu_len : forall m p w f, length (bu m p w f) = length m. Proof. intros. unfold bu. rewrite !upd_length. auto. Qed.
Lemma bu_nth : forall m p w f q, 1 <= w -> p + w <= length m -> nth_error (bu m p w f) q = if (q =? p) || (q =? p + w - 1) then Some (hv w f) else nth_error m q.
Proof.
  intros. unfold bu. destruct (Nat.eqb_spec q (p + w - 1)).
  - subst. rewrite orb_true_r. apply nth_error_upd_eq. rewrite upd_length. lia.
  - rewrite orb_false_r, nth_error_upd_neq by lia. destruct (Nat.eqb_spec q p); [subst; apply nth_error_upd_eq; lia|apply nth_error_upd_neq; lia].
Qed.
Lemma bu_same : forall m p w f q, 1 <= w -> p + w <= length m -> q <> p -> q <> p + w - 1 -> nth_error (bu m p w f) q = nth_error m q.
Proof. intros. rewrite bu_nth by auto. destruct (Nat.eqb_spec q p); [lia|]. destruct (Nat.eqb_spec q (p + w - 1)); [lia|]. reflexivity. Qed.
Lemma bu_hd : forall m p w f, 1 <= w -> p + w <= length m -> nth_error (bu m p w f) p = Some (hv w f).
Proof. intros. rewrite bu_nth by auto. rewrite Nat.eqb_refl. reflexivity. Qed.
Lemma bu_ft : forall m p w f, 1 <= w -> p + w <= length m -> nth_error (bu m p w f) (p + w - 1) = Some (hv w f).
Proof. intros. rewrite bu_nth by auto. rewrite Nat.eqb_refl, orb_true_r. reflexivity. Qed.
Lemma update_ok : forall m p w f, (8 * N.of_nat w + 1 < W64)%N -> 1 <= w -> p + w <= length m -> block_update m p (hv w f) = Some (bu m p w f).
Proof.
  intros. unfold block_update. rewrite unmask_hv by auto. rewrite wofs_8. unfold st. rewrite (proj2 (Nat.ltb_lt p (length m))) by lia. cbn [obind].
  rewrite (csub_some (p + w) 1 (p + w - 1)) by lia. cbn [obind]. rewrite upd_length, (proj2 (Nat.ltb_lt _ (length m))) by lia. reflexivity.
Qed.
Lemma update_8 : forall m p w x, x = (8 * N.of_nat w)%N -> (8 * N.of_nat w + 1 < W64)%N -> 1 <= w -> p + w <= length m -> block_update m p x = Some (bu m p w false).
Proof. intros m p w x -> H H1 H2. rewrite <- update_ok by auto. unfold hv. rewrite N.add_0_r. reflexivity. Qed.
Lemma markfree_ok : forall m p w f, nth_error m p = Some (hv w f) -> (8 * N.of_nat w + 1 < W64)%N -> 1 <= w -> p + w <= length m -> block_markfree m p = Some (bu m p w true).
Proof. intros m p w f E. intros. unfold block_markfree, ld. rewrite E. cbn [obind]. rewrite setfree_hv. apply update_ok; auto. Qed.
Lemma markused_ok : forall m p w f, nth_error m p = Some (hv w f) -> (8 * N.of_nat w + 1 < W64)%N -> 1 <= w -> p + w <= length m -> block_markused m p = Some (bu m p w false).
Proof. intros m p w f E. intros. unfold block_markused, ld. rewrite E. cbn [obind]. rewrite unmask_hv by auto. apply update_8; auto. Qed.

(** ** The invariant *)
Definition base_ok (h : hp) : Prop := h_tot h = (8 * N.of_nat (length (h_mem h)))%N /\ (h_tot h < 2 ^ 62)%N /\ h_top h <= length (h_mem h).
Definition inv (h : hp) (bl : blocks) : Prop :=
  base_ok h /\ h_top h = len bl /\ tiled (h_mem h) 0 bl /\ na false bl /\ Permutation (h_free h) (fl 0 bl).
(** the data words of the used blocks [u] are the same *)
Definition keeps (m m' : mem) (u : list (nat * nat)) : Prop :=
  forall P W q, In (P, W) u -> P + 1 <= q < P + W - 1 -> nth_error m' q = nth_error m q.
Lemma base_small : forall h w, base_ok h -> w <= length (h_mem h) -> (8 * N.of_nat w + 1 < W64)%N.
Proof. intros h w (A & B & C) D. change W64 with (4 * 2 ^ 62)%N. lia. Qed.
Lemma next_ok : forall h A w f B, base_ok h -> h_top h = len (A ++ (w, f) :: B) -> tiled (h_mem h) 0 (A ++ (w, f) :: B) ->
  block_next (h_mem h) (h_top h) (len A) = Some (match B with [] => None | _ => Some (len A + w) end).
Proof.
  intros h A w f B HB HT T. unfold block_next. pose proof T as T0. apply tiled_app in T. cbn [tiled Nat.add] in T. destruct T as (T1 & T2 & T3 & T4 & T5).
  unfold ld. rewrite T3. cbn [obind]. rewrite len_app in HT. cbn [len] in HT. assert (h_top h <= length (h_mem h)) by apply HB.
  rewrite unmask_hv by (apply (base_small h); auto; lia). rewrite wofs_8. cbn [obind]. destruct B as [|[w2 f2] B].
  - cbn [len] in HT. rewrite (proj2 (Nat.leb_le _ _)) by lia. reflexivity.
  - cbn [tiled len] in *. rewrite (proj2 (Nat.leb_gt _ _)) by lia. reflexivity.
Qed.
Lemma prev_ok : forall h A w1 f1 p, base_ok h -> p = len A + w1 -> p <= h_top h -> tiled (h_mem h) 0 (A ++ [(w1, f1)]) ->
  block_prev (h_mem h) p = Some (Some (len A)).
Proof.
  intros h A w1 f1 p HB -> HT T. unfold block_prev. apply tiled_app in T. cbn [tiled Nat.add] in T. destruct T as (T1 & T2 & T3 & T4 & T5).
  destruct (Nat.eqb_spec (len A + w1) 0); [lia|]. unfold ld. rewrite T4. cbn [obind]. assert (h_top h <= length (h_mem h)) by apply HB.
  rewrite unmask_hv by (apply (base_small h); auto; lia). rewrite wofs_8. cbn [obind]. rewrite (csub_some _ _ (len A)) by lia. reflexivity.
Qed.
Lemma remove_free_ok : forall h p w, nth_error (h_mem h) p = Some (hv w true) -> In (hv w true, p) (h_free h) ->
  exists f, remove_free h p = Some (h_setfree h f) /\ Permutation (h_free h) ((hv w true, p) :: f).
Proof. intros h p w E H. unfold remove_free, ld. rewrite E. cbn [obind]. destruct (fs_remove_some _ _ _ H) as (f & F1 & F2). rewrite F1. cbn [obind]. eauto. Qed.

(** ** coalesce *)
Lemma coalesce_ok : forall h A w f B, base_ok h -> h_top h = len (A ++ (w, f) :: B) -> tiled (h_mem h) 0 (A ++ (w, f) :: B) ->
  na false A -> na false B -> Permutation (h_free h) (fl 0 A ++ fl (len A + w) B) ->
  exists h' bl', coalesce h (len A) = Some h' /\ inv h' bl' /\ h_top h' = h_top h /\ h_tot h' = h_tot h /\
    ul 0 bl' = ul 0 A ++ ul (len A + w) B /\ keeps (h_mem h) (h_mem h') (ul 0 bl') /\ (exists w', w <= w' /\ In (w', true) bl').
Proof.
  intros h A w f B HB HT T NA NB FR. unfold coalesce. rewrite (next_ok h A w f B) by auto. cbn [obind].
  pose proof HB as (HB1 & HB2 & HB3). pose proof HT as HT'. rewrite len_app in HT'. cbn [len] in HT'.
  pose proof T as T'. apply tiled_app in T'. cbn [tiled Nat.add] in T'. destruct T' as (TA & W2 & THd & TFt & TB).
  (* after the first half: block of width w1, rest B1 *)
  assert (STEP1 : exists h1 w1 f1 B1,
    (let* nf := free_at (h_mem h) (match B with [] => None | _ => Some (len A + w) end) in
     match (match B with [] => None | _ => Some (len A + w) end), nf with
     | Some next, true =>
                let* h' := remove_free h next in
                let* s := ld (h_mem h') (len A) in
                let* s2 := ld (h_mem h') next in
                let* m := block_update (h_mem h') (len A) (wadd (unmask s) (unmask s2)) in Some (h_setmem h' m)
     | _, _ => Some h end) = Some h1 /\
    base_ok h1 /\ h_top h1 = h_top h /\ h_tot h1 = h_tot h /\ length (h_mem h1) = length (h_mem h) /\
    len (A ++ (w1, f1) :: B1) = h_top h /\ tiled (h_mem h1) 0 (A ++ (w1, f1) :: B1) /\ na true B1 /\
    Permutation (h_free h1) (fl 0 A ++ fl (len A + w1) B1) /\ ul (len A + w) B = ul (len A + w1) B1 /\
    (forall q, q < len A \/ len A + w1 <= q -> nth_error (h_mem h1) q = nth_error (h_mem h) q) /\ w <= w1).
  { assert (NONE : (match B with (w2, true) :: _ => False | _ => True end) -> na true B).
    { destruct B as [|[w2 [|]] B]; intros Z; [exact I|destruct Z|]. cbn [na] in *. tauto. }
    destruct B as [|[w2 [|]] B1].
    1: exists h, w, f, []; cbn [free_at obind]; repeat split; auto.
    2:{ cbn [free_at]. cbn [tiled] in TB. unfold ld. rewrite (proj1 (proj2 TB)). cbn [obind]. rewrite isfree_hv. exists h, w, f, ((w2, false) :: B1). repeat split; auto. apply NB. }
    cbn [free_at]. cbn [tiled len] in TB, HT'. destruct TB as (W2' & TBh & TBf & TB1). unfold ld. rewrite TBh. cbn [obind]. rewrite isfree_hv.
    destruct (remove_free_ok h (len A + w) w2) as (fs & R1 & R2); auto.
    { apply (Permutation_in _ (Permutation_sym FR)). apply in_or_app. right. cbn [fl]. left. reflexivity. }
    rewrite R1. cbn [obind h_mem h_setfree h_setmem]. rewrite THd, TBh. cbn [obind].
    rewrite !unmask_hv by (apply (base_small h); auto; lia). pose proof (base_small h (w + w2) HB ltac:(lia)).
    rewrite (update_8 _ _ (w + w2)) by (auto; try lia; rewrite wadd_small; lia). cbn [obind].
    exists (h_setmem (h_setfree h fs) (bu (h_mem h) (len A) (w + w2) false)), (w + w2), false, B1.
    cbn [h_setmem h_setfree h_mem h_top h_tot h_free]. split; auto.
    assert (SAME : forall q, q < len A \/ len A + (w + w2) <= q -> nth_error (bu (h_mem h) (len A) (w + w2) false) q = nth_error (h_mem h) q).
    { intros q Hq. apply bu_same; lia. }
    repeat split; auto; unfold base_ok; cbn [h_setmem h_setfree h_mem h_top h_tot h_free]; rewrite ?bu_len; auto.
    - rewrite len_app. cbn [len]. lia.
    - apply tiled_app. split; [apply (tiled_frame A (h_mem h)); auto; intros; apply SAME; lia|].
      cbn [tiled Nat.add]. repeat split; try lia; [apply bu_hd; lia|apply bu_ft; lia|].
      apply (tiled_frame B1 (h_mem h)); [rewrite Nat.add_assoc; auto|intros; apply SAME; lia].
    - cbn [na] in NB. destruct NB as [_ NB]. auto.
    - apply (Permutation_cons_inv (a := (hv w2 true, len A + w))). rewrite <- R2, FR. cbn [fl]. rewrite Nat.add_assoc.
      cbn [app]. symmetry. apply Permutation_middle.
    - cbn [ul]. rewrite Nat.add_assoc. reflexivity.
    - lia. }
  destruct STEP1 as (h1 & w1 & f1 & B1 & S1 & HB' & HT1 & HTT1 & HL1 & LEN1 & T1 & NB1 & FR1 & U1 & SAME1 & WW1).
  destruct (free_at (h_mem h) match B with [] => None | _ => Some (len A + w) end) as [nf|] eqn:ENF; cbn [obind] in S1; [|discriminate].
  cbn [obind]. rewrite S1. cbn [obind]. clear S1 ENF.
  rewrite len_app in LEN1. cbn [len] in LEN1. pose proof T1 as T1'. apply tiled_app in T1'. cbn [tiled Nat.add] in T1'. destruct T1' as (TA1 & W1 & TH1 & TF1 & TB1).
  (* second half: block at len A2 of width w3 *)
  assert (STEP2 : exists h2 w3 f3 A2,
    (let* pv := block_prev (h_mem h1) (len A) in
     let* pf := free_at (h_mem h1) pv in
     match pv, pf with
             | Some prev, true =>
               let* h' := remove_free h1 prev in
               let* s := ld (h_mem h') prev in
               let* s2 := ld (h_mem h') (len A) in
               let* m := block_update (h_mem h') prev (wadd (unmask s) (unmask s2)) in Some (h_setmem h' m, prev)
             | _, _ => Some (h1, len A) end) = Some (h2, len A2) /\
    base_ok h2 /\ h_top h2 = h_top h /\ h_tot h2 = h_tot h /\ length (h_mem h2) = length (h_mem h) /\
    len (A2 ++ (w3, f3) :: B1) = h_top h /\ tiled (h_mem h2) 0 (A2 ++ (w3, f3) :: B1) /\ na false A2 /\ lastf false A2 = false /\
    Permutation (h_free h2) (fl 0 A2 ++ fl (len A2 + w3) B1) /\ ul 0 A = ul 0 A2 /\ len A + w1 = len A2 + w3 /\ len A2 <= len A /\
    (forall q, q < len A2 \/ len A2 + w3 <= q -> nth_error (h_mem h2) q = nth_error (h_mem h1) q)).
  { destruct A as [|a0 A0] eqn:EA.
    { exists h1, w1, f1, []. cbn [len block_prev Nat.eqb obind free_at]. cbn [app len fl Nat.add ul] in *. repeat split; auto; lia. }
    destruct (exists_last (l := a0 :: A0) ltac:(discriminate)) as (A2 & [w0 f0] & EL). rewrite EL in *. clear EL EA a0 A0.
    rewrite len_app in *. cbn [len] in *. rewrite Nat.add_0_r in *.
    rewrite (prev_ok h1 A2 w0 f0) by (auto; lia). cbn [obind free_at].
    apply tiled_app in TA1. cbn [tiled Nat.add] in TA1. destruct TA1 as (TA2 & W0 & TH0 & TF0 & _). unfold ld at 1. rewrite TH0. cbn [obind]. rewrite isfree_hv.
    apply na_app in NA. cbn [na] in NA. destruct NA as (NA2 & NA3 & _). destruct f0.
    - rewrite andb_true_r in NA3.
      destruct (remove_free_ok h1 (len A2) w0) as (fs & R1 & R2); auto.
      { apply (Permutation_in _ (Permutation_sym FR1)). rewrite fl_app. apply in_or_app. left. apply in_or_app. right. cbn [fl]. left. reflexivity. }
      rewrite R1. cbn [obind h_mem h_setfree h_setmem]. unfold ld. rewrite TH0, TH1. cbn [obind].
      pose proof (base_small h (w0 + w1) HB ltac:(lia)).
      rewrite !unmask_hv by (clear - H; lia). 
      rewrite (update_8 _ _ (w0 + w1)) by (auto; try lia; rewrite wadd_small; lia). cbn [obind].
      exists (h_setmem (h_setfree h1 fs) (bu (h_mem h1) (len A2) (w0 + w1) false)), (w0 + w1), false, A2.
      cbn [h_setmem h_setfree h_mem h_top h_tot h_free]. split; auto.
      assert (SAME : forall q, q < len A2 \/ len A2 + (w0 + w1) <= q -> nth_error (bu (h_mem h1) (len A2) (w0 + w1) false) q = nth_error (h_mem h1) q).
      { intros q Hq. apply bu_same; lia. }
      repeat split; auto; unfold base_ok; cbn [h_setmem h_setfree h_mem h_top h_tot h_free]; rewrite ?bu_len; auto; try lia.
      + rewrite len_app. cbn [len]. lia.
      + apply tiled_app. split; [apply (tiled_frame A2 (h_mem h1)); auto; intros; apply SAME; lia|].
        cbn [tiled Nat.add]. repeat split; try lia; [apply bu_hd; lia|apply bu_ft; lia|].
        apply (tiled_frame B1 (h_mem h1)); [rewrite Nat.add_assoc; auto|intros; apply SAME; lia].
      + apply (Permutation_cons_inv (a := (hv w0 true, len A2))). rewrite <- R2, FR1, fl_app. cbn [fl Nat.add app]. rewrite Nat.add_assoc.
        rewrite <- app_assoc. cbn [app]. symmetry. apply Permutation_middle.
      + rewrite ul_app. cbn [ul app]. rewrite app_nil_r. reflexivity.
    - exists h1, w1, f1, (A2 ++ [(w0, false)]). rewrite len_app. cbn [len]. rewrite Nat.add_0_r.
      repeat split; auto; try lia.
      + rewrite !len_app. cbn [len]. lia.
      + apply na_app. cbn [na]. repeat split; auto.
      + rewrite lastf_app. reflexivity. }
  destruct STEP2 as (h2 & w3 & f3 & A2 & S2 & HB2' & HT2 & HTT2 & HL2 & LEN2 & T2 & NA2 & LA2 & FR2 & U2 & EP & LE2 & SAME2).
  destruct (block_prev (h_mem h1) (len A)) as [pv|] eqn:EPV; [|discriminate]. cbn [obind] in *.
  destruct (free_at (h_mem h1) pv) as [pf|] eqn:EPF; [|discriminate]. cbn [obind] in *. rewrite S2. cbn [obind fst snd]. clear S2 EPV EPF.
  rewrite len_app in LEN2. cbn [len] in LEN2. pose proof T2 as T2'. apply tiled_app in T2'. cbn [tiled Nat.add] in T2'. destruct T2' as (TA2 & W3 & TH2 & TF2 & TB2).
  assert (SM : (8 * N.of_nat w3 + 1 < W64)%N) by (apply (base_small h); auto; lia).
  rewrite (markfree_ok _ _ w3 f3) by (auto; try lia). cbn [obind].
  unfold insert_free. cbn [h_setmem h_mem]. unfold ld. rewrite bu_hd by lia. cbn [obind h_setfree h_setmem h_free h_mem h_top h_tot].
  eexists. exists (A2 ++ (w3, true) :: B1). split; [reflexivity|].
  assert (SAME : forall q, q < len A2 \/ len A2 + w3 <= q -> nth_error (bu (h_mem h2) (len A2) w3 true) q = nth_error (h_mem h2) q) by (intros q Hq; apply bu_same; lia).
  cbn [h_mem h_top h_tot h_free h_setfree h_setmem]. split; [|split; [|split; [|split; [|split]]]]; auto.
  - unfold inv, base_ok. cbn [h_mem h_top h_tot h_free h_setfree h_setmem]. rewrite bu_len. repeat split; try lia.
    + rewrite len_app. cbn [len]. lia.
    + apply tiled_app. split; [apply (tiled_frame A2 (h_mem h2)); auto; intros; apply SAME; lia|].
      cbn [tiled Nat.add]. repeat split; try lia; [apply bu_hd; lia|apply bu_ft; lia|].
      apply (tiled_frame B1 (h_mem h2)); [auto|intros; apply SAME; lia].
    + apply na_app. cbn [na]. rewrite LA2. repeat split; auto.
    + rewrite fs_insert_perm, FR2, fl_app. cbn [fl Nat.add app]. apply Permutation_middle.
  - rewrite ul_app. cbn [ul Nat.add app]. rewrite U1, U2. f_equal. f_equal. lia.
  - intros P W q HIn Hq. rewrite ul_app in HIn. cbn [ul Nat.add app] in HIn. apply in_app_or in HIn.
    assert (OUT : q < len A2 \/ len A2 + w3 <= q). { destruct HIn as [X|X]; apply ul_range in X; lia. }
    rewrite SAME by auto. rewrite SAME2 by auto. apply SAME1. lia.
  - exists w3. split; [lia|]. apply in_or_app. right. left. reflexivity.
Qed.
