(** * wm_int: the constructor *)
From Coq Require Import NArith ZArith List Lia Bool Arith Permutation.
From Verif Require Import SelectSupportProofs3 Base SpecBits RankSelect AbsVec WtBase SpecWt SpecWtAlg WtProofs WtInt WtIntProofs WtIntProofs2 WtIntProofs4 WmInt WmIntProofs.
Import ListNotations.

Definition mnext (d : nat) (rac : list N) : list N := filter (fb false d) rac ++ filter (fb true d) rac.
Fixpoint mlvl (d : nat) (rac : list N) : list bool :=
  match d with 0 => [] | S d' => map (fun x => tb x d') rac ++ mlvl d' (mnext d' rac) end.
Fixpoint mz (d : nat) (rac : list N) : list nat :=
  match d with 0 => [] | S d' => length (filter (fb false d') rac) :: mz d' (mnext d' rac) end.
Fixpoint mfin (d : nat) (rac : list N) : list N :=
  match d with 0 => rac | S d' => mfin d' (mnext d' rac) end.

Lemma cm_scan_ok : forall d Q Z X P l t, Z = filter (fb false d) P -> length Z + length X = length P -> twi t l ->
  exists X' t', cm_scan (seq (length P) (length Q)) (Z ++ X ++ Q) (filter (fb true d) P) (length Z) (2 ^ N.of_nat d) t =
    Some (filter (fb false d) (P ++ Q) ++ X', filter (fb true d) (P ++ Q), length (filter (fb false d) (P ++ Q)), t') /\
    length (filter (fb false d) (P ++ Q)) + length X' = length (P ++ Q) /\ twi t' (l ++ map (fun x => tb x d) Q).
Proof.
  intros d. induction Q as [|x Q]; intros Z X P l t HZ HL HT.
  - exists X, t. simpl. rewrite !app_nil_r. subst Z. auto.
  - cbn [length seq cm_scan]. rewrite app_assoc.
    assert (NE : nth_error ((Z ++ X) ++ x :: Q) (length P) = Some x). { replace (length P) with (length (Z ++ X)) by (rewrite app_length; lia). apply nth_error_mid. }
    rewrite NE. cbn [obind].
    destruct (tw_emit_ok t l (tb x d) HT) as (t' & T1 & T2). rewrite hit_pow, T1. cbn [obind].
    replace (S (length P)) with (length (P ++ [x])) by (rewrite app_length; simpl; lia).
    replace (P ++ x :: Q) with ((P ++ [x]) ++ Q) by (rewrite <- app_assoc; auto).
    cbn [map]. replace (l ++ tb x d :: map (fun x => tb x d) Q) with ((l ++ [tb x d]) ++ map (fun x => tb x d) Q) by (rewrite <- app_assoc; auto).
    destruct (tb x d) eqn:Eb.
    + assert (F1 : filter (fb true d) (P ++ [x]) = filter (fb true d) P ++ [x]). { rewrite filter_app. simpl. now rewrite fb_true, Eb. }
      assert (F0 : filter (fb false d) (P ++ [x]) = filter (fb false d) P). { rewrite filter_app. simpl. rewrite fb_false, Eb. simpl. now rewrite app_nil_r. }
      replace ((Z ++ X) ++ x :: Q) with (Z ++ (X ++ [x]) ++ Q) by (rewrite <- !app_assoc; auto). rewrite <- F1.
      apply IHQ; auto. now rewrite F0. rewrite !app_length. simpl. lia.
    + assert (F1 : filter (fb true d) (P ++ [x]) = filter (fb true d) P). { rewrite filter_app. simpl. rewrite fb_true, Eb. now rewrite app_nil_r. }
      assert (F0 : filter (fb false d) (P ++ [x]) = filter (fb false d) P ++ [x]). { rewrite filter_app. simpl. rewrite fb_false, Eb. auto. }
      assert (U : exists X', length X' = length X /\ upd ((Z ++ X) ++ x :: Q) (length Z) x = (Z ++ [x]) ++ X' ++ Q).
      { destruct X as [|y X].
        - exists []. split; auto. rewrite app_nil_r, upd_mid, <- !app_assoc. auto.
        - exists (X ++ [x]). split. rewrite app_length. simpl. lia. rewrite <- app_assoc. cbn [app]. rewrite upd_mid, <- !app_assoc. auto. }
      destruct U as (X' & U1 & U2). rewrite aset_some by (rewrite !app_length; simpl; lia). rewrite U2. cbn [obind].
      replace (length Z + 1) with (length (Z ++ [x])) by (rewrite app_length; simpl; lia). rewrite <- F1.
      apply IHQ; auto. { rewrite F0. now subst Z. } rewrite !app_length. simpl. lia.
Qed.
Lemma cm_copy_ok : forall O Z X P, length X = length O ->
  cm_copy (seq (length Z + length P) (length O)) (Z ++ P ++ X) (P ++ O) (length Z) = Some (Z ++ P ++ O).
Proof.
  induction O as [|x O]; intros. { destruct X; [auto|discriminate]. }
  destruct X as [|y X]; [discriminate|]. cbn [length seq cm_copy]. rewrite (csub_some _ _ (length P)) by auto. cbn [obind].
  rewrite nth_error_mid. cbn [obind]. rewrite aset_some by (rewrite !app_length; simpl; lia). cbn [obind].
  replace (upd (Z ++ P ++ y :: X) (length Z + length P) x) with (Z ++ (P ++ [x]) ++ X).
  2:{ rewrite (app_assoc Z P (y :: X)), <- app_length, upd_mid, <- !app_assoc. auto. }
  replace (P ++ x :: O) with ((P ++ [x]) ++ O) by (rewrite <- app_assoc; auto).
  replace (S (length Z + length P)) with (length Z + length (P ++ [x])) by (rewrite app_length; simpl; lia).
  apply IHO. simpl in H. lia.
Qed.
Lemma fsplit_len : forall d T, length (filter (fb false d) T) + length (filter (fb true d) T) = length T.
Proof. intros. apply (split_len _ (fb false d) (fb true d) T). intros. apply (fb_negb false). Qed.
Lemma mnext_len : forall d rac, length (mnext d rac) = length rac.
Proof. intros. unfold mnext. rewrite app_length. apply fsplit_len. Qed.

Lemma cm_levels_ok : forall d k rac pz l t, d <= 64 -> length pz = k -> twi t l ->
  exists t', cm_levels d k rac (pz ++ repeat 0 d) t = Some (mfin d rac, pz ++ mz d rac, t') /\ twi t' (l ++ mlvl d rac).
Proof.
  induction d; intros k rac pz l t HD HZ HT. { exists t. simpl. rewrite !app_nil_r. auto. }
  cbn [cm_levels]. rewrite shl_c_pow by lia. cbn [obind].
  destruct (cm_scan_ok d rac [] [] [] l t eq_refl eq_refl HT) as (X & t1 & E1 & E2 & E3). cbn [app length filter] in E1, E2. rewrite E1. cbn [obind].
  rewrite aset_some by (rewrite app_length; simpl; lia). cbn [obind].
  set (Z := filter (fb false d) rac) in *. set (O := filter (fb true d) rac) in *. pose proof (fsplit_len d rac) as FL. fold Z O in FL.
  replace (length (Z ++ X) - length Z) with (length O) by (rewrite app_length; lia).
  pose proof (cm_copy_ok O Z X [] ltac:(lia)) as C. cbn [app length] in C. rewrite Nat.add_0_r in C. rewrite C. cbn [obind].
  subst k. cbn [repeat]. rewrite upd_mid.
  replace (pz ++ length Z :: repeat 0 d) with ((pz ++ [length Z]) ++ repeat 0 d) by (rewrite <- app_assoc; auto).
  destruct (IHd (length pz + 1) (Z ++ O) (pz ++ [length Z]) (l ++ map (fun x => tb x d) rac) t1) as (t2 & F1 & F2); auto; try lia.
  { rewrite app_length. auto. }
  exists t2. rewrite F1. cbn [mfin mz mlvl]. unfold mnext. fold Z O. split. { rewrite <- app_assoc. auto. } rewrite app_assoc. auto.
Qed.

Lemma mlvl_len : forall d rac, length (mlvl d rac) = d * length rac.
Proof. induction d; intros; auto. cbn [mlvl]. rewrite app_length, map_length, IHd, mnext_len. lia. Qed.
Lemma rank_level : forall pt rac rest d A T, rac = A ++ T ->
  rank_of (t_bit (pt ++ map (fun x => tb x d) rac ++ rest)) (length pt + length A) =
  rank_of (t_bit (pt ++ map (fun x => tb x d) rac ++ rest)) (length pt) + length (filter (fb true d) A).
Proof.
  intros. rewrite (rank_node _ (fb true d) (length pt) rac (length A)).
  - unfold cnt. subst. rewrite firstn_app, firstn_all, Nat.sub_diag. simpl. rewrite app_nil_r. auto.
  - intros. unfold t_bit. rewrite app_nth2, Nat.add_comm, Nat.add_sub by lia. rewrite app_nth1 by (rewrite map_length; auto).
    rewrite (nth_indep _ _ (tb 0%N d)) by (rewrite map_length; auto). rewrite (map_nth (fun x => tb x d)). now rewrite fb_true.
  - subst. rewrite app_length. lia.
Qed.

Lemma mlvl_at : forall w d k rac pt pz, wm_tree w = pt ++ mlvl d rac -> length pt = k * wm_n w -> length rac = wm_n w ->
  wm_zc w = pz ++ mz d rac -> length pz = k ->
  forall A T B, rac = A ++ T ++ B -> wm_at w d k (k * wm_n w + length A) T.
Proof.
  intros w. induction d; intros k rac pt pz HT HP HN HZ HK A T B HR; [exact I|]. cbn [wm_at mlvl mz] in *.
  assert (LR : length A + length T + length B = wm_n w) by (rewrite <- HN, HR, !app_length; lia).
  assert (LT : length (wm_tree w) = k * wm_n w + wm_n w + d * wm_n w) by (rewrite HT, !app_length, map_length, mlvl_len, mnext_len; lia).
  assert (OP : ones_p w k (k * wm_n w + length A) = length (filter (fb true d) A)).
  { unfold ones_p. rewrite HT, <- HP. rewrite (rank_level pt rac _ d A (T ++ B) HR). lia. }
  assert (ZK : nth k (wm_zc w) 0 = length (filter (fb false d) rac)). { rewrite HZ, <- HK, app_nth2, Nat.sub_diag by lia. auto. }
  split; [lia|]. split; [lia|]. split.
  { intros. unfold t_bit. rewrite HT, <- HP. rewrite app_nth2 by lia. replace (length pt + length A + q - length pt) with (length A + q) by lia.
    rewrite app_nth1 by (rewrite map_length; lia). rewrite (nth_indep _ _ (tb 0%N d)) by (rewrite map_length; lia). rewrite (map_nth (fun x => tb x d)).
    rewrite HR, app_nth2 by lia. replace (length A + q - length A) with q by lia. rewrite app_nth1 by auto. auto. }
  assert (NX : mnext d rac = filter (fb false d) A ++ filter (fb false d) T ++ filter (fb false d) B ++ filter (fb true d) A ++ filter (fb true d) T ++ filter (fb true d) B).
  { unfold mnext. rewrite HR, !filter_app, <- !app_assoc. auto. }
  specialize (IHd (k + 1) (mnext d rac) (pt ++ map (fun x => tb x d) rac) (pz ++ [length (filter (fb false d) rac)])).
  assert (I : forall A0 T0 B0, mnext d rac = A0 ++ T0 ++ B0 -> wm_at w d (k + 1) ((k + 1) * wm_n w + length A0) T0).
  { apply IHd. rewrite HT, <- app_assoc; auto. rewrite app_length, map_length. lia. rewrite mnext_len. auto.
    rewrite HZ, <- app_assoc. auto. rewrite app_length. simpl. lia. }
  pose proof (fsplit_len d A) as FA. split.
  - unfold kid. rewrite OP. replace (k * wm_n w + length A - k * wm_n w - length (filter (fb true d) A)) with (length (filter (fb false d) A)) by lia.
    eapply I. exact NX.
  - unfold kid. rewrite OP, ZK.
    replace ((k + 1) * wm_n w + length (filter (fb false d) rac) + length (filter (fb true d) A)) with
      ((k + 1) * wm_n w + length (filter (fb false d) rac ++ filter (fb true d) A)) by (rewrite app_length; lia).
    apply (I _ _ (filter (fb true d) B)). unfold mnext. rewrite HR, !filter_app, <- !app_assoc. auto.
Qed.

Lemma cm_rl_ok : forall n t m k rl, length rl = k + m -> (k + m - 1) * n <= length t -> 
  exists rl', cm_rl (seq k m) n t rl = Some rl' /\ (forall j, j < k -> nth_error rl' j = nth_error rl j) /\
    forall j, k <= j < k + m -> nth_error rl' j = Some (rank_of (t_bit t) (j * n)).
Proof.
  induction m; intros k rl HL HT. { exists rl. simpl. split; auto. split; auto. lia. }
  cbn [seq cm_rl]. rewrite t_rank_some by nia. cbn [obind]. rewrite aset_some by lia. cbn [obind].
  destruct (IHm (S k) (upd rl k (rank_of (t_bit t) (k * n)))) as (rl' & E1 & E2 & E3).
  { rewrite upd_length. lia. } { replace (S k + m - 1) with (k + S m - 1) by lia. auto. }
  exists rl'. split; auto. split.
  - intros. rewrite E2 by lia. apply nth_error_upd_neq. lia.
  - intros. destruct (Nat.eq_dec j k). { subst. rewrite E2 by lia. apply nth_error_upd_eq. lia. } apply E3. lia.
Qed.

(** ** sigma: equal symbols are neighbours at the end *)
Definition adj (d : nat) (l : list N) : Prop :=
  forall A x B y C, l = A ++ x :: B ++ y :: C -> shr x d = shr y d -> forall z, In z B -> shr z d = shr x d.
Lemma filter_app_inv : forall A (f : A -> bool) l P x R, filter f l = P ++ x :: R ->
  exists P' R', l = P' ++ x :: R' /\ filter f P' = P /\ filter f R' = R /\ f x = true.
Proof.
  induction l as [|a l]; simpl; intros. { destruct P; discriminate. }
  destruct (f a) eqn:F.
  - destruct P as [|p P]; simpl in H; injection H as H0 H1.
    + subst. exists [], l. auto.
    + destruct (IHl P x R H1) as (P' & R' & E1 & E2 & E3 & E4). exists (a :: P'), R'. subst. simpl. rewrite F. auto.
  - destruct (IHl P x R H) as (P' & R' & E1 & E2 & E3 & E4). exists (a :: P'), R'. subst. simpl. rewrite F. auto.
Qed.
Lemma adj_filter : forall d b l, adj (S d) l -> adj d (filter (fb b d) l).
Proof.
  intros d b l H A x B y C E HE z Hz. destruct (filter_app_inv _ _ _ _ _ _ E) as (P & R & -> & _ & E3 & Fx).
  destruct (filter_app_inv _ _ _ _ _ _ E3) as (P' & R' & -> & E5 & E6 & Fy).
  rewrite <- E5 in Hz. apply filter_In in Hz. destruct Hz as [Hz Fz]. destruct (shr_step_inv _ _ _ HE) as [S1 S2].
  apply shr_step. { eapply (H P x P' y R'); eauto. } unfold fb in *. apply eqb_prop in Fx. apply eqb_prop in Fz. congruence.
Qed.
Lemma app_split2 : forall A (l1 l2 P R : list A) x, l1 ++ l2 = P ++ x :: R ->
  (exists R1, l1 = P ++ x :: R1 /\ R = R1 ++ l2) \/ (exists P2, l2 = P2 ++ x :: R /\ P = l1 ++ P2).
Proof.
  induction l1; simpl; intros. { right. exists P. auto. }
  destruct P as [|p P]; simpl in H; injection H as H0 H1.
  - subst. left. exists l1. auto.
  - destruct (IHl1 _ _ _ _ H1) as [(R1 & E1 & E2)|(P2 & E1 & E2)].
    + left. exists R1. subst. auto. + right. exists P2. subst. auto.
Qed.
Lemma adj_next : forall d l, adj (S d) l -> adj d (mnext d l).
Proof.
  intros d l H A x B y C E HE z Hz. unfold mnext in E. pose proof (shr_step_inv _ _ _ HE) as [S1 S2].
  assert (BIT : forall b v, In v (filter (fb b d) l) -> tb v d = b). { intros b v Hv. apply filter_In in Hv. destruct Hv as [_ F]. unfold fb in F. apply eqb_prop in F. auto. }
  destruct (app_split2 _ _ _ _ _ _ E) as [(R1 & E1 & E2)|(P2 & E1 & E2)].
  - symmetry in E2. destruct (app_split2 _ _ _ _ _ _ E2) as [(R2 & E3 & E4)|(P3 & E3 & E4)].
    + subst R1. eapply (adj_filter d false l H A x B y R2); eauto.
    + exfalso. assert (tb x d = false) by (apply BIT; rewrite E1; apply in_or_app; right; left; auto).
      assert (tb y d = true) by (apply BIT; rewrite E3; apply in_or_app; right; left; auto). congruence.
  - eapply (adj_filter d true l H P2 x B y C); eauto.
Qed.
Lemma adj_fin : forall d l, adj d l -> adj 0 (mfin d l).
Proof. induction d; simpl; intros; auto. apply IHd, adj_next. auto. Qed.
Lemma mfin_In : forall d l x, In x (mfin d l) <-> In x l.
Proof.
  induction d; simpl; intros; [tauto|]. rewrite IHd. unfold mnext. rewrite in_app_iff, !filter_In, fb_true, fb_false.
  destruct (tb x d); simpl; intuition congruence.
Qed.
Lemma runs_distinct : forall l, adj 0 l -> runs l = distinct l.
Proof.
  induction l as [|x l]; intros H; auto.
  assert (H' : adj 0 l). { intros A a B b C E. apply (H (x :: A) a B b C). rewrite E. auto. }
  unfold distinct in *. cbn [nodup]. specialize (IHl H'). destruct (in_dec N.eq_dec x l) as [I|I].
  - destruct l as [|y l]; [destruct I|]. cbn [runs] in *. assert (x = y).
    { destruct (N.eq_dec x y) as [|Ny]; auto. destruct I as [I|I]; auto. apply in_split in I. destruct I as (l1 & l2 & ->).
      specialize (H [] x (y :: l1) x l2 eq_refl eq_refl y (or_introl eq_refl)). rewrite !shr_0 in H. auto. }
    subst. rewrite N.eqb_refl. auto.
  - cbn [length]. rewrite <- IHl. destruct l as [|y l]; auto. cbn [runs]. destruct (N.eqb_spec x y); auto. subst. destruct I. left. auto.
Qed.
Lemma distinct_ext : forall l1 l2, (forall x, In x l1 <-> In x l2) -> distinct l1 = distinct l2.
Proof.
  intros. unfold distinct. apply Permutation_length, NoDup_Permutation; try apply NoDup_nodup. intros. rewrite !nodup_In. auto.
Qed.

(** ** the constructor *)
Lemma wm_level_ok : forall S ml, S <> [] -> wm_dom S ml -> 1 <= level_of S ml <= 64 /\ Forall (fun x => (x < 2 ^ N.of_nat (level_of S ml))%N) S.
Proof.
  intros S ml HS [HM HF]. cbv zeta in HF. unfold level_of. destruct (Nat.eqb_spec ml 0) as [E|E]; [|split; [lia|auto]].
  destruct (max_value_ge S 1%N) as (A & B & C). fold (max_value S) in *.
  assert (MB : (max_value S < W64)%N). { rewrite W64_pow. destruct C as [->|C]. reflexivity. rewrite Forall_forall in HF. apply (HF _ C). }
  split. apply hiw_bound; auto. rewrite Forall_forall. intros x Hx. apply hiw_fits; auto.
Qed.
Theorem wm_make_ok : forall S ml, S <> [] -> wm_dom S ml ->
  exists w, wm_make S ml = Some w /\ wm_holds w S /\ wm_sigma w = distinct S /\ wm_L w = level_of S ml.
Proof.
  intros S ml HS HD. destruct (wm_level_ok S ml HS HD) as [HL HX]. unfold wm_make. fold (level_of S ml). set (L := level_of S ml) in *.
  destruct (Nat.eqb_spec (length S) 0) as [E|NE]. { destruct S; [congruence|discriminate]. }
  destruct (cm_levels_ok L 0 S [] [] tw_new ltac:(lia) eq_refl twi_new) as (t & E1 & E2). cbn [app] in E1, E2. rewrite E1. cbn [obind].
  replace (length S * L) with (length (mlvl L S)) by (rewrite mlvl_len; lia). rewrite (tw_close_ok _ _ E2). cbn [obind].
  destruct (cm_rl_ok (length S) (mlvl L S) L 0 (repeat 0 L)) as (rl & R1 & _ & R2). { now rewrite repeat_length. } { rewrite mlvl_len. nia. }
  rewrite R1. cbn [obind]. eexists. split; [reflexivity|]. unfold wm_holds, wm_n, wm_L, wm_tree, wm_sigma. cbn [wm_w wt_n wt_tree wt_L wt_sigma wm_zc wm_rl].
  assert (ZL : forall d l, length (mz d l) = d) by (induction d; intros; simpl; auto).
  split; [split; [auto|split; [|split; [auto|split; [auto|split; [auto|]]]]]|split; auto].
  - match goal with |- wm_at ?w _ _ _ _ => apply (mlvl_at w L 0 S [] [] eq_refl eq_refl eq_refl eq_refl eq_refl [] S []) end. now rewrite app_nil_r.
  - intros. apply R2. lia.
  - rewrite runs_distinct. 
    + apply distinct_ext. intros. apply mfin_In.
    + apply adj_fin. intros A x B y C E HE z Hz. assert (forall v, In v S -> shr v L = 0%N) by (intros; apply shr_small; rewrite Forall_forall in HX; auto).
      rewrite !H; auto; rewrite E, in_app_iff; simpl; rewrite in_app_iff; simpl; auto.
Qed.
