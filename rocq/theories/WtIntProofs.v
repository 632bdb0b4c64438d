(** * wt_int: the queries on a tree that holds the sequence *)
From Coq Require Import NArith ZArith List Lia Bool Arith Permutation.
From Verif Require Import Base SpecBits RankSelect AbsVec WtBase SpecWt WtProofs WtInt.
Import ListNotations.

(** the subtree of height [d] at [o] holds the sequence [T] *)
Fixpoint wt_at (t : list bool) (n d o : nat) (T : list N) : Prop :=
  match d with
  | 0 => True
  | S d' =>
    o + length T <= length t /\ (forall k, k < length T -> t_bit t (o + k) = tb (nth k T 0%N) d') /\
    wt_at t n d' (o + n) (filter (fb false d') T) /\
    wt_at t n d' (o + length (filter (fb false d') T) + n) (filter (fb true d') T)
  end.

Definition wt_holds (w : wt) (S : list N) : Prop :=
  wt_n w = length S /\ wt_at (wt_tree w) (wt_n w) (wt_L w) 0 S /\ Forall (fun x => (x < 2 ^ N.of_nat (wt_L w))%N) S /\
  1 <= wt_L w <= 63.

(* all elements share the bits above d with c *)
Definition pre (d : nat) (c : N) (T : list N) : Prop := Forall (fun y => shr y d = shr c d) T.

Lemma pre_step : forall d c T, pre (S d) c T -> pre d c (filter (fb (tb c d) d) T).
Proof.
  unfold pre. intros. rewrite Forall_forall in *. intros y Hy. rewrite filter_In in Hy. destruct Hy as [Hy E].
  apply shr_step; auto. unfold fb in E. apply eqb_prop in E. auto.
Qed.
Lemma pre_0 : forall c T, pre 0 c T -> forall y, In y T -> y = c.
Proof. unfold pre. intros. rewrite Forall_forall in H. specialize (H y H0). now rewrite !shr_0 in H. Qed.

(** what the rank calls at a node return *)
Ltac node H :=
  let B := fresh "B" in let E := fresh "E" in let C0 := fresh "C0" in let C1 := fresh "C1" in
  cbn [wt_at] in H; destruct H as (B & E & C0 & C1).

Lemma rk : forall t o T d i, o + length T <= length t ->
  (forall k, k < length T -> t_bit t (o + k) = tb (nth k T 0%N) d) -> i <= length T ->
  t_rank t (o + i) = Some (rank_of (t_bit t) o + cnt (fb true d) T i).
Proof.
  intros. rewrite t_rank_some by lia. f_equal. apply rank_node; auto. intros. rewrite fb_true. auto.
Qed.
Lemma rk0 : forall t o (T : list N), o + length T <= length t -> t_rank t o = Some (rank_of (t_bit t) o).
Proof. intros. apply t_rank_some. lia. Qed.
Lemma rkE : forall t o T d, o + length T <= length t ->
  (forall k, k < length T -> t_bit t (o + k) = tb (nth k T 0%N) d) ->
  t_rank t (o + length T) = Some (rank_of (t_bit t) o + length (filter (fb true d) T)).
Proof. intros. rewrite (rk t o T d) by auto. now rewrite cnt_all by auto. Qed.
Lemma csub_add : forall a b, csub (a + b) a = Some b. Proof. intros. apply csub_some. auto. Qed.
Lemma csub_len : forall T d, csub (length T) (length (filter (fb true d) T)) = Some (length (filter (fb false d) T)).
Proof. intros. apply csub_some. rewrite <- (len_fb d). pose proof (filter_le _ (fb true d) T). lia. Qed.
Lemma csub_cnt : forall T d i, i <= length T -> csub i (cnt (fb true d) T i) = Some (cnt (fb false d) T i).
Proof. intros. apply csub_some. rewrite <- cnt_fb by auto. pose proof (cnt_le (fb true d) T i). lia. Qed.

Lemma fb_self : forall x d, fb (tb x d) d x = true. Proof. intros. unfold fb. apply eqb_reflx. Qed.

Section Q.
Variable w : wt.
Notation t := (wt_tree w). Notation n := (wt_n w).

(* go down into the child with bit b *)
Lemma child_at : forall d o T (b : bool), wt_at t n (S d) o T ->
  wt_at t n d (if b then o + length (filter (fb false d) T) + n else o + n) (filter (fb b d) T).
Proof. intros. node H. destruct b; auto. Qed.

Lemma acc_ok : forall d o T i, wt_at t n d o T -> i < length T -> is_word (nth i T 0%N) ->
  acc_loop w d o i (length T) (shr (nth i T 0%N) d) = Some (nth i T 0%N).
Proof.
  induction d; intros. { simpl. now rewrite shr_0. }
  pose proof (fun b => child_at d o T b H) as CH. node H. cbn [acc_loop].
  rewrite (rk0 t o T B), (rk t o T d i B E) by lia. cbn [obind]. rewrite csub_add. cbn [obind].
  rewrite (rkE t o T d B E). cbn [obind]. rewrite csub_add. cbn [obind]. rewrite csub_len. cbn [obind].
  rewrite t_get_some by lia. cbn [obind]. rewrite (E i H0). rewrite csub_cnt by lia. cbn [obind].
  pose proof (nth_filter (fb (tb (nth i T 0%N) d) d) T i 0%N H0 (fb_self _ _)) as [N1 N2].
  specialize (CH (tb (nth i T 0%N) d)). destruct (tb (nth i T 0%N) d) eqn:Eb.
  - rewrite prefix1 by auto. rewrite <- N1. apply IHd; rewrite ?N1; auto.
  - rewrite prefix0 by auto. rewrite <- N1. apply IHd; rewrite ?N1; auto.
Qed.

Lemma occ_child : forall T c d i, occ T c i = occ (filter (fb (tb c d) d) T) c (cnt (fb (tb c d) d) T i).
Proof.
  intros. unfold occ. rewrite firstn_filter, filter_filter_same; auto. intros.
  apply N.eqb_eq in H0. subst. apply fb_self.
Qed.
Lemma occ_const : forall T c i, (forall y, In y T -> y = c) -> i <= length T -> occ T c i = i.
Proof.
  intros. unfold occ. rewrite filter_all. rewrite firstn_length. lia.
  intros. apply In_firstn in H1. apply N.eqb_eq. symmetry. auto.
Qed.

Lemma isel_ok : forall d o T i, wt_at t n d o T -> i < length T -> is_word (nth i T 0%N) -> pre d (nth i T 0%N) T ->
  isel_loop w d o i (length T) (shr (nth i T 0%N) d) = Some (occ T (nth i T 0%N) i, nth i T 0%N).
Proof.
  induction d; intros. { simpl. rewrite shr_0, occ_const; auto. apply pre_0. auto. lia. }
  pose proof (fun b => child_at d o T b H) as CH. node H. cbn [isel_loop].
  rewrite (rk0 t o T B), (rk t o T d i B E) by lia. cbn [obind]. rewrite csub_add. cbn [obind].
  rewrite (rkE t o T d B E). cbn [obind]. rewrite csub_add. cbn [obind]. rewrite csub_len. cbn [obind].
  rewrite t_get_some by lia. cbn [obind]. rewrite (E i H0). rewrite csub_cnt by lia. cbn [obind].
  pose proof (nth_filter (fb (tb (nth i T 0%N) d) d) T i 0%N H0 (fb_self _ _)) as [N1 N2].
  pose proof (pre_step _ _ _ H2) as P2. pose proof (occ_child T (nth i T 0%N) d i) as OC.
  specialize (CH (tb (nth i T 0%N) d)). destruct (tb (nth i T 0%N) d) eqn:Eb; rewrite OC.
  - rewrite prefix1 by auto. rewrite <- N1. apply IHd; rewrite ?N1; auto.
  - rewrite prefix0 by auto. rewrite <- N1. apply IHd; rewrite ?N1; auto.
Qed.

Lemma occ_0 : forall T c, occ T c 0 = 0. Proof. reflexivity. Qed.
Lemma csub_S1 : forall d, csub (S d) 1 = Some d. Proof. intros. apply csub_some. lia. Qed.

Lemma hit_pow : forall c d, hit c (2 ^ N.of_nat d) = tb c d. Proof. intros. apply hit_tb. Qed.

Lemma rank_ok : forall d o T i c, wt_at t n d o T -> i <= length T -> pre d c T ->
  rank_loop w d o i (length T) c (2 ^ N.of_nat (d - 1)) = Some (occ T c i).
Proof.
  induction d; intros. { simpl. rewrite occ_const; auto. apply pre_0. auto. }
  pose proof (fun b => child_at d o T b H) as CH. node H. cbn [rank_loop].
  destruct (Nat.eqb_spec i 0). { subst. now rewrite occ_0. }
  rewrite (rk0 t o T B), (rk t o T d i B E) by lia. cbn [obind]. rewrite csub_add. cbn [obind].
  rewrite (rkE t o T d B E). cbn [obind]. rewrite csub_add. cbn [obind]. rewrite csub_len. cbn [obind].
  replace (S d - 1) with d by lia. rewrite hit_pow, csub_cnt by lia. cbn [obind].
  pose proof (pre_step _ _ _ H1) as P2. rewrite (occ_child T c d i).
  assert (Em : d <> 0 -> shr (2 ^ N.of_nat d) 1 = (2 ^ N.of_nat (d - 1))%N).
  { intros. destruct d; [lia|]. rewrite shr_pow_S. f_equal. lia. }
  specialize (CH (tb c d)).
  destruct d as [|d0].
  - cbn [rank_loop]. destruct (tb c 0) eqn:Eb; rewrite (occ_const _ c _ (pre_0 _ _ P2)) by apply cnt_le_all; auto.
  - rewrite Em by lia. destruct (tb c (S d0)) eqn:Eb; apply IHd; auto; apply cnt_le_all.
Qed.

(** select *)
(* the nodes on the path of c and their offsets *)
Fixpoint pnode (c : N) (d k : nat) (o : nat) (T : list N) : nat * list N :=
  match k, d with
  | S k', S d' => let b := tb c d' in pnode c d' k' (if b then o + length (filter (fb false d') T) + n else o + n) (filter (fb b d') T)
  | _, _ => (o, T)
  end.
Lemma pnode_S : forall c k d o T, k < d ->
  let '(o', T') := pnode c d k o T in
  pnode c d (S k) o T = (if tb c (d - S k) then o' + length (filter (fb false (d - S k)) T') + n else o' + n, filter (fb (tb c (d - S k)) (d - S k)) T').
Proof.
  induction k; intros; destruct d; try lia.
  - cbn [pnode]. replace (S d - 1) with d by lia. destruct d; auto.
  - change (pnode c (S d) (S k) o T) with (let b := tb c d in pnode c d k (if b then o + length (filter (fb false d) T) + n else o + n) (filter (fb b d) T)).
    change (pnode c (S d) (S (S k)) o T) with (let b := tb c d in pnode c d (S k) (if b then o + length (filter (fb false d) T) + n else o + n) (filter (fb b d) T)).
    cbv zeta. replace (S d - S (S k)) with (d - S k) by lia. apply IHk. lia.
Qed.
Lemma pnode_at : forall c k d o T, k <= d -> wt_at t n d o T ->
  wt_at t n (d - k) (fst (pnode c d k o T)) (snd (pnode c d k o T)).
Proof.
  induction k; intros. { rewrite Nat.sub_0_r. destruct d; auto. }
  destruct d; [lia|]. cbn [pnode]. replace (S d - S k) with (d - k) by lia. apply IHk. lia. apply (child_at d o T (tb c d) H0).
Qed.
Lemma pnode_len : forall c k d o T, length (snd (pnode c d k o T)) <= length T.
Proof.
  induction k; intros. { destruct d; auto. }
  destruct d; auto. cbn [pnode]. etransitivity; [apply IHk|apply filter_le].
Qed.
Lemma pnode_occ : forall c k d o T, k <= d -> 
  occ (snd (pnode c d k o T)) c (length (snd (pnode c d k o T))) = occ T c (length T).
Proof.
  induction k; intros. { destruct d; auto. }
  destruct d; [lia|]. cbn [pnode]. rewrite IHk by lia. rewrite (occ_child T c d). f_equal. now rewrite cnt_all.
Qed.
Lemma pnode_pre : forall c k d o T, k <= d -> pre d c T -> pre (d - k) c (snd (pnode c d k o T)).
Proof.
  induction k; intros. { rewrite Nat.sub_0_r. destruct d; auto. }
  destruct d; [lia|]. cbn [pnode]. replace (S d - S k) with (d - k) by lia. apply IHk. lia. apply pre_step. auto.
Qed.

Variable S0 : list N.
Hypothesis HW : wt_holds w S0.
Notation L := (wt_L w).
Let PN c k := pnode c L k 0 S0.

Lemma down_ok : forall c d k o T po pr mask, L = k + d -> PN c k = (o, T) -> length po = L + 1 -> length pr = L + 1 ->
  (d <> 0 -> mask = (2 ^ N.of_nat (d - 1))%N) ->
  (forall j, j <= k -> nth_error po j = Some (fst (PN c j))) ->
  (forall j, j < k -> nth_error pr j = Some (rank_of (t_bit t) (fst (PN c j)))) ->
  exists ns po' pr', sel_down w d k o (length T) c mask po pr = Some (ns, po', pr') /\
    (ns = 0 /\ snd (PN c L) = [] \/
     ns = length (snd (PN c L)) /\
     (forall j, j <= L -> nth_error po' j = Some (fst (PN c j))) /\
     (forall j, j < L -> nth_error pr' j = Some (rank_of (t_bit t) (fst (PN c j))))).
Proof.
  intros c. induction d; intros k o T po pr mask EL EP Hpo Hpr Hm H1 H2.
  - exists (length T), po, pr. split; auto. right. assert (k = L) by lia. subst k. rewrite EP. auto.
  - cbn [sel_down]. destruct (Nat.eqb_spec (length T) 0) as [Z|Z].
    + exists (length T), po, pr. split; auto. left. split; auto. destruct T; [|discriminate].
      assert (forall j, snd (PN c (k + j)) = []).
      { induction j. rewrite Nat.add_0_r, EP. auto. destruct (Nat.lt_ge_cases (k + j) L).
        - rewrite Nat.add_succ_r. pose proof (pnode_S c (k + j) L 0 S0 H) as P. unfold PN in *. destruct (pnode c L (k + j) 0 S0).
          rewrite P. simpl in *. subst. auto.
        - unfold PN in *. clear - IHj H.
          assert (forall a b o T, b <= a -> pnode c b (S a) o T = pnode c b a o T).
          { induction a; intros; destruct b; try lia; auto. cbn [pnode]. cbn [pnode] in IHa. apply (IHa b). lia. }
          rewrite Nat.add_succ_r, H0; auto. }
      specialize (H (L - k)). replace (k + (L - k)) with L in H by lia. auto.
    + destruct HW as (HN & HA & HF & HL).
      pose proof (pnode_at c k L 0 S0 ltac:(lia) HA) as A. unfold PN in EP. rewrite EP in A. cbn [fst snd] in A.
      replace (L - k) with (S d) in A by lia. node A.
      rewrite (rk0 t o T B). cbn [obind]. rewrite aset_some by lia. cbn [obind].
      rewrite (rkE t o T d B E). cbn [obind]. rewrite csub_add. cbn [obind]. rewrite csub_len. cbn [obind].
      rewrite Hm by lia. replace (S d - 1) with d by lia. rewrite hit_pow.
      pose proof (pnode_S c k L 0 S0 ltac:(lia)) as PS. rewrite EP in PS. replace (L - S k) with d in PS by lia.
      rewrite aset_some by lia. cbn [obind].
      replace (if tb c d then length (filter (fb true d) T) else length (filter (fb false d) T)) with (length (filter (fb (tb c d) d) T))
        by (destruct (tb c d); auto).
      replace (k + 1) with (S k) by lia.
      apply IHd; auto; rewrite ?upd_length; try lia.
      * intros. destruct d; [lia|]. rewrite shr_pow_S. f_equal. lia.
      * intros j Hj. destruct (Nat.eq_dec j (S k)) as [->|Nj].
        { rewrite nth_error_upd_eq by lia. unfold PN. rewrite PS. auto. }
        rewrite nth_error_upd_neq by lia. apply H1. lia.
      * intros j Hj. destruct (Nat.eq_dec j k) as [->|Nj].
        { rewrite nth_error_upd_eq by lia. unfold PN. rewrite EP. auto. }
        rewrite nth_error_upd_neq by lia. apply H2. lia.
Qed.

(* the position of the (r+1)-th c *)
Lemma up_ok : forall c po pr r,
  (forall j, j <= L -> nth_error po j = Some (fst (PN c j))) ->
  (forall j, j < L -> nth_error pr j = Some (rank_of (t_bit t) (fst (PN c j)))) ->
  forall k i, k <= L -> i < length (snd (PN c k)) -> nth i (snd (PN c k)) 0%N = c -> occ (snd (PN c k)) c i = r ->
  exists p, sel_up w k (i + 1) c (2 ^ N.of_nat (L - k)) po pr = Some (p + 1) /\ p < length S0 /\ nth p S0 0%N = c /\ occ S0 c p = r.
Proof.
  intros c po pr r H1 H2. induction k; intros i Hk Hi Hn Ho.
  - exists i. split; auto. unfold PN in *. assert (E : pnode c L 0 0 S0 = (0, S0)) by (destruct L; auto). rewrite E in *. auto.
  - cbn [sel_up]. rewrite H1, H2 by lia. cbn [obind].
    pose proof (pnode_S c k L 0 S0 ltac:(lia)) as PS. destruct HW as (HN & HA & HF & HL).
    pose proof (pnode_at c k L 0 S0 ltac:(lia) HA) as A. unfold PN in *. destruct (pnode c L k 0 S0) as [o T] eqn:EP.
    rewrite PS in *. cbn [fst snd] in *. replace (L - k) with (S (L - S k)) in A by lia. node A.
    rewrite hit_pow. set (d := L - S k) in *. set (b := tb c d) in *.
    (* where the element of the child lies in the node *)
    assert (X : exists q, q < length T /\ cnt (fb b d) T q = i /\ nth q T 0%N = c).
    { clear - Hi Hn. revert i Hi Hn. induction T as [|a T]; simpl; intros; [lia|].
      destruct (fb b d a) eqn:F.
      - destruct i. { exists 0. split; [simpl; lia|]. split; auto. }
        destruct (IHT i) as (q & Q1 & Q2 & Q3); [simpl in Hi; lia|auto|]. exists (S q). split; [lia|]. split; auto.
        unfold cnt in *. simpl. rewrite F. simpl. auto.
      - destruct (IHT i) as (q & Q1 & Q2 & Q3); auto. exists (S q). split; [lia|]. split; auto.
        unfold cnt in *. simpl. rewrite F. auto. }
    destruct X as (q & Q1 & Q2 & Q3).
    assert (SEL : (if b then t_sel1 t (rank_of (t_bit t) o + (i + 1))
                   else let* zo := csub o (rank_of (t_bit t) o) in t_sel0 t (zo + (i + 1))) = Some (o + q)).
    { subst b. destruct (tb c d) eqn:Eb.
      - rewrite <- Q2. apply sel_node1; auto. now rewrite Q3.
      - unfold csub. pose proof (rank_of_le (t_bit t) o). destruct (Nat.leb_spec (rank_of (t_bit t) o) o); [|lia]. cbn [obind].
        rewrite <- Q2. apply sel_node0; auto. now rewrite Q3. }
    rewrite SEL. cbn [obind]. rewrite csub_add. cbn [obind]. subst d. rewrite shl_pow by lia.
    replace (S (L - S k)) with (L - k) by lia. apply IHk; auto; try lia.
    rewrite (occ_child T c (L - S k) q). subst b. now rewrite Q2.
Qed.

Lemma down_top : forall c,
  exists ns po' pr', sel_down w L 0 0 n c (2 ^ N.of_nat (L - 1)) (repeat 0 (L + 1)) (repeat 0 (L + 1)) = Some (ns, po', pr') /\
    (ns = 0 /\ snd (PN c L) = [] \/
     ns = length (snd (PN c L)) /\
     (forall j, j <= L -> nth_error po' j = Some (fst (PN c j))) /\
     (forall j, j < L -> nth_error pr' j = Some (rank_of (t_bit t) (fst (PN c j))))).
Proof.
  intros. destruct HW as (HN & HA & HF & HL).
  assert (E : forall c, PN c 0 = (0, S0)) by (intros; unfold PN; destruct L; auto).
  pose proof (down_ok c L 0 0 S0) as D. rewrite <- HN in D.
  apply D; auto; rewrite ?repeat_length; auto.
  - intros j Hj. assert (j = 0) by lia. subst. rewrite E. rewrite Nat.add_1_r. reflexivity.
  - intros. lia.
Qed.

Lemma pre_top : forall c, (c < 2 ^ N.of_nat L)%N -> pre L c S0.
Proof.
  intros. destruct HW as (HN & HA & HF & HL). unfold pre. rewrite Forall_forall in *. intros.
  rewrite !shr_small; auto.
Qed.
Lemma leaf_occ : forall c, (c < 2 ^ N.of_nat L)%N -> length (snd (PN c L)) = occ S0 c (length S0) /\ (forall y, In y (snd (PN c L)) -> y = c).
Proof.
  intros. pose proof (pnode_pre c L L 0 S0 ltac:(lia) (pre_top c H)) as P. rewrite Nat.sub_diag in P.
  split. 2:{ apply pre_0. auto. }
  rewrite <- (pnode_occ c L L 0 S0) by lia. symmetry. apply occ_const; auto. apply pre_0. auto.
Qed.

Lemma mask_some : exists l1, csub L 1 = Some l1 /\ shl_c 1 l1 = Some (2 ^ N.of_nat (L - 1))%N.
Proof. destruct HW as (HN & HA & HF & HL). exists (L - 1). split. apply csub_some. lia. apply shl_c_pow. lia. Qed.

Theorem wt_select_ok : forall c p, nth_error S0 p = Some c -> wt_select w (occ S0 c p + 1) c = Some (SPos p).
Proof.
  intros c p Hp. pose proof HW as (HN & HA & HF & HL).
  assert (Hl : p < length S0) by (apply nth_error_Some; congruence).
  assert (Hn : nth p S0 0%N = c) by (apply nth_error_nth with (d := 0%N) in Hp; auto).
  assert (Hc : (c < 2 ^ N.of_nat L)%N). { rewrite Forall_forall in HF. apply HF. eapply nth_error_In; eauto. }
  destruct (leaf_occ c Hc) as [LO LC].
  assert (OL : occ S0 c p < occ S0 c (length S0)).
  { unfold occ. change (cnt (N.eqb c) S0 p < cnt (N.eqb c) S0 (length S0)). pose proof (cnt_S (N.eqb c) S0 p 0%N Hl) as Q.
    rewrite Hn, N.eqb_refl in Q. simpl in Q. pose proof (cnt_mono (N.eqb c) S0 (S p) (length S0) Hl). lia. }
  unfold wt_select. destruct mask_some as (l1 & -> & M). cbn [obind]. rewrite M. cbn [obind].
  destruct (down_top c) as (ns & po & pr & E & R). rewrite E. cbn [obind].
  destruct R as [[-> Z]|(-> & P1 & P2)]. { rewrite Z in LO. simpl in LO. lia. }
  destruct (Nat.eqb_spec (length (snd (PN c L))) 0); [lia|]. destruct (Nat.ltb_spec (length (snd (PN c L))) (occ S0 c p + 1)); [lia|].
  cbn [orb]. destruct (up_ok c po pr (occ S0 c p) P1 P2 L (occ S0 c p) ltac:(lia)) as (q & U1 & U2 & U3 & U4); try lia.
  - apply LC. apply nth_In. lia.
  - apply occ_const; auto. lia.
  - rewrite Nat.sub_diag in U1. change (2 ^ N.of_nat 0)%N with 1%N in U1. rewrite U1. cbn [obind].
    rewrite (csub_some _ _ q) by lia. cbn [obind]. do 2 f_equal.
    (* positions of equal rank are equal *)
    destruct (Nat.lt_trichotomy q p) as [X|[X|X]]; auto; exfalso.
    + pose proof (cnt_S (N.eqb c) S0 q 0%N U2) as Q. rewrite U3, N.eqb_refl in Q. simpl in Q.
      pose proof (cnt_mono (N.eqb c) S0 (S q) p X). unfold occ, cnt in *. lia.
    + pose proof (cnt_S (N.eqb c) S0 p 0%N Hl) as Q. rewrite Hn, N.eqb_refl in Q. simpl in Q.
      pose proof (cnt_mono (N.eqb c) S0 (S p) q X). unfold occ, cnt in *. lia.
Qed.

Theorem wt_select_throw : forall c i, (c < 2 ^ N.of_nat L)%N -> occ S0 c (length S0) < i -> wt_select w i c = Some SThrow.
Proof.
  intros c i Hc Hi. destruct (leaf_occ c Hc) as [LO LC].
  unfold wt_select. destruct mask_some as (l1 & -> & M). cbn [obind]. rewrite M. cbn [obind].
  destruct (down_top c) as (ns & po & pr & E & R). rewrite E. cbn [obind].
  destruct R as [[-> Z]|(-> & P1 & P2)]. { reflexivity. }
  destruct (Nat.ltb_spec (length (snd (PN c L))) i); [|lia]. now rewrite orb_true_r.
Qed.

Lemma is_word_S0 : forall i, is_word (nth i S0 0%N).
Proof.
  intros. destruct HW as (HN & HA & HF & HL). destruct (Nat.lt_ge_cases i (length S0)).
  - rewrite Forall_forall in HF. specialize (HF _ (nth_In _ 0%N H)). unfold is_word. eapply N.lt_trans. exact HF.
    rewrite W64_pow. apply N.pow_lt_mono_r; lia.
  - rewrite nth_overflow by auto. reflexivity.
Qed.
Theorem wt_access_ok : forall i x, nth_error S0 i = Some x -> wt_access w i = Some x.
Proof.
  intros. pose proof HW as (HN & HA & HF & HL). assert (i < length S0) by (apply nth_error_Some; congruence).
  assert (nth i S0 0%N = x) by (apply nth_error_nth with (d := 0%N) in H; auto). subst x.
  unfold wt_access. pose proof (acc_ok L 0 S0 i HA H0 (is_word_S0 i)) as E. rewrite HN.
  rewrite shr_small in E; auto. rewrite Forall_forall in HF. apply HF. apply nth_In. auto.
Qed.
Theorem wt_inverse_select_ok : forall i x, nth_error S0 i = Some x -> wt_inverse_select w i = Some (occ S0 x i, x).
Proof.
  intros. pose proof HW as (HN & HA & HF & HL). assert (i < length S0) by (apply nth_error_Some; congruence).
  assert (E1 : nth i S0 0%N = x) by (apply nth_error_nth with (d := 0%N) in H; auto).
  assert (Hx : (x < 2 ^ N.of_nat L)%N). { rewrite Forall_forall in HF. apply HF. eapply nth_error_In; eauto. }
  unfold wt_inverse_select. rewrite HN. pose proof (isel_ok L 0 S0 i HA H0 (is_word_S0 i)) as E.
  rewrite E1 in E. rewrite shr_small in E by auto. apply E. apply pre_top. auto.
Qed.
Theorem wt_rank_ok : forall i c, i <= length S0 -> wt_rank w i c = Some (occ S0 c i).
Proof.
  intros. pose proof HW as (HN & HA & HF & HL). unfold wt_rank. rewrite shl_c_pow by lia. cbn [obind].
  destruct (N.leb_spec (2 ^ N.of_nat L) c).
  - f_equal. unfold occ. rewrite filter_nil; auto. intros y Hy. apply In_firstn in Hy. rewrite Forall_forall in HF.
    specialize (HF y Hy). apply N.eqb_neq. lia.
  - destruct mask_some as (l1 & -> & M). cbn [obind]. rewrite M. cbn [obind]. rewrite HN.
    apply rank_ok; auto. apply pre_top. auto.
Qed.
End Q.
