(** * wt_int: range_search_2d *)
From Coq Require Import NArith ZArith List Lia Bool Arith Permutation Sorted.
From Verif Require Import Base SpecBits RankSelect AbsVec WtBase SpecWt WtProofs WtInt WtIntProofs WtIntProofs2.
Import ListNotations.

Lemma NoDup_app_disj : forall A (a b : list A), NoDup a -> NoDup b -> (forall x, In x a -> In x b -> False) -> NoDup (a ++ b).
Proof.
  induction a; simpl; intros; auto. inversion H; subst. constructor. rewrite in_app_iff. intros [|]; eauto. apply IHa; eauto.
Qed.

Section R.
Variable w : wt.
Notation t := (wt_tree w). Notation n := (wt_n w).
Variable S0 : list N.
Hypothesis HW : wt_holds w S0.
Notation L := (wt_L w).
Notation PN c k := (pnode w c L k 0 S0).

(* the path to a node depends on the leading bits only *)
Lemma pnode_ext : forall c c' k d o T, k <= d -> shr c (d - k) = shr c' (d - k) -> pnode w c d k o T = pnode w c' d k o T.
Proof.
  induction k; intros; destruct d; auto. cbn [pnode].
  assert (E : forall j x y, j <= d -> shr x (d - j) = shr y (d - j) -> shr x d = shr y d).
  { induction j; intros. rewrite Nat.sub_0_r in H2. auto. apply IHj. lia.
    replace (d - j) with (S (d - S j)) by lia. apply shr_step_inv. auto. }
  assert (tb c d = tb c' d).
  { assert (exists m, d = d - k + m) by (exists k; lia). destruct H1 as [m Hm].
    pose proof (f_equal (fun z => tb z m) H0) as F. cbv beta in F. rewrite !tb_shr in F.
    replace (S d - S k) with (d - k) in F by lia. replace (m + (d - k)) with d in F by lia. auto. }
  rewrite H1. apply IHk. lia. replace (d - k) with (S d - S k) by lia. auto.
Qed.

(* the elements of a node: those of the sequence with its leading bits *)
Lemma pnode_filter : forall c k d o T, k <= d -> pre d c T ->
  snd (pnode w c d k o T) = filter (fun x => (shr x (d - k) =? shr c (d - k))%N) T.
Proof.
  induction k; intros.
  - rewrite Nat.sub_0_r. replace (snd (pnode w c d 0 o T)) with T by (destruct d; auto). symmetry. apply filter_all.
    intros. unfold pre in H0. rewrite Forall_forall in H0. apply N.eqb_eq. auto.
  - destruct d; [lia|]. cbn [pnode]. rewrite IHk; [|lia|apply pre_step; auto].
    replace (S d - S k) with (d - k) by lia. apply filter_filter_same. intros.
    apply N.eqb_eq in H2. unfold fb. apply eqb_true_iff.
    pose proof (f_equal (fun z => tb z k) H2) as F. cbv beta in F. rewrite !tb_shr in F. replace (k + (d - k)) with d in F by lia. auto.
Qed.

(* rank of position x of the sequence in the node *)
Definition nr (c : N) (k x : nat) : nat := cnt (fun y => (shr y (L - k) =? shr c (L - k))%N) S0 x.
Lemma nr_child : forall c k x, k < L -> (c < 2 ^ N.of_nat L)%N ->
  nr c (S k) x = cnt (fb (tb c (L - S k)) (L - S k)) (snd (PN c k)) (nr c k x).
Proof.
  intros. rewrite pnode_filter by (try lia; apply pre_top; auto). unfold nr. unfold cnt at 1 2. rewrite firstn_filter. f_equal.
  assert (forall T, filter (fun y => (shr y (L - S k) =? shr c (L - S k))%N) T =
     filter (fb (tb c (L - S k)) (L - S k)) (filter (fun x => (shr x (L - k) =? shr c (L - k))%N) T)); [|apply H1].
  induction T; simpl; auto. replace (L - k) with (S (L - S k)) by lia.
  replace (L - k) with (S (L - S k)) in IHT by lia.
  destruct (N.eqb_spec (shr a (L - S k)) (shr c (L - S k))) as [e|e].
  - destruct (shr_step_inv _ _ _ e) as [e1 e2]. rewrite e1, N.eqb_refl. simpl. rewrite <- e2, fb_self, e2. f_equal. auto.
  - destruct (N.eqb_spec (shr a (S (L - S k))) (shr c (S (L - S k)))) as [e1|e1]; auto. simpl.
    destruct (fb (tb c (L - S k)) (L - S k) a) eqn:F; auto. unfold fb in F. apply eqb_prop in F. destruct e. apply shr_step; auto.
Qed.

Definition SI (c : N) (k : nat) (s : r2st) : Prop :=
  length (r2_offs s) = L + 1 /\ length (r2_oos s) = L + 1 /\
  (forall j, j <= k -> nth_error (r2_offs s) j = Some (fst (PN c j))) /\
  (forall j, j < k -> nth_error (r2_oos s) j = Some (rank_of (t_bit t) (fst (PN c j)))).

Lemma r2_up_eq : forall offs oos k i c m, c = shr m (L - k) -> k <= L -> L <= 63 ->
  r2_up w k i c offs oos = sel_up w k i m (2 ^ N.of_nat (L - k)) offs oos.
Proof.
  induction k; intros; auto. cbn [r2_up sel_up]. destruct (nth_error offs k); cbn [obind]; auto. destruct (nth_error oos k); cbn [obind]; auto.
  rewrite hit_pow. change 1%N with (2 ^ N.of_nat 0)%N at 1. rewrite hit_pow. subst c. rewrite tb_shr. cbn [Nat.add].
  match goal with |- obind ?A _ = obind ?A _ => destruct A; cbn [obind]; auto end.
  match goal with |- obind ?A _ = obind ?A _ => destruct A; cbn [obind]; auto end. cbn [obind]; auto. rewrite shl_pow by lia. replace (S (L - S k)) with (L - k) by lia.
  apply IHk; try lia. apply tb_ext. intros. rewrite !tb_shr. f_equal. lia.
Qed.

(* the points of the leaf c with ranks lb..rb *)
Lemma leaf_pts : forall c s lb rb pts, (c < 2 ^ N.of_nat L)%N -> SI c L s -> lb <= rb -> rb < occ S0 c (length S0) ->
  exists new, r2_report w (seq (lb + 1) (rb + 1 - lb)) c (r2_offs s) (r2_oos s) pts = Some (pts ++ new) /\
    length new = rb + 1 - lb /\ NoDup new /\
    (forall p x, In (p, x) new <-> p < length S0 /\ nth p S0 0%N = x /\ x = c /\ lb <= occ S0 c p <= rb).
Proof.
  intros c s lb rb pts Hc (I1 & I2 & I3 & I4) Hl Hr. destruct (leaf_occ w S0 HW c Hc) as [LO LC].
  assert (UP : forall i, i < occ S0 c (length S0) -> exists p, r2_up w L (i + 1) c (r2_offs s) (r2_oos s) = Some (p + 1) /\
     p < length S0 /\ nth p S0 0%N = c /\ occ S0 c p = i).
  { intros. destruct HW as (HN & HA & HF & HL). rewrite (r2_up_eq _ _ L (i + 1) c c); try lia. 2:{ now rewrite Nat.sub_diag, shr_0. }
    apply (up_ok w S0 HW c (r2_offs s) (r2_oos s) i I3 I4); try lia. apply LC. apply nth_In. lia. apply occ_const; auto. lia. }
  assert (G : forall len a pts, a + len <= occ S0 c (length S0) ->
    exists new, r2_report w (seq (a + 1) len) c (r2_offs s) (r2_oos s) pts = Some (pts ++ new) /\ length new = len /\ NoDup new /\
    (forall p x, In (p, x) new <-> p < length S0 /\ nth p S0 0%N = x /\ x = c /\ a <= occ S0 c p < a + len)).
  { clear Hl Hr lb rb pts. induction len; intros.
    - exists []. rewrite app_nil_r. split; auto. split; auto. split. constructor. intros. simpl. split. tauto. lia.
    - cbn [seq r2_report]. destruct (UP a ltac:(lia)) as (p & U1 & U2 & U3 & U4). rewrite U1. cbn [obind].
      rewrite (csub_some _ _ p) by lia. cbn [obind]. replace (S (a + 1)) with (a + 1 + 1) by lia.
      destruct (IHlen (a + 1) (pts ++ [(p, c)]) ltac:(lia)) as (new & R1 & R2 & R3 & R4).
      exists ((p, c) :: new). rewrite R1. split. { now rewrite <- app_assoc. } split. { simpl. lia. }
      split. { constructor; auto. rewrite R4. lia. }
      intros q x. simpl. rewrite R4. split.
      + intros [X|X]. { inversion X; subst q x. repeat split; auto; lia. } repeat split; try tauto; lia.
      + intros (X1 & X2 & X3 & X4). destruct (Nat.eq_dec (occ S0 c q) a) as [e|e].
        * left. f_equal; auto. (* same rank, same symbol *)
          assert (nth q S0 0%N = c) by congruence.
          destruct (Nat.lt_trichotomy q p) as [Y|[Y|Y]]; auto; exfalso.
          -- pose proof (cnt_S (N.eqb c) S0 q 0%N X1) as Q. rewrite H0, N.eqb_refl in Q. simpl in Q.
             pose proof (cnt_mono (N.eqb c) S0 (S q) p Y). unfold occ, cnt in *. lia.
          -- pose proof (cnt_S (N.eqb c) S0 p 0%N U2) as Q. rewrite U3, N.eqb_refl in Q. simpl in Q.
             pose proof (cnt_mono (N.eqb c) S0 (S p) q Y). unfold occ, cnt in *. lia.
        * right. repeat split; auto; lia. }
  destruct (G (rb + 1 - lb) lb pts ltac:(lia)) as (new & R1 & R2 & R3 & R4). exists new. repeat split; auto.
  - apply R4 in H. tauto. - apply R4 in H. tauto. - apply R4 in H. tauto. - apply R4 in H. lia. - apply R4 in H. lia.
  - intros. apply R4. repeat split; try tauto; lia.
Qed.

Variables LB RB : nat.
Hypothesis HB : RB < length S0.

(* the points of the node (c,d) inside the query *)
Definition pin (c : N) (d : nat) (vlb vrb : N) (p : nat) (x : N) : Prop :=
  p < length S0 /\ nth p S0 0%N = x /\ LB <= p <= RB /\ shr x d = shr c d /\ (vlb <= x <= vrb)%N.

Definition added (report : bool) (s s' : r2st) (new : list (nat * N)) : Prop :=
  r2_pts s' = (if report then r2_pts s ++ new else r2_pts s) /\ r2_cnt s' = r2_cnt s + length new.
Definition keep (k : nat) (s s' : r2st) : Prop :=
  length (r2_offs s') = length (r2_offs s) /\ length (r2_oos s') = length (r2_oos s) /\
  (forall j, j <= k -> nth_error (r2_offs s') j = nth_error (r2_offs s) j) /\
  (forall j, j < k -> nth_error (r2_oos s') j = nth_error (r2_oos s) j).

Lemma nr_leaf : forall c x, nr c L x = occ S0 c x.
Proof.
  intros. unfold nr, occ, cnt. rewrite Nat.sub_diag. f_equal. apply filter_ext_in2. intros. rewrite !shr_0. apply N.eqb_sym.
Qed.
Lemma nr_le : forall c k x, (c < 2 ^ N.of_nat L)%N -> k <= L -> nr c k x <= length (snd (PN c k)).
Proof. intros. rewrite pnode_filter by (auto; apply pre_top; auto). apply cnt_le_all. Qed.

(* no point of the query in a node without elements in the position range *)
Lemma no_pts : forall c k vlb vrb p x, k <= L -> nr c k (RB + 1) <= nr c k LB -> ~ pin c (L - k) vlb vrb p x.
Proof.
  intros c k vlb vrb p x Hk H (H1 & H2 & H3 & H4 & H5). unfold nr in H.
  pose proof (cnt_S (fun y => (shr y (L - k) =? shr c (L - k))%N) S0 p 0%N H1) as Q. rewrite H2, H4, N.eqb_refl in Q. simpl in Q.
  pose proof (cnt_mono (fun y => (shr y (L - k) =? shr c (L - k))%N) S0 LB p ltac:(lia)).
  pose proof (cnt_mono (fun y => (shr y (L - k) =? shr c (L - k))%N) S0 (S p) (RB + 1) ltac:(lia)). lia.
Qed.

(* the value interval of a node *)
Definition base (c : N) (d : nat) : N := (shr c d * 2 ^ N.of_nat d)%N.
Lemma base_step : forall c d, base c d = (base c (S d) + (if tb c d then 2 ^ N.of_nat d else 0))%N.
Proof.
  intros. unfold base. rewrite !shr_div, Nat2N.inj_succ, N.pow_succ_r', (N.mul_comm 2 (2 ^ _)), <- N.div_div by (try apply N.pow_nonzero; lia).
  unfold tb. rewrite N.testbit_eqb. set (P := (2 ^ N.of_nat d)%N). set (q := (c / P)%N).
  rewrite (N.div_mod q 2) at 1 by lia. pose proof (N.mod_upper_bound q 2 ltac:(lia)).
  set (h := (q / 2)%N) in *. set (r := (q mod 2)%N) in *. clearbody h r q P. assert (r = 0 \/ r = 1)%N as [->| ->] by lia; simpl; nia.
Qed.
Lemma base_range : forall c x d, shr x d = shr c d <-> (base c d <= x < base c d + 2 ^ N.of_nat d)%N.
Proof.
  intros. unfold base. rewrite !shr_div. set (P := (2 ^ N.of_nat d)%N). assert (P <> 0)%N by (apply N.pow_nonzero; lia).
  set (q := (c / P)%N). split.
  - intros <-. pose proof (N.div_mod x P H). pose proof (N.mod_upper_bound x P H). nia.
  - intros. symmetry. apply (N.div_unique x P q (x - q * P)); lia.
Qed.

(* change bit d of c *)
Definition child (c : N) (d : nat) (b : bool) : N := (base c (S d) + (if b then 2 ^ N.of_nat d else 0))%N.
Lemma child_spec : forall c d b, shr (child c d b) (S d) = shr c (S d) /\ tb (child c d b) d = b /\ base (child c d b) d = child c d b.
Proof.
  intros. assert (P : (2 ^ N.of_nat d <> 0)%N) by (apply N.pow_nonzero; lia).
  assert (PS : (2 ^ N.of_nat (S d) = 2 * 2 ^ N.of_nat d)%N) by (rewrite Nat2N.inj_succ; apply N.pow_succ_r').
  assert (E : shr (child c d b) (S d) = shr c (S d)). { apply base_range. unfold child. rewrite PS. destruct b; lia. }
  split; auto.
  assert (Q : (child c d b = (2 * shr c (S d) + (if b then 1 else 0)) * 2 ^ N.of_nat d)%N).
  { unfold child, base. rewrite PS. set (X := shr c (S d)). clearbody X. destruct b; lia. }
  assert (R : shr (child c d b) d = (2 * shr c (S d) + (if b then 1 else 0))%N).
  { rewrite shr_div, Q. apply N.div_mul. auto. }
  split.
  - replace d with (0 + d) at 2 by lia. rewrite <- tb_shr, R. unfold tb. destruct b; simpl N.of_nat.
    + apply N.testbit_odd_0. + rewrite N.add_0_r. apply N.testbit_even_0.
  - unfold base. rewrite R. auto.
Qed.

Lemma r2_ok : forall d k c vlb vrb report s, L = k + d -> (c < 2 ^ N.of_nat L)%N -> SI c k s -> LB <= RB ->
  1 <= nr c k (RB + 1) ->
  (base c d <= vlb)%N -> (vlb <= vrb)%N -> (vlb < base c d + 2 ^ N.of_nat d)%N ->
  exists s' new, r2_rec w d k (nr c k LB) (nr c k (RB + 1) - 1) vlb vrb (base c d) (length (snd (PN c k))) (shr c d) report s = Some s' /\
    added report s s' new /\ keep k s s' /\ NoDup new /\ (forall p x, In (p, x) new <-> pin c d vlb vrb p x).
Proof.
  induction d; intros k c vlb vrb report s EL Hc HI HLR Hnr V1 V2 V3.
  - cbn [r2_rec]. assert (k = L) by lia. subst k. rewrite !nr_leaf in *.
    assert (MO : occ S0 c (RB + 1) <= occ S0 c (length S0)) by (apply (cnt_mono (N.eqb c)); lia).
    assert (Vc : vlb = c). { unfold base in *. change (2 ^ N.of_nat 0)%N with 1%N in *. rewrite shr_0 in *. lia. }
    destruct (Nat.ltb_spec (occ S0 c (RB + 1) - 1) (occ S0 c LB)) as [Z|Z].
    + exists s, []. split; auto. split. { split. destruct report; now rewrite ?app_nil_r. simpl. lia. }
      split. { repeat split; auto. } split. constructor. intros. split. intros []. intros P.
      apply (no_pts c L vlb vrb p x). auto. rewrite !nr_leaf. lia. now rewrite Nat.sub_diag.
    + destruct (leaf_pts c s (occ S0 c LB) (occ S0 c (RB + 1) - 1) (r2_pts s) Hc HI Z ltac:(lia)) as (new & R1 & R2 & R3 & R4).
      rewrite shr_0. exists (mkr2 (r2_offs s) (r2_oos s) (if report then r2_pts s ++ new else r2_pts s) (r2_cnt s + length new)), new.
      split. { rewrite R1. rewrite R2. replace (occ S0 c (RB + 1) - 1 + 1 - occ S0 c LB) with (occ S0 c (RB + 1) - 1 - occ S0 c LB + 1) by lia. destruct report; auto. }
      split. { split; auto. } split. { repeat split; auto. } split; auto.
      intros p x. rewrite R4. unfold pin. rewrite !shr_0. split.
      * intros (X1 & X2 & X3 & X4). repeat split; auto; try lia.
        -- apply Nat.nlt_ge. intro Y. pose proof (cnt_mono (N.eqb c) S0 (S p) LB Y) as M. pose proof (cnt_S (N.eqb c) S0 p 0%N X1) as Q.
           rewrite X2, X3, N.eqb_refl in Q. simpl in Q. unfold occ, cnt in *. lia.
        -- apply Nat.nlt_ge. intro Y. pose proof (cnt_mono (N.eqb c) S0 (RB + 1) p ltac:(lia)) as M. unfold occ, cnt in *. lia.
      * intros (X1 & X2 & X3 & X4 & X5). repeat split; auto.
        -- apply (cnt_mono (N.eqb c)). lia.
        -- pose proof (cnt_mono (N.eqb c) S0 (S p) (RB + 1) ltac:(lia)) as M. pose proof (cnt_S (N.eqb c) S0 p 0%N X1) as Q.
           rewrite X2, X4, N.eqb_refl in Q. simpl in Q. unfold occ, cnt in *. lia.
  - cbn [r2_rec]. destruct (Nat.ltb_spec (nr c k (RB + 1) - 1) (nr c k LB)) as [Z|Z].
    { exists s, []. split; auto. split. { split. destruct report; now rewrite ?app_nil_r. simpl. lia. }
      split. { repeat split; auto. } split. constructor. intros. split. intros []. intros P.
      apply (no_pts c k vlb vrb p x). lia. lia. replace (L - k) with (S d) by lia. auto. }
    destruct HI as (I1 & I2 & I3 & I4). pose proof HW as (HN & HA & HF & HL).
    rewrite shl_c_pow by lia. cbn [obind]. rewrite I3 by lia. cbn [obind].
    set (T := snd (PN c k)) in *. set (o := fst (PN c k)) in *.
    pose proof (pnode_at w c k L 0 S0 ltac:(lia) HA) as A. fold T o in A. replace (L - k) with (S d) in A by lia. node A.
    assert (NL : forall x, nr c k x <= length T) by (intros; apply nr_le; auto; lia).
    rewrite (rk0 t o T B). cbn [obind]. rewrite aset_some by lia. cbn [obind].
    rewrite (rk t o T d (nr c k LB) B E) by auto. cbn [obind].
    replace (o + (nr c k (RB + 1) - 1) + 1) with (o + nr c k (RB + 1)) by lia.
    rewrite (rk t o T d (nr c k (RB + 1)) B E) by auto. cbn [obind].
    rewrite (rkE t o T d B E). cbn [obind].
    pose proof (rank_of_le (t_bit t) o) as RO.
    rewrite (csub_some o _ (o - rank_of (t_bit t) o)) by lia. cbn [obind].
    pose proof (cnt_le (fb true d) T (nr c k LB)) as CL1. pose proof (cnt_fb d T _ (NL LB)) as CF1.
    pose proof (cnt_le (fb true d) T (nr c k (RB + 1))) as CL2. pose proof (cnt_fb d T _ (NL (RB + 1))) as CF2.
    pose proof (filter_le _ (fb true d) T) as CL3. pose proof (len_fb d T) as CF3.
    rewrite (csub_some _ _ (o - rank_of (t_bit t) o + cnt (fb false d) T (nr c k LB))) by lia. cbn [obind].
    rewrite (csub_some _ _ (o - rank_of (t_bit t) o + cnt (fb false d) T (nr c k (RB + 1)))) by lia. cbn [obind].
    rewrite (csub_some _ _ (o - rank_of (t_bit t) o + length (filter (fb false d) T))) by lia. cbn [obind].
    rewrite csub_add. cbn [obind]. cbn [r2_offs r2_oos r2_pts r2_cnt].
    (* the value interval *)
    set (P := (2 ^ N.of_nat d)%N) in *. assert (HP : (P <> 0)%N) by (apply N.pow_nonzero; lia).
    assert (PS : (2 ^ N.of_nat (S d) = 2 * P)%N) by (rewrite Nat2N.inj_succ; apply N.pow_succ_r'). rewrite PS in *.
    assert (BL : (base c (S d) + 2 * P <= 2 ^ N.of_nat L)%N).
    { unfold base. rewrite PS. assert (shr c (S d) < 2 ^ N.of_nat k)%N.
      { rewrite shr_div. apply N.div_lt_upper_bound. apply N.pow_nonzero; lia. rewrite <- N.pow_add_r.
        replace (N.of_nat (S d) + N.of_nat k)%N with (N.of_nat L) by lia. auto. }
      replace (2 ^ N.of_nat L)%N with (2 ^ N.of_nat k * (2 * P))%N. 2:{ rewrite <- PS, <- N.pow_add_r. f_equal. lia. }
      clear - H. set (X := shr c (S d)) in *. set (Y := (2 ^ N.of_nat k)%N) in *. nia. }
    assert (BW : (2 * 2 ^ N.of_nat L <= W64)%N).
    { rewrite W64_pow. rewrite <- N.pow_succ_r'. apply N.pow_le_mono_r; lia. }
    rewrite (wadd_small (base c (S d)) (2 * P)) by lia.
    assert (MID : shr (wadd (base c (S d) + 2 * P) (base c (S d))) 1 = child c d true).
    { rewrite wadd_small by lia. rewrite shr_div. change (2 ^ N.of_nat 1)%N with 2%N. unfold child. fold P.
      symmetry. apply (N.div_unique _ 2 _ 0); lia. }
    rewrite MID. pose proof (child_spec c d true) as (K1 & K2 & K3). pose proof (child_spec c d false) as (Z1 & Z2 & Z3).
    assert (M0 : child c d true = (base c (S d) + P)%N) by reflexivity.
    assert (M1 : child c d false = base c (S d)) by (unfold child; lia).
    (* descending into a child *)
    assert (SAME : forall b, (child c d b < 2 ^ N.of_nat L)%N /\ PN (child c d b) k = (o, T) /\
              PN (child c d b) (S k) = (if b then o + length (filter (fb false d) T) + n else o + n, filter (fb b d) T) /\
              (forall x, nr (child c d b) k x = nr c k x) /\
              (forall x, nr (child c d b) (S k) x = cnt (fb b d) T (nr c k x)) /\
              (forall j, j <= k -> PN (child c d b) j = PN c j)).
    { intros b. destruct (child_spec c d b) as (Q1 & Q2 & Q3).
      assert (CB : (child c d b < 2 ^ N.of_nat L)%N).
      { destruct b. rewrite M0. lia. rewrite M1. lia. }
      assert (PJ : forall j, j <= k -> PN (child c d b) j = PN c j).
      { intros. apply pnode_ext. lia. assert (exists m, L - j = S d + m) as [m ->] by (exists (k - j); lia).
        apply tb_ext. intros. rewrite !tb_shr. replace (k0 + (S d + m)) with (k0 + m + S d) by lia. rewrite <- !tb_shr. now rewrite Q1. }
      assert (NR : forall x, nr (child c d b) k x = nr c k x).
      { intros. unfold nr. replace (L - k) with (S d) by lia. now rewrite Q1. }
      split; auto. split. { rewrite PJ by lia. subst o T. now destruct (PN c k). }
      pose proof (pnode_S w (child c d b) k L 0 S0 ltac:(lia)) as PS'. rewrite PJ in PS' by lia.
      replace (PN c k) with (o, T) in PS' by (subst o T; now destruct (PN c k)).
      replace (L - S k) with d in PS' by lia. rewrite Q2 in PS'. split; auto.
      split; auto. split; auto. intros. rewrite nr_child by (auto; lia). rewrite NR, PJ by lia. replace (L - S k) with d by lia. rewrite Q2. auto. }
    assert (STEP : forall b vl vr s, (base (child c d b) d <= vl)%N -> (vl <= vr)%N -> (vl < base (child c d b) d + P)%N ->
       length (r2_offs s) = L + 1 -> length (r2_oos s) = L + 1 ->
       (forall j, j <= k -> nth_error (r2_offs s) j = Some (fst (PN c j))) ->
       (forall j, j < S k -> nth_error (r2_oos s) j = Some (rank_of (t_bit t) (fst (PN c j)))) ->
       exists s' new,
       (let s1 := mkr2 (upd (r2_offs s) (k + 1) (if b then o + length (filter (fb false d) T) + n else o + n)) (r2_oos s) (r2_pts s) (r2_cnt s) in
        if 0 <? cnt (fb b d) T (nr c k (RB + 1)) then
         r2_rec w d (k + 1) (cnt (fb b d) T (nr c k LB)) (cnt (fb b d) T (nr c k (RB + 1)) - 1) vl vr (child c d b)
           (length (filter (fb b d) T)) (shr (child c d b) d) report s1
        else Some s1) = Some s' /\ added report s s' new /\ keep k s s' /\
        (forall j, j < S k -> nth_error (r2_oos s') j = nth_error (r2_oos s) j) /\ NoDup new /\
        (forall p x, In (p, x) new <-> pin (child c d b) d vl vr p x)).
    { intros b vl vr s' W1 W2 W3 J1 J2 J3 J4. destruct (SAME b) as (Q1 & Q2 & Q3 & Q4 & Q5 & Q6). cbv zeta. assert (SK : k + 1 = S k) by lia. rewrite SK.
      set (off' := if b then o + length (filter (fb false d) T) + n else o + n) in *.
      set (s1 := mkr2 (upd (r2_offs s') (S k) off') (r2_oos s') (r2_pts s') (r2_cnt s')).
      assert (KP : keep k s' s1). { unfold keep, s1. cbn. rewrite upd_length. repeat split; auto. intros. apply nth_error_upd_neq. lia. }
      destruct (Nat.ltb_spec 0 (cnt (fb b d) T (nr c k (RB + 1)))) as [Y|Y].
      - rewrite <- !Q5. replace (filter (fb b d) T) with (snd (PN (child c d b) (S k))) by (now rewrite Q3).
        destruct (IHd (S k) (child c d b) vl vr report s1) as (s2 & new & E1 & E2 & E3 & E4 & E5); auto; try lia.
        + unfold SI, s1. cbn. rewrite upd_length. split; auto. split; auto. split.
          * intros j Hj. destruct (Nat.eq_dec j (S k)) as [->|]. rewrite nth_error_upd_eq by lia. now rewrite Q3.
            rewrite nth_error_upd_neq by lia. rewrite Q6 by lia. apply J3. lia.
          * intros. rewrite Q6 by lia. apply J4. auto.
        + rewrite Q5. auto.
        + exists s2, new. destruct E3 as (E31 & E32 & E33 & E34). destruct KP as (K31 & K32 & K33 & K34).
          split. { rewrite (proj2 (proj2 (child_spec c d b))) in E1. exact E1. }
          split; auto. split. { repeat split; try congruence. intros. rewrite E33 by lia. apply K33. auto. intros. rewrite E34 by lia. apply K34. lia. }
          split; auto.
      - exists s1, []. split; auto. split. { split. destruct report; now rewrite ?app_nil_r. simpl. lia. }
        split; auto. split; auto. split. constructor. intros. split. intros []. intros PI.
        apply (no_pts (child c d b) (S k) vl vr p x). lia. rewrite !Q5. lia. replace (L - S k) with d by lia. auto. }
    set (s1 := mkr2 (r2_offs s) (upd (r2_oos s) k (rank_of (t_bit t) o)) (r2_pts s) (r2_cnt s)).
    assert (KS : keep k s s1). { unfold keep, s1. cbn. rewrite upd_length. repeat split; auto. intros. apply nth_error_upd_neq. lia. }
    assert (J4 : forall j, j < S k -> nth_error (r2_oos s1) j = Some (rank_of (t_bit t) (fst (PN c j)))).
    { intros. unfold s1. cbn. destruct (Nat.eq_dec j k) as [->|]. rewrite nth_error_upd_eq by lia. auto. rewrite nth_error_upd_neq by lia. apply I4. lia. }
    (* left *)
    assert (PATH : forall b, shr (child c d b) d = if b then wadd (shl (shr c (S d)) 1) 1 else shl (shr c (S d)) 1).
    { intros. destruct (child_spec c d b) as (Q1 & Q2 & Q3). destruct (SAME b) as (Q4 & _).
      assert (is_word (child c d b)). { unfold is_word. lia. }
      rewrite <- Q1. destruct b.
      - rewrite <- (prefix1 (child c d true) d) by auto. assert (X : N.land (shl (shr (child c d true) (S d)) 1) 1 = 0%N).
        { apply tb_ext. intros. rewrite tb_land, tb_shl, tb_0. destruct k0; simpl. auto.
          replace (tb 1 (S k0)) with false by (unfold tb; symmetry; apply (N.bits_above_log2 1); simpl; lia). apply andb_false_r. }
        rewrite (lor_disjoint_add _ _ X). symmetry. apply wadd_small. rewrite <- (lor_disjoint_add _ _ X).
        rewrite prefix1 by auto. apply is_word_shr. auto.
      - symmetry. apply prefix0; auto. }
    assert (LEFT : exists s2 new0, (if (vlb <? child c d true)%N && negb (child c d true =? 0)%N
       then
         let* nlb := csub (o - rank_of (t_bit t) o + cnt (fb false d) T (nr c k LB)) (o - rank_of (t_bit t) o) in
         let* nrb := csub (o - rank_of (t_bit t) o + cnt (fb false d) T (nr c k (RB + 1))) (o - rank_of (t_bit t) o) in
         let* offs := aset (r2_offs s) (k + 1) (o + n) in
         (let s := mkr2 offs (upd (r2_oos s) k (rank_of (t_bit t) o)) (r2_pts s) (r2_cnt s) in
          if 0 <? nrb
          then r2_rec w d (k + 1) nlb (nrb - 1) vlb (N.min vrb (wsub (child c d true) 1)) (base c (S d)) (length (filter (fb false d) T)) (shl (shr c (S d)) 1) report s
          else Some s)
       else Some s1) = Some s2 /\ added report s1 s2 new0 /\ keep k s1 s2 /\
        (forall j, j < S k -> nth_error (r2_oos s2) j = nth_error (r2_oos s1) j) /\ NoDup new0 /\
        (forall p x, In (p, x) new0 <-> pin (child c d false) d vlb vrb p x)).
    { destruct (N.ltb_spec vlb (child c d true)) as [Y|Y]; cbn [andb].
      - destruct (N.eqb_spec (child c d true) 0); [lia|]. cbn [negb]. rewrite !csub_add. cbn [obind]. rewrite aset_some by lia. cbn [obind].
        rewrite wsub_small by (unfold is_word; lia).
        destruct (STEP false vlb (N.min vrb (child c d true - 1)) s1) as (s2 & new0 & G1 & G2 & G3 & G4 & G5 & G6); auto; try lia.
        + unfold s1. cbn. now rewrite upd_length.
        + exists s2, new0. rewrite (PATH false), M1 in G1. split. { exact G1. } do 4 (split; auto).
          intros. rewrite G6. unfold pin. rewrite (base_range (child c d false)), Z3. split; intros (X1 & X2 & X3 & X4 & X5); repeat split; auto; lia.
      - exists s1, []. split; auto. split. { split. destruct report; now rewrite ?app_nil_r. simpl. lia. }
        split. { repeat split; auto. } split; auto. split. constructor. intros. split. intros []. unfold pin. rewrite (base_range (child c d false)), Z3.
        intros (X1 & X2 & X3 & X4 & X5). lia. }
    destruct LEFT as (s2 & new0 & LE & A2 & K4 & O4 & ND0 & IN0). cbv zeta in LE. cbn [r2_offs r2_oos r2_pts r2_cnt] in LE. fold s1. rewrite LE. clear LE. cbn [obind].
    (* right *)
    destruct (N.leb_spec (child c d true) vrb) as [Y|Y].
    + rewrite !csub_add. cbn [obind]. destruct K4 as (K41 & K42 & K43 & K44). destruct KS as (KS1 & KS2 & KS3 & KS4).
      rewrite aset_some by (rewrite K41, KS1, I1; lia). cbn [obind].
      destruct (STEP true (N.max (child c d true) vlb) vrb s2) as (s3 & new1 & G1 & G2 & G3 & G4 & G5 & G6); auto; try lia; try congruence.
      * intros. rewrite K43, KS3 by auto. apply I3. auto.
      * intros. rewrite O4 by auto. apply J4. auto.
      * exists s3, (new0 ++ new1). rewrite (PATH true) in G1. rewrite <- (Nat.add_assoc o n), (Nat.add_comm n), Nat.add_assoc. split. { exact G1. }
        destruct A2 as [A21 A22]. destruct G2 as [G21 G22]. cbn in A21, A22.
        split. { split. rewrite G21, A21. destruct report; auto. now rewrite app_assoc. rewrite G22, A22, app_length. lia. }
        destruct G3 as (G31 & G32 & G33 & G34).
        split. { repeat split; try congruence. intros. rewrite G33, K43, KS3; auto. intros. rewrite G34, K44, KS4; auto. }
        assert (IN1 : forall p x, In (p, x) new1 <-> pin (child c d true) d vlb vrb p x).
        { intros. rewrite G6. unfold pin. rewrite (base_range (child c d true)), K3. split; intros (X1 & X2 & X3 & X4 & X5); repeat split; auto; lia. }
        split.
        { apply NoDup_app_disj; auto. intros [p x] X Y'. rewrite IN0 in X. rewrite IN1 in Y'.
          destruct X as (_ & _ & _ & X & _). destruct Y' as (_ & _ & _ & Y' & _).
          pose proof (f_equal (fun z => tb z 0) X) as F. pose proof (f_equal (fun z => tb z 0) Y') as F'. cbv beta in F, F'. rewrite !tb_shr in F, F'. cbn [Nat.add] in *. congruence. }
        intros. rewrite in_app_iff, IN0, IN1. unfold pin. rewrite (base_range (child c d true)), (base_range (child c d false)), K3, Z3, (base_range c x (S d)), PS, M0, M1. fold P.
        split; [intros [(X1 & X2 & X3 & X4 & X5)|(X1 & X2 & X3 & X4 & X5)]; repeat split; auto; lia|].
        intros (X1 & X2 & X3 & X4 & X5). destruct (N.lt_ge_cases x (base c (S d) + P)); [left|right]; repeat split; auto; lia.
    + exists s2, new0. split; auto. destruct A2 as [A21 A22]. split. { split; auto. }
      destruct K4 as (K41 & K42 & K43 & K44). destruct KS as (KS1 & KS2 & KS3 & KS4).
      split. { repeat split; try congruence. intros. rewrite K43, KS3; auto. intros. rewrite K44, KS4; auto. }
      split; auto. intros. rewrite IN0. unfold pin. rewrite (base_range (child c d false)), Z3, (base_range c x (S d)), PS, M1. fold P.
      split; intros (X1 & X2 & X3 & X4 & X5); repeat split; auto; lia.
Qed.
End R.
