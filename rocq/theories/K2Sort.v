(** * k2_tree: the in-place sort of the edges of one block by sub-block *)
From Coq Require Import List Arith Bool Lia.
From Verif Require Import Base AbsVec FnArr WtBase WtProofs K2Tree.
Import ListNotations.

Fixpoint sumf (f : nat -> nat) (n : nat) : nat := match n with 0 => 0 | S n' => sumf f n' + f n' end.
Lemma sumf_ext : forall n f g, (forall c, c < n -> f c = g c) -> sumf f n = sumf g n.
Proof. induction n as [|n IH]; intros f g H; auto. cbn [sumf]. rewrite (IH f g) by auto. rewrite H by lia. auto. Qed.
Lemma sumf_le : forall n f g, (forall c, c < n -> f c <= g c) -> sumf f n <= sumf g n.
Proof. induction n as [|n IH]; intros f g H; auto. cbn [sumf]. pose proof (IH f g ltac:(auto)). pose proof (H n ltac:(lia)). lia. Qed.
Lemma sumf_mono : forall f a b, a <= b -> sumf f a <= sumf f b.
Proof. intros f a b H. induction H; auto. cbn [sumf]. lia. Qed.
Lemma sumf_upd : forall n f c v, c < n -> sumf (fun x => if x =? c then v else f x) n + f c = sumf f n + v.
Proof.
  induction n as [|n IH]; intros f c v H; [lia|]. cbn [sumf]. destruct (Nat.eqb_spec n c) as [-> |Z].
  - rewrite (sumf_ext c _ f). lia. intros x X. destruct (Nat.eqb_spec x c); auto. lia.
  - pose proof (IH f c v ltac:(lia)). lia.
Qed.
Lemma sumf_tele : forall n f, sumf (fun c => f (c + 1)) n + f 0 = sumf f n + f n.
Proof. induction n as [|n IH]; intros f; auto. cbn [sumf]. pose proof (IH f). replace (n + 1) with (S n) in * by lia. lia. Qed.
Lemma sumf_parts : forall {A} (ce : A -> nat) l n, sumf (fun c => length (filter (fun x => ce x =? c) l)) n = length (filter (fun x => ce x <? n) l).
Proof.
  intros A ce l n. induction n as [|n IH]; cbn [sumf].
  - induction l as [|a l IH]; auto.
  - rewrite IH. clear IH. induction l as [|a l IH]; auto. cbn [filter]. destruct (Nat.ltb_spec (ce a) n); destruct (Nat.eqb_spec (ce a) n); destruct (Nat.ltb_spec (ce a) (S n)); cbn [length]; lia.
Qed.
Lemma filter_len_all : forall {A} (g : A -> bool) l, length (filter g l) = length l -> forall a, In a l -> g a = true.
Proof.
  induction l as [|b l IH]; intros H a I; [destruct I|]. cbn [filter] in H. assert (length (filter g l) <= length l) by (clear; induction l as [|c l IH]; auto; cbn; destruct (g c); cbn; lia).
  destruct (g b) eqn:E; cbn [length] in H; [|lia]. destruct I as [-> |I]; auto.
Qed.
Lemma filter_all_len : forall {A} (g : A -> bool) l, (forall a, In a l -> g a = true) -> length (filter g l) = length l.
Proof. induction l as [|b l IH]; intros H; auto. cbn [filter]. rewrite H by (left; auto). cbn [length]. rewrite IH; auto. intros. apply H. right. auto. Qed.
Definition b2 (b : bool) : nat := if b then 1 else 0.
Lemma filter_upd : forall l (h : nat -> bool) p b, NoDup l -> In p l -> length (filter (fun x => if x =? p then b else h x) l) + b2 (h p) = length (filter h l) + b2 b.
Proof.
  induction l as [|a l IH]; intros h p b ND I; [destruct I|]. apply NoDup_cons_iff in ND. destruct ND as [NI ND]. cbn [filter]. destruct (Nat.eqb_spec a p) as [-> |Z].
  - rewrite (filter_ext_in (fun x => if x =? p then b else h x) h). { destruct b, (h p); cbn [length b2]; lia. } intros x X. destruct (Nat.eqb_spec x p); auto. subst. contradiction.
  - destruct I as [I|I]; [congruence|]. pose proof (IH h p b ND I). destruct (h a); cbn [length]; lia.
Qed.

Section Sort.
Variables (k n i j l r0 c0 : nat) (ef0 : nat -> nat * nat) (ce : nat * nat -> nat) (vb : nat * nat -> bool).
Notation KK := (k * k).
Hypothesis IJ : i <= j <= n.
Hypothesis VC : forall e, vb e = true -> chunk_idx (fst e) (snd e) c0 r0 l k = Some (ce e) /\ ce e < KK.
Hypothesis V0 : forall x, i <= x < j -> vb (ef0 x) = true.
Notation rng := (seq i (j - i)).
Definition ac (c : nat) : nat := length (filter (fun x => ce (ef0 x) =? c) rng).
Definition Sx (c : nat) : nat := i + sumf ac c.
Lemma in_rng : forall x, In x rng <-> i <= x < j. Proof. clear V0 VC IJ; clear vb. intros. rewrite in_seq. lia. Qed.
Lemma Sx0 : Sx 0 = i. Proof. unfold Sx. apply Nat.add_0_r. Qed.
Lemma SxS : forall c, Sx (c + 1) = Sx c + ac c. Proof. clear V0 VC IJ; clear vb. intros. unfold Sx. replace (c + 1) with (S c) by lia. cbn [sumf]. lia. Qed.
Lemma SxK : Sx KK = j.
Proof. unfold Sx, ac. rewrite (sumf_parts (fun x => ce (ef0 x))). rewrite filter_all_len. { rewrite seq_length. lia. } intros x X. apply in_rng in X. apply Nat.ltb_lt. apply VC. auto. Qed.
Lemma Sx_mono : forall a b, a <= b -> Sx a <= Sx b. Proof. clear V0 VC IJ; clear vb. intros. unfold Sx. pose proof (sumf_mono ac a b H). lia. Qed.
Lemma amounts_ok : forall its g, (forall x, In x its -> i <= x < j) -> amounts k (farr n ef0) its l r0 c0 (farr KK g) = Some (farr KK (fun c => g c + length (filter (fun x => ce (ef0 x) =? c) its))).
Proof.
  induction its as [|it its IH]; intros g H; cbn [amounts].
  - f_equal. apply farr_ext. intros. cbn. lia.
  - pose proof (H it ltac:(left; auto)). rewrite farr_nth_error by lia. cbn [obind]. destruct (VC (ef0 it) ltac:(auto)) as [A B]. rewrite A. cbn [obind]. rewrite farr_nth_error by lia. cbn [obind]. rewrite farr_aset by lia. cbn [obind]. rewrite IH by (intros; apply H; right; auto). f_equal. apply farr_ext. intros c C. cbn [filter]. destruct (Nat.eqb_spec c (ce (ef0 it))) as [-> |Z].
    + rewrite Nat.eqb_refl. cbn [length]. lia.
    + destruct (Nat.eqb_spec (ce (ef0 it)) c); [congruence|]. lia.
Qed.
Lemma amounts_all : amounts k (farr n ef0) rng l r0 c0 (repeat 0 KK) = Some (farr KK ac).
Proof. rewrite farr_repeat, amounts_ok by apply in_rng. auto. Qed.
Lemma starts_map : forall m s f, starts (map f (seq s m)) (i + sumf f s) = map (fun c => i + sumf f c) (seq s m).
Proof. clear V0 VC IJ; clear vb. induction m as [|m IH]; intros s f; auto. cbn [seq map starts]. f_equal. rewrite <- (IH (S s)). f_equal. cbn [sumf]. lia. Qed.
Lemma starts_ok : starts (farr KK ac) i = farr KK Sx.
Proof. clear V0 VC IJ; clear vb. unfold farr. change (map Sx (seq 0 KK)) with (map (fun c => i + sumf ac c) (seq 0 KK)). rewrite <- starts_map. f_equal. cbn. lia. Qed.

Definition Inv (ch : nat) (f : nat -> nat) (ef : nat -> nat * nat) : Prop :=
  (forall x, ~ (i <= x < j) -> ef x = ef0 x) /\
  (forall g, length (filter (fun x => g (ef x)) rng) = length (filter (fun x => g (ef0 x)) rng)) /\
  (forall c, c < KK -> Sx c <= f c <= Sx (c + 1) /\ forall x, Sx c <= x < f c -> ce (ef x) = c) /\
  (forall c, c < ch -> f c = Sx (c + 1)).
Lemma inv_v : forall ch f ef, Inv ch f ef -> forall x, i <= x < j -> vb (ef x) = true.
Proof.
  intros ch f ef (A & B & C & D) x X. apply (filter_len_all (fun x => vb (ef x)) rng); [|apply in_rng; auto]. rewrite B. apply filter_all_len. intros y Y. apply V0. apply in_rng. auto.
Qed.
Lemma loc : forall c, c < KK -> i <= Sx c /\ Sx (c + 1) <= j.
Proof. intros c C. pose proof (Sx_mono 0 c ltac:(lia)). pose proof (Sx_mono (c + 1) KK ltac:(lia)). rewrite Sx0 in H. rewrite SxK in H0. lia. Qed.
Lemma not_full : forall ch f ef it, Inv ch f ef -> i <= it < j -> (forall x, Sx (ce (ef it)) <= x < f (ce (ef it)) -> x <> it) -> f (ce (ef it)) < Sx (ce (ef it) + 1).
Proof.
  intros ch f ef it IV R NI. pose proof (inv_v _ _ _ IV it R) as V. destruct (VC _ V) as [_ CK]. destruct IV as (A & B & C & D). remember (ce (ef it)) as c eqn:EC. destruct (C c CK) as [C1 C2]. destruct (loc c CK) as [L1 L2].
  destruct (Nat.lt_ge_cases (f c) (Sx (c + 1))) as [|F]; auto. exfalso. assert (FE : f c = Sx (c + 1)) by lia.
  assert (N1 : NoDup (it :: seq (Sx c) (ac c))). { constructor; [|apply seq_NoDup]. rewrite in_seq. rewrite SxS in FE. intros I. apply (NI it); lia. }
  assert (N2 : incl (it :: seq (Sx c) (ac c)) (filter (fun x => ce (ef x) =? c) rng)).
  { intros x [X|X]; apply filter_In; rewrite in_rng. { subst x. rewrite <- EC, Nat.eqb_refl. split; auto; lia. } apply in_seq in X. rewrite SxS in *. split. lia. apply Nat.eqb_eq. apply C2. lia. }
  pose proof (NoDup_incl_length N1 N2) as L. rewrite (B (fun e => ce e =? c)) in L. fold (ac c) in L. cbn [length] in L. rewrite seq_length in L. lia.
Qed.
Definition rest (f : nat -> nat) : nat := sumf (fun c => Sx (c + 1)) KK - sumf f KK.
Lemma rest_step : forall f c, c < KK -> (forall c, c < KK -> f c <= Sx (c + 1)) -> f c < Sx (c + 1) -> rest (fun x => if x =? c then f c + 1 else f x) + 1 = rest f.
Proof.
  intros f c C F L. unfold rest. pose proof (sumf_upd KK f c (f c + 1) C) as U. pose proof (sumf_le KK (fun x => if x =? c then f c + 1 else f x) (fun c => Sx (c + 1))) as LE. cbn beta in LE.
  assert (sumf (fun x => if x =? c then f c + 1 else f x) KK <= sumf (fun c => Sx (c + 1)) KK). { apply LE. intros x X. destruct (Nat.eqb_spec x c) as [-> |Z]; [lia|auto]. } lia.
Qed.
Lemma sort_loop_ok : forall fuel ch f ef, ch < KK -> Inv ch f ef -> rest f < fuel ->
  exists f' ef', sort_loop k fuel l r0 c0 (Sx (ch + 1)) (f ch) (farr KK f) (farr n ef) = Some (farr KK f', farr n ef') /\ Inv (S ch) f' ef'.
Proof.
  induction fuel as [|fuel IH]; intros ch f ef CH IV RF; [lia|]. cbn [sort_loop]. pose proof IV as (A & B & C & D). destruct (C ch CH) as [C1 C2]. destruct (loc ch CH) as [L1 L2]. destruct (Nat.ltb_spec (f ch) (Sx (ch + 1))) as [LT|GE].
  2: { exists f, ef. split; auto. repeat split; auto. - apply C. auto. - apply C. auto. - apply C. auto. - intros c X. destruct (Nat.eq_dec c ch) as [-> |]; [lia|]. apply D. lia. }
  assert (R : i <= f ch < j) by lia. pose proof (inv_v _ _ _ IV _ R) as V. destruct (VC _ V) as [CI CK].
  rewrite farr_nth_error by lia. cbn [obind]. rewrite CI. cbn [obind]. rewrite farr_nth_error by lia. cbn [obind]. rewrite farr_aset by lia. cbn [obind]. set (c := ce (ef (f ch))) in *. destruct (C c CK) as [C3 C4]. destruct (loc c CK) as [L3 L4].
  assert (NF : f c < Sx (c + 1)). { apply (not_full ch f ef (f ch) IV R). intros x X. fold c in X. destruct (Nat.eq_dec c ch) as [E|E]. { rewrite E in X. lia. } destruct (Nat.lt_ge_cases c ch). { pose proof (Sx_mono (c + 1) ch ltac:(lia)). lia. } pose proof (Sx_mono (ch + 1) c ltac:(lia)). lia. }
  pose proof (rest_step f c CK (fun c H => proj2 (proj1 (C c H))) NF) as RS.
  destruct (Nat.eqb_spec (f c) (f ch)) as [EQ|NEQ]; cbn [negb].
  - assert (EC : c = ch). { destruct (Nat.eq_dec c ch) as [E|E]; auto. exfalso. destruct (Nat.lt_ge_cases c ch). { pose proof (Sx_mono (c + 1) ch ltac:(lia)). lia. } pose proof (Sx_mono (ch + 1) c ltac:(lia)). lia. }
    destruct (IH ch (fun x => if x =? c then f c + 1 else f x) ef CH) as (f' & ef' & G & G').
    + repeat split; auto.
      * destruct (Nat.eqb_spec c1 c) as [-> |Z]; [lia|]. apply C. auto.
      * destruct (Nat.eqb_spec c1 c) as [-> |Z]; [lia|]. apply C. auto.
      * destruct (Nat.eqb_spec c1 c) as [-> |Z]. 2: { apply C. auto. } intros x X. destruct (Nat.eq_dec x (f c)) as [-> |]. { rewrite EQ. auto. } apply C4. lia.
      * intros c1 X. destruct (Nat.eqb_spec c1 c); [lia|]. auto.
    + lia.
    + exists f', ef'. split; auto. rewrite <- G. f_equal. rewrite EC, Nat.eqb_refl. auto.
  - assert (EC : c <> ch) by congruence.
    assert (PR : i <= f c < j) by lia.
    assert (OUT : ~ (Sx ch <= f c < Sx (ch + 1)) /\ ~ (Sx c <= f ch < Sx (c + 1))). { destruct (Nat.lt_ge_cases c ch). { pose proof (Sx_mono (c + 1) ch ltac:(lia)). lia. } pose proof (Sx_mono (ch + 1) c ltac:(lia)). lia. }
    rewrite farr_nth_error by lia. cbn [obind]. rewrite farr_aset by lia. cbn [obind]. rewrite farr_aset by lia. cbn [obind].
    set (ef1 := fun x => if x =? f c then ef (f ch) else (fun x => if x =? f ch then ef (f c) else ef x) x).
    destruct (IH ch (fun x => if x =? c then f c + 1 else f x) ef1 CH) as (f' & ef' & G & G').
    + split; [|split; [|split]].
      * intros x X. unfold ef1. destruct (Nat.eqb_spec x (f c)); [lia|]. destruct (Nat.eqb_spec x (f ch)); [lia|]. auto.
      * intros g. rewrite <- B. pose proof (filter_upd rng (fun x => g (ef x)) (f ch) (g (ef (f c))) (seq_NoDup _ _) ltac:(apply in_rng; lia)) as U1.
        pose proof (filter_upd rng (fun x => if x =? f ch then g (ef (f c)) else g (ef x)) (f c) (g (ef (f ch))) (seq_NoDup _ _) ltac:(apply in_rng; lia)) as U2. cbn beta in U1, U2. destruct (Nat.eqb_spec (f c) (f ch)) as [|_] in U2; [contradiction|].
        rewrite (filter_ext (fun x => g (ef1 x)) (fun x => if x =? f c then g (ef (f ch)) else if x =? f ch then g (ef (f c)) else g (ef x))). lia. intros x. unfold ef1. destruct (x =? f c); auto. destruct (x =? f ch); auto.
      * intros c1 X. destruct (C c1 X) as [C5 C6]. destruct (Nat.eqb_spec c1 c) as [-> |Z].
        -- split; [lia|]. intros x Y. unfold ef1. destruct (Nat.eqb_spec x (f c)) as [-> |]. auto. destruct (Nat.eqb_spec x (f ch)) as [-> |]; [exfalso; lia|]. apply C4. lia.
        -- split; [lia|]. intros x Y. unfold ef1. destruct (Nat.eqb_spec x (f c)) as [-> |].
           { exfalso. destruct (Nat.lt_ge_cases c c1). { pose proof (Sx_mono (c + 1) c1 ltac:(lia)). lia. } pose proof (Sx_mono (c1 + 1) c ltac:(lia)). lia. }
           destruct (Nat.eqb_spec x (f ch)) as [-> |].
           { exfalso. destruct (Nat.eq_dec c1 ch) as [-> |]. lia. destruct (Nat.lt_ge_cases ch c1). { pose proof (Sx_mono (ch + 1) c1 ltac:(lia)). lia. } pose proof (Sx_mono (c1 + 1) ch ltac:(lia)). lia. }
           apply C6. lia.
      * intros c1 X. destruct (Nat.eqb_spec c1 c) as [E|]; [|auto]. subst c1. rewrite (D c X) in NF. lia.
    + lia.
    + exists f', ef'. split; auto. rewrite <- G. f_equal. destruct (Nat.eqb_spec ch c); [congruence|auto].
Qed.
Lemma rest_le : forall ch f ef, Inv ch f ef -> rest f <= j - i.
Proof.
  intros ch f ef (A & B & C & D). unfold rest. pose proof (sumf_tele KK Sx) as T. rewrite Sx0, SxK in T. pose proof (sumf_le KK Sx f ltac:(intros c X; apply C; auto)). lia.
Qed.
Lemma sort_chunks_ok : forall m ch f ef, ch + m = KK -> Inv ch f ef ->
  exists f' ef', sort_chunks k (seq ch m) (farr KK ac) i l r0 c0 (farr KK f) (farr n ef) = Some (farr n ef') /\ Inv KK f' ef'.
Proof.
  induction m as [|m IH]; intros ch f ef E IV; cbn [seq sort_chunks].
  - exists f, ef. replace ch with KK in IV by lia. auto.
  - assert (BE : (if ch =? 0 then Some i else nth_error (farr KK f) (ch - 1)) = Some (Sx ch)).
    { destruct (Nat.eqb_spec ch 0) as [-> |Z]. { rewrite Sx0. auto. } rewrite farr_nth_error by lia. f_equal. destruct IV as (_ & _ & _ & D). rewrite D by lia. f_equal. lia. }
    rewrite BE. cbn [obind]. rewrite !farr_nth_error by lia. cbn [obind]. rewrite <- SxS. rewrite farr_length. destruct (sort_loop_ok (S n) ch f ef ltac:(lia) IV) as (f1 & ef1 & G & IV1). { pose proof (rest_le _ _ _ IV). lia. }
    rewrite G. cbn [obind fst snd]. apply (IH (S ch) f1 ef1); auto. lia.
Qed.
Theorem sort_ok : exists ef', sort_chunks k (seq 0 KK) (farr KK ac) i l r0 c0 (farr KK Sx) (farr n ef0) = Some (farr n ef') /\
  (forall x, ~ (i <= x < j) -> ef' x = ef0 x) /\
  (forall g, length (filter (fun x => g (ef' x)) rng) = length (filter (fun x => g (ef0 x)) rng)) /\
  (forall c x, c < KK -> Sx c <= x < Sx (c + 1) -> ce (ef' x) = c).
Proof.
  destruct (sort_chunks_ok KK 0 Sx ef0) as (f & ef & G & A & B & C & D); [lia| |].
  - repeat split; auto; try lia. rewrite SxS. lia.
  - exists ef. split; auto. split; auto. split; auto. intros c x X Y. apply (C c X). rewrite D by auto. auto.
Qed.
End Sort.
