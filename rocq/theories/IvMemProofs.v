(** * Memory management of int_vector: proofs *)
From Coq Require Import List Bool Arith ZArith Lia ZifyNat.
From Verif Require Import Base Life IvMem SpecIvMem.
Import ListNotations.
Ltac Zify.zify_post_hook ::= Z.to_euclidean_division_equations.

(** ** sums over the living vectors *)
Definition sumz (f : nat -> Z) (l : list nat) : Z := fold_right (fun n s => f n + s)%Z 0%Z l.
Definition tot (f : nat -> Z) (c : Z) : Prop := forall l, NoDup l -> (forall n, f n <> 0%Z -> In n l) -> sumz f l = c.
Lemma sumz_ext f g l : (forall n, In n l -> f n = g n) -> sumz f l = sumz g l.
Proof. unfold sumz. induction l; cbn; auto. intros H. rewrite (H a) by auto. rewrite IHl; auto. Qed.
Lemma fupd_s {A} (g : nat -> A) f x : fupd g f x f = x.
Proof. unfold fupd; now rewrite Nat.eqb_refl. Qed.
Lemma fupd_o {A} (g : nat -> A) f x k : k <> f -> fupd g f x k = g k.
Proof. unfold fupd; intros H. apply Nat.eqb_neq in H. now rewrite H. Qed.
Lemma sumz_upd f n x l : NoDup l -> In n l -> sumz (fupd f n x) l = (sumz f l + x - f n)%Z.
Proof.
  induction l as [|a l IH]; intros ND I; [destruct I|]. inversion ND; subst. unfold sumz in *. cbn [fold_right].
  destruct (Nat.eq_dec a n) as [->|N].
  - rewrite fupd_s. fold (sumz (fupd f n x) l). fold (sumz f l).
    rewrite (sumz_ext (fupd f n x) f); [lia|]. intros k K. apply fupd_o. congruence.
  - rewrite fupd_o by auto. rewrite IH; auto; [lia|]. destruct I; congruence.
Qed.
Lemma tot_upd f c n x : tot f c -> tot (fupd f n x) (c + x - f n)%Z.
Proof.
  intros T l ND CV. destruct (in_dec Nat.eq_dec n l) as [I|I].
  - rewrite sumz_upd by auto. rewrite T; auto. intros k K. destruct (Nat.eq_dec k n) as [->|N]; auto. apply CV. now rewrite fupd_o.
  - assert (X : x = 0%Z). { destruct (Z.eq_dec x 0) as [|N]; auto. destruct I. apply CV. now rewrite fupd_s. }
    rewrite (sumz_ext (fupd f n x) f).
    + specialize (T (n :: l)). unfold sumz in *. cbn [fold_right] in T. rewrite <- T; [lia|now constructor|].
      intros k K. destruct (Nat.eq_dec k n) as [->|N]; [now left|]. right. apply CV. now rewrite fupd_o.
    + intros k K. apply fupd_o. congruence.
Qed.
Lemma tot_ext f g c : (forall n, f n = g n) -> tot f c -> tot g c.
Proof. intros E T l ND CV. rewrite <- (sumz_ext f g) by auto. apply T; auto. intros n. rewrite E. auto. Qed.

(** ** lists *)
Lemma upd_len {A} (l : list A) i w : i < length l -> length (firstn i l ++ w :: skipn (S i) l) = length l.
Proof. intros H. rewrite app_length, firstn_length. cbn [length]. rewrite skipn_length. lia. Qed.
Lemma upd_firstn {A} (l : list A) i k w : i < k -> i < length l ->
  firstn k (firstn i l ++ w :: skipn (S i) l) = firstn i (firstn k l) ++ w :: skipn (S i) (firstn k l).
Proof.
  intros H L. rewrite firstn_firstn, Nat.min_l by lia. rewrite firstn_app, firstn_firstn, firstn_length.
  rewrite Nat.min_r by lia. rewrite Nat.min_l by lia.
  destruct (k - i) as [|d] eqn:D; [lia|]. cbn [firstn]. f_equal. f_equal.
  rewrite skipn_firstn_comm. f_equal. lia.
Qed.

Section P.
Context {W : Type}.
Variable w0 junk : W.
Variable mask : nat -> W -> W.
Notation ivm := (ivm W).
Arguments blk {W}.
Arguments nxt {W}.
Arguments objs {W}.
Arguments cnt {W}.

(** ** the invariant *)
Definition bytes (o : option iv) : Z := match o with Some o => 8 * Z.of_nat (words (sz o)) | None => 0 end.
Record inv (st : ivm) : Prop := {
  iNull : forall n o, objs st n = Some o -> dt o = None -> sz o = 0;
  iData : forall n o b, objs st n = Some o -> dt o = Some b -> exists ws, blk st b = Some ws /\ words (sz o) <= length ws;
  iOne : forall n o n' o' b, objs st n = Some o -> objs st n' = Some o' -> dt o = Some b -> dt o' = Some b -> n = n';
  iOwn : forall b, blk st b <> None -> exists n o, objs st n = Some o /\ dt o = Some b;
  iNxt : forall b, blk st b <> None -> b < nxt st
}.
Definition counted (st : ivm) : Prop := tot (fun n => bytes (objs st n)) (cnt st).
Definition same (st st' : ivm) (k : nat) : Prop :=
  objs st' k = objs st k /\ forall o b, objs st k = Some o -> dt o = Some b -> blk st' b = blk st b.
Lemma same_refl st k : same st st k.
Proof. split; auto. Qed.
Lemma same_trans st st1 st2 k : same st st1 k -> same st1 st2 k -> same st st2 k.
Proof.
  intros [A1 B1] [A2 B2]. split; [congruence|]. intros o b X Y. rewrite (B2 o b); [eauto| |auto]. now rewrite A1.
Qed.
Lemma same_view st st' k : same st st' k -> view W st' k = view W st k.
Proof.
  intros [A1 B1]. unfold view. rewrite A1. destruct (objs st k) as [o|]; auto. cbn [obind].
  destruct (dt o) as [b|] eqn:D; auto. now rewrite (B1 o b).
Qed.

Ltac cases_n := repeat match goal with
  | H : context [fupd _ ?n _ ?k] |- _ => destruct (Nat.eq_dec k n) as [->|?]; [rewrite !fupd_s in *|rewrite !(fupd_o _ n _ k) in * by auto]
  | |- context [fupd _ ?n _ ?k] => destruct (Nat.eq_dec k n) as [->|?]; [rewrite !fupd_s in *|rewrite !(fupd_o _ n _ k) in * by auto]
  end.

(** *** a new empty object *)
Lemma inv_blank st n w : inv st -> objs st n = None -> inv (seto W st n (Some (mkiv 0 w None))).
Proof.
  intros [N D O C X] E. constructor; cbn [seto blk nxt objs].
  - intros k o. destruct (Nat.eq_dec k n) as [->|K]; [rewrite fupd_s|rewrite fupd_o by auto; eauto].
    intros H; injection H as <-; auto.
  - intros k o b. destruct (Nat.eq_dec k n) as [->|K]; [rewrite fupd_s|rewrite fupd_o by auto; eauto].
    intros H; injection H as <-; discriminate.
  - intros k o k' o' b. destruct (Nat.eq_dec k n) as [->|K]; [rewrite fupd_s; intros H; injection H as <-; discriminate|].
    rewrite fupd_o by auto. destruct (Nat.eq_dec k' n) as [->|K']; [rewrite fupd_s; intros ? H; injection H as <-; discriminate|].
    rewrite fupd_o by auto. eauto.
  - intros b B. destruct (C b B) as (k & o & H & H'). exists k, o. rewrite fupd_o; auto. congruence.
  - auto.
Qed.
Lemma same_blank st n o k : k <> n -> same st (seto W st n o) k.
Proof. intros K. split; cbn [seto objs blk]; [now rewrite fupd_o|auto]. Qed.

(** *** scalars of an object *)
Lemma inv_scal st n o s w : inv st -> objs st n = Some o -> words s = words (sz o) -> (dt o = None -> s = 0) ->
  inv (seto W st n (Some (mkiv s w (dt o)))).
Proof.
  intros [N D O C X] E S Z. constructor; cbn [seto blk nxt objs].
  - intros k o'. destruct (Nat.eq_dec k n) as [->|K]; [rewrite fupd_s|rewrite fupd_o by auto; eauto].
    intros H; injection H as <-; auto.
  - intros k o' b. destruct (Nat.eq_dec k n) as [->|K]; [rewrite fupd_s|rewrite fupd_o by auto; eauto].
    intros H; injection H as <-; cbn [dt sz]. rewrite S. eauto.
  - intros k o1 k' o2 b. destruct (Nat.eq_dec k n) as [->|K]; [rewrite fupd_s|rewrite fupd_o by auto];
    (destruct (Nat.eq_dec k' n) as [->|K']; [rewrite fupd_s|rewrite fupd_o by auto]); intros H1 H2; auto.
    + injection H1 as <-. cbn [dt]. eauto.
    + injection H2 as <-. cbn [dt]. eauto.
    + eauto.
  - intros b B. destruct (C b B) as (k & o' & H & H'). destruct (Nat.eq_dec k n) as [->|K].
    + exists n, (mkiv s w (dt o)). rewrite fupd_s. split; auto. cbn [dt]. congruence.
    + exists k, o'. rewrite fupd_o by auto. auto.
  - auto.
Qed.

(** *** the words of a block *)
Lemma inv_setb st b ws ws' : inv st -> blk st b = Some ws -> length ws' = length ws -> inv (setb W st b (Some ws')).
Proof.
  intros [N D O C X] E L. constructor; cbn [setb blk nxt objs]; eauto.
  - intros n o b' H H'. destruct (D n o b' H H') as (z & Z & Z'). destruct (Nat.eq_dec b' b) as [->|B].
    + rewrite fupd_s. eexists; split; eauto. rewrite L. congruence.
    + rewrite fupd_o by auto. eauto.
  - intros b'. destruct (Nat.eq_dec b' b) as [->|B]; [|rewrite fupd_o by auto; auto]. intros _. apply C. congruence.
  - intros b'. destruct (Nat.eq_dec b' b) as [->|B]; [|rewrite fupd_o by auto; auto]. intros _. apply X. congruence.
Qed.
Lemma same_setb st n o b x k : inv st -> objs st n = Some o -> dt o = Some b -> k <> n -> same st (setb W st b x) k.
Proof.
  intros I E D K. split; cbn [setb objs blk]; auto. intros o' b' E' D'. apply fupd_o. intros ->.
  apply K. eapply (iOne _ I); eauto.
Qed.
Lemma modw_ok st n o b ws i f : inv st -> objs st n = Some o -> dt o = Some b -> blk st b = Some ws -> i < length ws ->
  exists w st', nth_error ws i = Some w /\ modw W st n i f = Some st' /\ inv st' /\ (forall k, k <> n -> same st st' k) /\
    objs st' = objs st /\ cnt st' = cnt st /\ blk st' b = Some (firstn i ws ++ f w :: skipn (S i) ws).
Proof.
  intros I E D B L. destruct (nth_error ws i) as [w|] eqn:Q; [|apply nth_error_None in Q; lia].
  exists w. eexists. split; auto. unfold modw. rewrite E. cbn [obind]. rewrite D. cbn [obind]. rewrite B. cbn [obind]. rewrite Q. cbn [obind].
  split; [reflexivity|]. split; [|split; [|split; [|split]]]; auto.
  - eapply inv_setb; eauto. now apply upd_len.
  - intros k K. eapply same_setb; eauto.
  - cbn [setb blk]. apply fupd_s.
Qed.

(** *** a new block for an object *)
Lemma fit_len k (ws : list W) : length (fit W junk k ws) = k.
Proof. unfold fit. rewrite app_length, firstn_length, repeat_length. lia. Qed.
Lemma realloc_ok st n o k s w : inv st -> objs st n = Some o -> words s <= k ->
  exists p, realloc_mem W junk st (dt o) k = Some p /\
    let st' := seto W (fst p) n (Some (mkiv s w (Some (snd p)))) in
    inv st' /\ (forall m, m <> n -> same st st' m) /\ cnt st' = cnt st /\ (forall m, m <> n -> objs st' m = objs st m) /\
    objs st' n = Some (mkiv s w (Some (snd p))) /\ exists ws, blk st' (snd p) = Some ws /\ length ws = k.
Proof.
  intros I E L. pose proof I as [N D O C X].
  set (bk := match dt o with Some b => fupd (blk st) b None | None => blk st end).
  assert (R : exists old, realloc_mem W junk st (dt o) k =
     Some (mkivm W (fupd bk (nxt st) (Some (fit W junk k old))) (S (nxt st)) (objs st) (cnt st), nxt st)).
  { unfold realloc_mem, bk. destruct (dt o) as [b|] eqn:Q.
    - destruct (D n o b E Q) as (ws & B & _). cbn [obind free_mem]. rewrite B. cbn [obind]. exists ws. reflexivity.
    - exists []. cbn [obind free_mem]. reflexivity. }
  destruct R as (old & R). rewrite R. eexists; split; [reflexivity|]. cbn [fst snd].
  assert (F : forall b, blk st b <> None -> b <> nxt st) by (intros b B ->; apply X in B; lia).
  assert (BK : forall m o' b, m <> n -> objs st m = Some o' -> dt o' = Some b -> bk b = blk st b /\ b <> nxt st).
  { intros m o' b M H H'. split.
    - unfold bk. destruct (dt o) as [b0|] eqn:Q; auto. apply fupd_o. intros ->. apply M. eapply O; eauto.
    - apply F. destruct (D _ _ _ H H') as (z & Z & _). congruence. }
  assert (BS : forall b, bk b <> None -> blk st b <> None /\ dt o <> Some b).
  { intros b. unfold bk. destruct (dt o) as [b0|] eqn:Q; [|split; auto; discriminate].
    destruct (Nat.eq_dec b b0) as [->|M]; [rewrite fupd_s; tauto|]. rewrite fupd_o by auto. split; auto. congruence. }
  cbv zeta; cbn [fst snd].
  assert (SM : forall m, m <> n -> same st (seto W (mkivm W (fupd bk (nxt st) (Some (fit W junk k old))) (S (nxt st)) (objs st) (cnt st)) n (Some (mkiv s w (Some (nxt st))))) m).
  { intros m M. split; cbn [seto objs blk]; [now rewrite fupd_o|]. intros o' b H H'. destruct (BK m o' b M H H') as [B1 B2].
    now rewrite fupd_o. }
  split; [|split; [exact SM|split; [auto|split; [intros; now apply fupd_o|split; [apply fupd_s|]]]]].
  - constructor; cbn [seto blk nxt objs].
    + intros m o'. destruct (Nat.eq_dec m n) as [->|M]; [rewrite fupd_s|rewrite fupd_o by auto; eauto].
      intros H; injection H as <-; discriminate.
    + intros m o' b. destruct (Nat.eq_dec m n) as [->|M]; [rewrite fupd_s|rewrite fupd_o by auto].
      * intros H; injection H as <-. cbn [dt sz]. intros H; injection H as <-. rewrite fupd_s. eexists; split; eauto. now rewrite fit_len.
      * intros H H'. destruct (BK m o' b M H H') as [B1 B2]. rewrite fupd_o by auto. rewrite B1. eauto.
    + intros m1 o1 m2 o2 b. destruct (Nat.eq_dec m1 n) as [->|M1]; [rewrite fupd_s|rewrite fupd_o by auto];
      (destruct (Nat.eq_dec m2 n) as [->|M2]; [rewrite fupd_s|rewrite fupd_o by auto]); intros H1 H2; auto.
      * injection H1 as <-. cbn [dt]. intros Q1 Q2. injection Q1 as <-. destruct (BK m2 o2 (nxt st) M2 H2 Q2); congruence.
      * injection H2 as <-. cbn [dt]. intros Q1 Q2. injection Q2 as <-. destruct (BK m1 o1 (nxt st) M1 H1 Q1); congruence.
      * eauto.
    + intros b B. destruct (Nat.eq_dec b (nxt st)) as [->|M].
      * exists n, (mkiv s w (Some (nxt st))). rewrite fupd_s. auto.
      * rewrite fupd_o in B by auto. destruct (BS b B) as [B1 B2]. destruct (C b B1) as (m & o' & H & H').
        exists m, o'. rewrite fupd_o; auto. intros ->. congruence.
    + intros b B. destruct (Nat.eq_dec b (nxt st)) as [->|M]; [lia|]. rewrite fupd_o in B by auto. destruct (BS b B) as [B1 _].
      apply X in B1. lia.
  - eexists. cbn [seto blk]. rewrite fupd_s. split; eauto. apply fit_len.
Qed.

Definition holds (st : ivm) n s w ws : Prop :=
  exists b, objs st n = Some (mkiv s w (Some b)) /\ blk st b = Some ws /\ words s <= length ws.
Lemma holds_view st n s w ws : holds st n s w ws -> view W st n = Some (s, w, firstn (words s) ws).
Proof.
  intros (b & E & B & L). unfold view. rewrite E. cbn [obind dt sz wd]. rewrite B. cbn [obind].
  apply Nat.leb_le in L. now rewrite L.
Qed.
Lemma counted_upd st st' n : counted st -> (forall m, m <> n -> objs st' m = objs st m) ->
  cnt st' = (cnt st + bytes (objs st' n) - bytes (objs st n))%Z -> counted st'.
Proof.
  intros T E C. unfold counted. rewrite C. apply (tot_ext (fupd (fun m => bytes (objs st m)) n (bytes (objs st' n)))).
  - intros m. destruct (Nat.eq_dec m n) as [->|M]; [now rewrite fupd_s|rewrite fupd_o by auto; now rewrite E].
  - apply (tot_upd (fun m => bytes (objs st m))); auto.
Qed.

(** *** resize *)
Lemma resize_ok st n o s : inv st -> objs st n = Some o -> exists st' ws, resize W w0 junk mask st n s = Some st' /\ inv st' /\
  (forall m, m <> n -> same st st' m) /\ (forall m, m <> n -> objs st' m = objs st m) /\ holds st' n s (wd o) ws /\
  cnt st' = (cnt st + 8 * Z.of_nat (words s) - 8 * Z.of_nat (words (sz o)))%Z.
Proof.
  intros I E. unfold resize. rewrite E. cbn [obind].
  destruct (negb (words (sz o) =? words s) || match dt o with None => true | Some _ => false end) eqn:Q.
  - assert (K : words s <= (s + 64) / 64) by (unfold words; lia).
    destruct (realloc_ok st n o ((s + 64) / 64) s (wd o) I E K) as (p & R & I1 & S1 & C1 & O1 & N1 & ws & B1 & L1).
    rewrite R. cbn [obind]. set (st1 := seto W (fst p) n _) in *. clearbody st1.
    assert (T : exists st2 ws2, (if s <? 64 * words s then modw W st1 n (s / 64) (mask (s mod 64)) else Some st1) = Some st2 /\ inv st2 /\
       (forall m, m <> n -> same st1 st2 m) /\ objs st2 = objs st1 /\ cnt st2 = cnt st1 /\ blk st2 (snd p) = Some ws2 /\ length ws2 = length ws).
    { destruct (s <? 64 * words s).
      - destruct (modw_ok st1 n _ (snd p) ws (s / 64) (mask (s mod 64)) I1 N1 eq_refl B1) as (w & st2 & W1 & M & I2 & S2 & O2 & C2 & B2); [lia|].
        exists st2. eexists. rewrite M. repeat (split; [eauto|]). apply upd_len. lia.
      - exists st1, ws. repeat (split; [eauto using same_refl|]). auto. }
    destruct T as (st2 & ws2 & T & I2 & S2 & O2 & C2 & B2 & L2). rewrite T. cbn [obind].
    assert (U : exists st3 ws3, (if s mod 64 =? 0 then modw W st2 n (s / 64) (fun _ => w0) else Some st2) = Some st3 /\ inv st3 /\
       (forall m, m <> n -> same st2 st3 m) /\ objs st3 = objs st2 /\ cnt st3 = cnt st2 /\ blk st3 (snd p) = Some ws3 /\ length ws3 = length ws2).
    { destruct (s mod 64 =? 0).
      - assert (N2 : objs st2 n = Some (mkiv s (wd o) (Some (snd p)))) by now rewrite O2.
        destruct (modw_ok st2 n _ (snd p) ws2 (s / 64) (fun _ => w0) I2 N2 eq_refl B2) as (w & st3 & W1 & M & I3 & S3 & O3 & C3 & B3); [lia|].
        exists st3. eexists. rewrite M. repeat (split; [eauto|]). apply upd_len. lia.
      - exists st2, ws2. repeat (split; [eauto using same_refl|]). auto. }
    destruct U as (st3 & ws3 & U & I3 & S3 & O3 & C3 & B3 & L3). rewrite U. cbn [obind].
    assert (SS : forall m, m <> n -> same st st3 m).
    { intros m M. eapply same_trans; [apply S1; auto|]. eapply same_trans; [apply S2; auto|]. apply S3; auto. }
    assert (OO : forall m, m <> n -> objs st3 m = objs st m) by (intros m M; rewrite O3, O2; auto).
    assert (HH : holds st3 n s (wd o) ws3).
    { exists (snd p). rewrite O3, O2. repeat split; auto. lia. }
    destruct (negb (words (sz o) =? words s)) eqn:R2.
    + eexists; exists ws3. split; [reflexivity|]. split; [destruct I3; constructor; auto|].
      split; [exact SS|]. split; [exact OO|]. split; [exact HH|]. cbn [setc cnt]. lia.
    + exists st3, ws3. split; [reflexivity|]. repeat (split; [assumption|]). apply negb_false_iff, Nat.eqb_eq in R2. lia.
  - apply orb_false_iff in Q. destruct Q as [Q1 Q2]. apply negb_false_iff, Nat.eqb_eq in Q1.
    destruct (dt o) as [b|] eqn:D; [|discriminate]. destruct (iData _ I n o b E D) as (ws & B & L).
    eexists; exists ws. split; [reflexivity|]. rewrite <- D.
    split; [apply inv_scal; auto; congruence|]. split; [intros; now apply same_blank|].
    split; [intros; cbn [seto objs]; now rewrite fupd_o|]. split; [|cbn [seto cnt]; lia].
    exists b. cbn [seto objs blk]. rewrite fupd_s, D. repeat split; auto. lia.
Qed.

(** *** the copying of words *)
Lemma memcpy_ok st n m s w ws s' w' ws' k : inv st -> n <> m -> holds st n s w ws -> holds st m s' w' ws' ->
  k <= length ws -> k <= length ws' ->
  exists st', memcpy W st n m k = Some st' /\ inv st' /\ (forall j, j <> n -> same st st' j) /\ objs st' = objs st /\ cnt st' = cnt st /\
    holds st' n s w (firstn k ws' ++ skipn k ws).
Proof.
  intros I NM (b & E & B & L) (b' & E' & B' & L') K K'. unfold memcpy. rewrite E. cbn [obind dt]. rewrite B. cbn [obind].
  rewrite E'. cbn [obind dt]. rewrite B'. cbn [obind]. pose proof K as K1. pose proof K' as K2.
  apply Nat.leb_le in K1, K2. rewrite K1, K2. cbn [andb]. eexists; split; [reflexivity|].
  assert (LL : length (firstn k ws' ++ skipn k ws) = length ws) by (rewrite app_length, firstn_length, skipn_length; lia).
  split; [eapply inv_setb; eauto|]. split; [intros j J; eapply (same_setb st n); eauto|]. do 2 (split; [reflexivity|]).
  exists b. cbn [setb objs blk]. rewrite fupd_s. repeat split; auto. lia.
Qed.
Lemma fill_ok ws : forall st n i s w old, inv st -> holds st n s w old -> i + length ws <= length old ->
  exists st', fill W st n i ws = Some st' /\ inv st' /\ (forall j, j <> n -> same st st' j) /\ objs st' = objs st /\ cnt st' = cnt st /\
    exists new, holds st' n s w new /\ firstn (i + length ws) new = firstn i old ++ ws.
Proof.
  induction ws as [|x ws IH]; intros st n i s w old I H L; cbn [fill length] in *.
  - exists st. repeat (split; [auto using same_refl|]). exists old. split; auto. now rewrite Nat.add_0_r, app_nil_r.
  - pose proof H as (b & E & B & Lw).
    destruct (modw_ok st n _ b old i (fun _ => x) I E eq_refl B) as (y & st1 & Y & M & I1 & S1 & O1 & C1 & B1); [lia|].
    rewrite M. cbn [obind]. set (old1 := firstn i old ++ x :: skipn (S i) old) in *.
    assert (L1 : length old1 = length old) by (apply upd_len; lia).
    assert (H1 : holds st1 n s w old1) by (exists b; rewrite O1, L1; auto).
    destruct (IH st1 n (S i) s w old1 I1 H1) as (st2 & F & I2 & S2 & O2 & C2 & new & H2 & N2); [lia|].
    exists st2. split; auto. split; auto. split; [intros j J; eapply same_trans; eauto|].
    split; [congruence|]. split; [congruence|]. exists new. split; auto.
    replace (i + S (length ws)) with (S i + length ws) by lia. rewrite N2. unfold old1.
    rewrite firstn_app, firstn_firstn, firstn_length. rewrite !Nat.min_r by lia. rewrite Nat.min_l by lia.
    replace (S i - i) with 1 by lia. cbn [firstn]. now rewrite <- app_assoc.
Qed.

(** ** histories *)
Definition agree1 (st : ivm) (n : nat) (s : vstatus W) : Prop :=
  match s with
  | VDead _ => objs st n = None
  | VUnspec _ => objs st n <> None
  | VVal _ size width ws => view W st n = Some (size, width, ws)
  end.
Definition rel (st : ivm) (e : venv W) : Prop := inv st /\ counted st /\ forall n, agree1 st n (e n).
Lemma agree_same st st' n s : same st st' n -> agree1 st n s -> agree1 st' n s.
Proof. intros H. unfold agree1. destruct s; [|intros X; destruct H as [H _]; now rewrite H|rewrite (same_view _ _ _ H); auto]. destruct H as [H _]. now rewrite H. Qed.
Lemma agree_live st n s : agree1 st n s -> s <> VDead W -> exists o, objs st n = Some o.
Proof.
  unfold agree1, view. destruct s; [congruence| |]; destruct (objs st n); eauto; try congruence. discriminate.
Qed.
Lemma agree_dead st (e : venv W) n : agree1 st n (e n) -> vdead W e n = true -> objs st n = None.
Proof. unfold vdead. destruct (e n); cbn; auto; discriminate. Qed.
Lemma agree_nd st (e : venv W) n : agree1 st n (e n) -> vdead W e n = false -> exists o, objs st n = Some o.
Proof. intros H D. eapply agree_live; eauto. unfold vdead in D. intros X. rewrite X in D. discriminate. Qed.
Lemma rel_put st st' (e : venv W) n s : (forall k, agree1 st k (e k)) -> (forall k, k <> n -> same st st' k) -> agree1 st' n s ->
  forall k, agree1 st' k (vput W e n s k).
Proof.
  intros A S N k. unfold vput. destruct (k =? n) eqn:K; [apply Nat.eqb_eq in K; now subst|].
  apply Nat.eqb_neq in K. eapply agree_same; eauto.
Qed.
Lemma view_words st n s w ws : inv st -> view W st n = Some (s, w, ws) ->
  (exists all, holds st n s w all /\ ws = firstn (words s) all) \/ (s = 0 /\ ws = [] /\ objs st n = Some (mkiv 0 w None)).
Proof.
  intros I. unfold view. destruct (objs st n) as [o|] eqn:E; [|discriminate]. cbn [obind]. destruct o as [a c d]. cbn [dt sz wd].
  destruct d as [b|].
  - destruct (blk st b) as [all|] eqn:B; [|discriminate]. cbn [obind].
    destruct (words a <=? length all) eqn:L; [|discriminate]. intros H; injection H as <- <- <-. left. exists all. split; auto.
    exists b. apply Nat.leb_le in L. auto.
  - destruct (words a =? 0); [|discriminate]. intros H; injection H as <- <- <-. right.
    pose proof (iNull _ I n _ E eq_refl) as Z. cbn in Z. subst. auto.
Qed.
Lemma live_cases st n o : inv st -> objs st n = Some o -> (exists all, holds st n (sz o) (wd o) all) \/ (sz o = 0 /\ dt o = None).
Proof.
  intros I E. destruct (dt o) as [b|] eqn:D.
  - left. destruct (iData _ I n o b E D) as (ws & B & L). exists ws, b. destruct o; cbn in *; subst; auto.
  - right. split; auto. eapply iNull; eauto.
Qed.
Lemma words0 s : words s = 0 -> s = 0.
Proof. unfold words. lia. Qed.
Lemma view_sz st n o x : objs st n = Some o -> view W st n = Some x -> fst x = (sz o, wd o).
Proof.
  intros E. unfold view. rewrite E. cbn [obind]. destruct (dt o).
  - destruct (blk st n0); [|discriminate]. cbn [obind]. destruct (_ <=? _); [|discriminate]. intros H; injection H as <-; auto.
  - destruct (_ =? _); [|discriminate]. intros H; injection H as <-; auto.
Qed.

(** after the resize of n to the size of m, the words are copied when there are any, and the width is set *)
Lemma copy_tail st n m v s ws0 w0' : inv st -> n <> m -> objs st m = Some v -> s = sz v -> holds st n s w0' ws0 ->
  exists st', (let* st := if 0 <? s then memcpy W st n m (words s) else Some st in set_width W st n (wd v)) = Some st' /\ inv st' /\
    (forall k, k <> n -> same st st' k) /\ (forall k, k <> n -> objs st' k = objs st k) /\ cnt st' = cnt st /\
    (exists b, objs st' n = Some (mkiv s (wd v) b)) /\ view W st' n = view W st m.
Proof.
  intros I NM E -> H.
  assert (T : exists st1 ws1, (if 0 <? sz v then memcpy W st n m (words (sz v)) else Some st) = Some st1 /\ inv st1 /\
     (forall k, k <> n -> same st st1 k) /\ objs st1 = objs st /\ cnt st1 = cnt st /\ holds st1 n (sz v) w0' ws1 /\
     view W st m = Some (sz v, wd v, firstn (words (sz v)) ws1)).
  { destruct (live_cases st m v I E) as [(all & A)|[Z DN]].
    - destruct (0 <? sz v) eqn:Q.
      + destruct H as (b & H1 & H2 & H3). destruct A as (b' & A1 & A2 & A3).
        destruct (memcpy_ok st n m (sz v) w0' ws0 (sz v) (wd v) all (words (sz v))) as (st1 & M & I1 & S1 & O1 & C1 & H'); auto;
          [now exists b|now exists b'|].
        exists st1. eexists. split; [exact M|]. do 4 (split; [auto|]). 
        split; [exact H'|].
        rewrite (holds_view st m (sz v) (wd v) all) by now exists b'.
        rewrite firstn_app, firstn_firstn, firstn_length, Nat.min_id, Nat.min_l, Nat.sub_diag by lia. cbn [firstn]. now rewrite app_nil_r.
      + apply Nat.ltb_ge in Q. exists st, ws0. repeat (split; [auto using same_refl|]).
        rewrite (holds_view st m (sz v) (wd v) all A). replace (sz v) with 0 by lia. reflexivity.
    - rewrite Z in *. cbn [Nat.ltb Nat.leb]. exists st, ws0. repeat (split; [auto using same_refl|]).
      unfold view. rewrite E. cbn [obind]. rewrite DN, Z. reflexivity. }
  destruct T as (st1 & ws1 & T & I1 & S1 & O1 & C1 & (b & H1 & H2 & H3) & V). rewrite T. cbn [obind]. unfold set_width. rewrite H1.
  cbn [obind sz dt]. eexists; split; [reflexivity|].
  split. { apply (inv_scal st1 n (mkiv (sz v) w0' (Some b)) (sz v) (wd v)); auto. discriminate. }
  split. { intros k K. eapply same_trans; [apply S1; auto|]. now apply same_blank. }
  split. { intros k K. cbn [seto objs]. rewrite fupd_o by auto. now rewrite O1. }
  split; [exact C1|]. split; [eexists; cbn [seto objs]; apply fupd_s|].
  rewrite V. apply holds_view. exists b. cbn [seto objs blk]. rewrite fupd_s. auto.
Qed.
Lemma agree_view st st' n m s o : objs st m <> None -> objs st' n = Some o -> view W st' n = view W st m -> agree1 st m s -> agree1 st' n s.
Proof. unfold agree1. destruct s; intros L E V A; [congruence|congruence|]. now rewrite V. Qed.

(** exchange of the representations of two objects *)
Lemma inv_tau st st' (t : nat -> nat) : inv st -> (forall k, t (t k) = k) -> blk st' = blk st -> nxt st' = nxt st ->
  (forall k, objs st' k = objs st (t k)) -> inv st'.
Proof.
  intros [N D O C X] TT B Q E. constructor; rewrite ?B, ?Q; auto.
  - intros n o. rewrite E. eauto.
  - intros n o b. rewrite E. eauto.
  - intros n o n' o' b. rewrite !E. intros H1 H2 H3 H4. rewrite <- (TT n), <- (TT n'). f_equal. eauto.
  - intros b H. destruct (C b H) as (n & o & H1 & H2). exists (t n), o. now rewrite E, TT.
Qed.
Lemma swap_ok st n m x y : inv st -> counted st -> n <> m -> objs st n = Some x -> objs st m = Some y ->
  let st' := seto W (seto W st n (Some y)) m (Some x) in
  inv st' /\ counted st' /\ (forall k, k <> n -> k <> m -> same st st' k) /\ view W st' n = view W st m /\ view W st' m = view W st n.
Proof.
  intros I T NM X Y st'.
  assert (En : objs st' n = Some y) by (unfold st'; cbn [seto objs]; rewrite fupd_o by auto; apply fupd_s).
  assert (Em : objs st' m = Some x) by (unfold st'; cbn [seto objs]; apply fupd_s).
  assert (Ek : forall k, k <> n -> k <> m -> objs st' k = objs st k) by (intros; unfold st'; cbn [seto objs]; now rewrite !fupd_o).
  set (t := fun k => if k =? n then m else if k =? m then n else k).
  split; [|split; [|split; [|split]]].
  - apply (inv_tau st st' t); auto.
    + intros k. unfold t. destruct (k =? n) eqn:K1.
      * apply Nat.eqb_eq in K1; subst. destruct (m =? n) eqn:K2; [apply Nat.eqb_eq in K2; congruence|]. now rewrite Nat.eqb_refl.
      * destruct (k =? m) eqn:K2; [apply Nat.eqb_eq in K2; subst; now rewrite Nat.eqb_refl|]. now rewrite K1, K2.
    + intros k. unfold t. destruct (k =? n) eqn:K1; [apply Nat.eqb_eq in K1; subst; congruence|].
      destruct (k =? m) eqn:K2; [apply Nat.eqb_eq in K2; subst; congruence|]. apply Nat.eqb_neq in K1, K2. auto.
  - unfold counted. 
    apply (tot_ext (fupd (fupd (fun k => bytes (objs st k)) n (bytes (Some y))) m (bytes (Some x)))).
    + intros k. destruct (Nat.eq_dec k m) as [->|K]; [rewrite fupd_s; now rewrite Em|]. rewrite fupd_o by auto.
      destruct (Nat.eq_dec k n) as [->|K']; [rewrite fupd_s; now rewrite En|]. rewrite fupd_o by auto. now rewrite Ek.
    + pose proof (tot_upd _ _ m (bytes (Some x)) (tot_upd _ _ n (bytes (Some y)) T)) as Q. cbv beta in Q.
      rewrite fupd_o in Q by auto. rewrite X, Y in Q. cbn [seto cnt st'].
      replace (cnt st) with (cnt st + bytes (Some y) - bytes (Some x) + bytes (Some x) - bytes (Some y))%Z by lia. exact Q.
  - intros k K1 K2. split; auto.
  - unfold view. rewrite En, Y. reflexivity.
  - unfold view. rewrite Em, X. reflexivity.
Qed.
Lemma rel_put2 st st' (e : venv W) n m s s' : n <> m -> (forall k, agree1 st k (e k)) ->
  (forall k, k <> n -> k <> m -> same st st' k) -> agree1 st' n s -> agree1 st' m s' ->
  forall k, agree1 st' k (vput W (vput W e m s') n s k).
Proof.
  intros NM A S N M k. unfold vput. destruct (k =? n) eqn:K; [apply Nat.eqb_eq in K; now subst|].
  destruct (k =? m) eqn:K'; [apply Nat.eqb_eq in K'; now subst|].
  apply Nat.eqb_neq in K, K'. eapply agree_same; eauto.
Qed.
Lemma vput_self (e : venv W) n s k : vput W (vput W e n s) n (e n) k = e k.
Proof. unfold vput. destruct (k =? n) eqn:K; auto. apply Nat.eqb_eq in K; now subst. Qed.

Theorem step_ok st e o e' : rel st e -> vsem W e o = Some e' -> exists st', vexec W w0 junk mask st o = Some st' /\ rel st' e'.
Proof.
  intros (I & T & A) V. destruct o as [n size width ws|n m|n m|n m|n m|n m|n size|n i w|n]; cbn [vsem vexec] in *.
  - (* constructor *)
    destruct (vdead W e n) eqn:D; [|discriminate]. destruct (length ws =? words size) eqn:L; [|discriminate].
    cbn [andb] in V. injection V as <-. apply Nat.eqb_eq in L. pose proof (agree_dead _ _ _ (A n) D) as E.
    set (st0 := seto W st n (Some (mkiv 0 width None))).
    assert (E0 : objs st0 n = Some (mkiv 0 width None)) by apply fupd_s.
    destruct (resize_ok st0 n _ size (inv_blank _ n width I E) E0) as (st1 & old & R & I1 & S1 & O1 & H1 & C1).
    rewrite R. cbn [obind wd] in *. pose proof H1 as (b & B1 & B2 & B3).
    destruct (fill_ok ws st1 n 0 size width old I1 H1) as (st2 & F & I2 & S2 & O2 & C2 & new & H2 & N2); [lia|].
    exists st2. split; auto. split; auto. split.
    + apply (counted_upd st st2 n T).
      * intros m M. rewrite O2, O1 by auto. cbn [st0 seto objs]. now rewrite fupd_o.
      * rewrite O2, B1, E, C2, C1. cbn [st0 seto cnt bytes sz]. change (words 0) with 0. lia.
    + apply (rel_put st st2); auto.
      * intros k K. eapply same_trans; [apply (same_blank st n (Some (mkiv 0 width None))); auto|]. eapply same_trans; eauto.
      * cbn [agree1]. rewrite (holds_view _ _ _ _ _ H2). rewrite <- L. cbn [Nat.add firstn app] in N2. now rewrite N2.
  - (* copy constructor *)
    destruct (vdead W e n) eqn:D; [|discriminate]. destruct (vdead W e m) eqn:D'; [discriminate|].
    cbn [andb negb] in V. injection V as <-. pose proof (agree_dead _ _ _ (A n) D) as E.
    destruct (agree_nd _ _ _ (A m) D') as (v & E').
    assert (NM : n <> m) by congruence. unfold copy_ctor. rewrite E'. cbn [obind].
    set (st0 := seto W st n (Some (mkiv 0 (wd v) None))).
    assert (E0 : objs st0 n = Some (mkiv 0 (wd v) None)) by apply fupd_s.
    destruct (resize_ok st0 n _ (sz v) (inv_blank _ n (wd v) I E) E0) as (st1 & old & R & I1 & S1 & O1 & H1 & C1).
    rewrite R. cbn [obind wd] in *.
    assert (E1 : objs st1 m = Some v) by (rewrite O1 by auto; cbn [st0 seto objs]; now rewrite fupd_o by auto).
    replace (0 <? 64 * words (sz v)) with (0 <? sz v) by (unfold words; destruct (0 <? sz v) eqn:Q; symmetry; [apply Nat.ltb_lt in Q; apply Nat.ltb_lt; lia|apply Nat.ltb_ge in Q; apply Nat.ltb_ge; lia]).
    destruct (copy_tail st1 n m v (sz v) old (wd v) I1 NM E1 eq_refl H1) as (st2 & F & I2 & S2 & O2 & C2 & (b & B2) & V2).
    exists st2. split; [exact F|]. split; auto.
    assert (SS : forall k, k <> n -> same st st1 k).
    { intros k K. eapply same_trans; [apply (same_blank st n (Some (mkiv 0 (wd v) None))); auto|]. auto. }
    split.
    + apply (counted_upd st st2 n T).
      * intros k K. rewrite O2, O1 by auto. cbn [st0 seto objs]. now rewrite fupd_o.
      * rewrite B2, E, C2, C1. cbn [st0 seto cnt bytes sz]. change (words 0) with 0. lia.
    + apply (rel_put st st2); auto; [intros k K; eapply same_trans; eauto|].
      eapply (agree_view st st2 n m); eauto; [congruence|]. rewrite V2. apply same_view. auto.
  - (* move constructor *)
    destruct (vdead W e n) eqn:D; [|discriminate]. destruct (vdead W e m) eqn:D'; [discriminate|].
    cbn [andb negb] in V. injection V as <-. pose proof (agree_dead _ _ _ (A n) D) as E.
    destruct (agree_nd _ _ _ (A m) D') as (v & E').
    assert (NM : n <> m) by congruence. unfold move_ctor. rewrite E'. cbn [obind].
    set (st0 := seto W st n (Some (mkiv 0 (wd v) None))).
    assert (E0 : objs st0 n = Some (mkiv 0 (wd v) None)) by apply fupd_s.
    assert (E1 : objs st0 m = Some v) by (cbn [st0 seto objs]; now rewrite fupd_o by auto).
    assert (T0 : counted st0).
    { apply (counted_upd st st0 n T); [intros; cbn [st0 seto objs]; now rewrite fupd_o|]. rewrite E0, E. cbn [bytes sz cnt seto st0]. change (words 0) with 0. lia. }
    destruct (swap_ok st0 n m _ _ (inv_blank _ n (wd v) I E) T0 NM E0 E1) as (I1 & T1 & S1 & V1 & V2).
    set (st1 := seto W (seto W st0 n (Some v)) m (Some (mkiv 0 (wd v) None))) in *.
    eexists; split; [reflexivity|]. replace (mkiv (sz v) (wd v) (dt v)) with v by now destruct v.
    set (st2 := seto W (seto W st n (Some v)) m (Some (mkiv 0 (wd v) None))).
    assert (EQ : forall k, objs st2 k = objs st1 k).
    { intros k. unfold st2, st1, st0. cbn [seto objs]. unfold fupd. destruct (k =? m); auto. destruct (k =? n); auto. }
    assert (I2 : inv st2) by (apply (inv_tau st1 st2 (fun k => k)); auto).
    assert (SS : forall k, same st1 st2 k) by (intros k; split; auto).
    split; auto. split.
    + unfold counted. apply (tot_ext (fun k => bytes (objs st1 k))); [intros; now rewrite EQ|exact T1].
    + apply (rel_put2 st st2); auto.
      * intros k K K'. eapply same_trans; [|apply SS]. eapply same_trans; [|apply S1; auto]. now apply same_blank.
      * assert (EN : objs st2 n = Some v) by (unfold st2; cbn [seto objs]; rewrite fupd_o by auto; apply fupd_s).
        eapply (agree_view st st2 n m); eauto; [congruence|].
        rewrite (same_view _ _ _ (SS n)), V1. apply same_view. now apply same_blank; auto.
      * cbn [agree1]. unfold st2. cbn [seto objs]. rewrite fupd_s. discriminate.
  - (* copy assignment *)
    destruct (vdead W e n) eqn:D; [discriminate|]. destruct (vdead W e m) eqn:D'; [discriminate|].
    cbn [andb negb] in V. injection V as <-. destruct (agree_nd _ _ _ (A n) D) as (u & E).
    destruct (agree_nd _ _ _ (A m) D') as (v & E'). unfold copy_assign. destruct (n =? m) eqn:NM.
    + apply Nat.eqb_eq in NM; subst. exists st. split; auto. split; auto. split; auto. intros k. unfold vput.
      destruct (k =? m) eqn:K; [apply Nat.eqb_eq in K; now subst|auto].
    + apply Nat.eqb_neq in NM. rewrite E'. cbn [obind].
      destruct (resize_ok st n u (sz v) I E) as (st1 & old & R & I1 & S1 & O1 & H1 & C1). rewrite R. cbn [obind].
      assert (E1 : objs st1 m = Some v) by (rewrite O1 by auto; auto).
      destruct (copy_tail st1 n m v (sz v) old (wd u) I1 NM E1 eq_refl H1) as (st2 & F & I2 & S2 & O2 & C2 & (b & B2) & V2).
      exists st2. split; [exact F|]. split; auto. split.
      * apply (counted_upd st st2 n T); [intros k K; rewrite O2, O1 by auto; auto|].
        rewrite B2, E, C2, C1. cbn [bytes sz]. lia.
      * apply (rel_put st st2); auto; [intros k K; eapply same_trans; eauto|].
        eapply (agree_view st st2 n m); eauto; [congruence|]. rewrite V2. apply same_view. auto.
  - (* move assignment *)
    destruct (vdead W e n) eqn:D; [discriminate|]. destruct (vdead W e m) eqn:D'; [discriminate|].
    cbn [andb negb] in V. injection V as <-. destruct (agree_nd _ _ _ (A n) D) as (u & E).
    destruct (agree_nd _ _ _ (A m) D') as (v & E'). unfold swap. destruct (n =? m) eqn:NM.
    + apply Nat.eqb_eq in NM; subst. exists st. split; auto. split; auto. split; auto. intros k. now rewrite vput_self.
    + apply Nat.eqb_neq in NM. rewrite E, E'. cbn [obind]. eexists; split; [reflexivity|].
      destruct (swap_ok st n m u v I T NM E E') as (I1 & T1 & S1 & V1 & V2). set (st1 := seto W _ m (Some u)) in *.
      assert (EN : objs st1 n = Some v) by (unfold st1; cbn [seto objs]; rewrite fupd_o by auto; apply fupd_s).
      split; auto. split; auto. apply (rel_put2 st st1); auto.
      * eapply (agree_view st st1 n m); eauto. congruence.
      * cbn [agree1]. unfold st1. cbn [seto objs]. rewrite fupd_s. discriminate.
  - (* swap *)
    destruct (vdead W e n) eqn:D; [discriminate|]. destruct (vdead W e m) eqn:D'; [discriminate|].
    cbn [andb negb] in V. injection V as <-. destruct (agree_nd _ _ _ (A n) D) as (u & E).
    destruct (agree_nd _ _ _ (A m) D') as (v & E'). unfold swap. destruct (n =? m) eqn:NM.
    + apply Nat.eqb_eq in NM; subst. exists st. split; auto. split; auto. split; auto. intros k. now rewrite vput_self.
    + apply Nat.eqb_neq in NM. rewrite E, E'. cbn [obind]. eexists; split; [reflexivity|].
      destruct (swap_ok st n m u v I T NM E E') as (I1 & T1 & S1 & V1 & V2). set (st1 := seto W _ m (Some u)) in *.
      assert (EN : objs st1 n = Some v) by (unfold st1; cbn [seto objs]; rewrite fupd_o by auto; apply fupd_s).
      assert (EM : objs st1 m = Some u) by (unfold st1; cbn [seto objs]; apply fupd_s).
      split; auto. split; auto. apply (rel_put2 st st1); auto.
      * eapply (agree_view st st1 n m); eauto. congruence.
      * eapply (agree_view st st1 m n); eauto. congruence.
  - (* resize *)
    destruct (vdead W e n) eqn:D; [discriminate|]. injection V as <-. destruct (agree_nd _ _ _ (A n) D) as (u & E).
    destruct (resize_ok st n u size I E) as (st1 & old & R & I1 & S1 & O1 & H1 & C1). exists st1. split; auto. split; auto.
    destruct H1 as (b & B1 & B2 & B3). split.
    + apply (counted_upd st st1 n T); auto. rewrite B1, E, C1. cbn [bytes sz]. lia.
    + apply (rel_put st st1); auto. cbn [agree1]. congruence.
  - (* a write *)
    pose proof (A n) as An. destruct (e n) as [| |s wd ws] eqn:En; try discriminate.
    destruct (i <? length ws) eqn:L; [|discriminate]. injection V as <-. apply Nat.ltb_lt in L. cbn [agree1] in An.
    destruct (view_words _ _ _ _ _ I An) as [(all & (b & B1 & B2 & B3) & X)|(_ & -> & _)]; [|cbn in L; lia].
    assert (LW : length ws = words s) by (rewrite X, firstn_length; lia).
    destruct (modw_ok st n _ b all i (fun _ => w) I B1 eq_refl B2) as (y & st1 & Y & M & I1 & S1 & O1 & C1 & B1'); [lia|].
    exists st1. split; auto. split; auto. split.
    + unfold counted. rewrite C1. apply (tot_ext (fun k => bytes (objs st k))); [intros; now rewrite O1|exact T].
    + apply (rel_put st st1); auto. cbn [agree1].
      rewrite (holds_view st1 n s wd (firstn i all ++ w :: skipn (S i) all)).
      * rewrite upd_firstn by lia. now rewrite X.
      * exists b. rewrite O1, upd_len by lia. auto.
  - (* destructor *)
    destruct (vdead W e n) eqn:D; [discriminate|]. injection V as <-. destruct (agree_nd _ _ _ (A n) D) as (u & E).
    unfold clear. rewrite E. cbn [obind].
    set (bk := match dt u with Some b => fupd (blk st) b None | None => blk st end).
    assert (F : free_mem W st (dt u) = Some (mkivm W bk (nxt st) (objs st) (cnt st))).
    { unfold free_mem, bk. destruct (dt u) as [b|] eqn:Q; [|now destruct st].
      destruct (iData _ I n u b E Q) as (ws & B & _). rewrite B. reflexivity. }
    rewrite F. cbn [obind]. eexists; split; [reflexivity|].
    set (st1 := if words (sz u) =? 0 then _ else _). set (st2 := seto W st1 n None).
    assert (Q1 : blk st2 = bk) by (unfold st2, st1; destruct (words (sz u) =? 0); reflexivity).
    assert (Q2 : nxt st2 = nxt st) by (unfold st2, st1; destruct (words (sz u) =? 0); reflexivity).
    assert (Q3 : forall k, objs st2 k = fupd (objs st) n None k).
    { intros k. unfold st2, st1; cbn [objs]. destruct (words (sz u) =? 0); cbn [setc seto objs]; unfold fupd; destruct (k =? n); auto. }
    assert (Q4 : cnt st2 = (cnt st - bytes (Some u))%Z).
    { unfold st2, st1. destruct (words (sz u) =? 0) eqn:Z; cbn [setc seto cnt bytes]; [apply Nat.eqb_eq in Z; rewrite Z|]; lia. }
    clearbody st2.
    assert (BK : forall m o b, m <> n -> objs st m = Some o -> dt o = Some b -> bk b = blk st b).
    { intros m o b M H H'. unfold bk. destruct (dt u) as [b0|] eqn:Q; auto. apply fupd_o. intros ->. apply M. eapply (iOne _ I); eauto. }
    assert (BS : forall b, bk b <> None -> blk st b <> None /\ dt u <> Some b).
    { intros b. unfold bk. destruct (dt u) as [b0|] eqn:Q; [|split; auto; discriminate].
      destruct (Nat.eq_dec b b0) as [->|M]; [rewrite fupd_s; tauto|]. rewrite fupd_o by auto. split; auto. congruence. }
    split; [|split].
    + destruct I as [N DD O C X]. constructor; rewrite ?Q1, ?Q2.
      * intros k o. rewrite Q3. destruct (Nat.eq_dec k n) as [->|K]; [rewrite fupd_s; discriminate|rewrite fupd_o by auto; eauto].
      * intros k o b. rewrite Q3. destruct (Nat.eq_dec k n) as [->|K]; [rewrite fupd_s; discriminate|rewrite fupd_o by auto].
        intros H H'. rewrite (BK k o b) by auto. eauto.
      * intros k o k' o' b. rewrite !Q3. destruct (Nat.eq_dec k n) as [->|K]; [rewrite fupd_s; discriminate|rewrite fupd_o by auto].
        destruct (Nat.eq_dec k' n) as [->|K']; [rewrite fupd_s; discriminate|rewrite fupd_o by auto]. eauto.
      * intros b B. destruct (BS b B) as [B1 B2]. destruct (C b B1) as (k & o & H & H'). exists k, o. rewrite Q3, fupd_o; auto. intros ->. congruence.
      * intros b B. destruct (BS b B) as [B1 _]. auto.
    + apply (counted_upd st st2 n T).
      * intros m M. rewrite Q3. now rewrite fupd_o.
      * rewrite Q3, fupd_s, E, Q4. cbn [bytes]. lia.
    + apply (rel_put st st2); auto.
      * intros k K. split; [rewrite Q3; now rewrite fupd_o|]. intros o b H H'. rewrite Q1. eauto.
      * cbn [agree1]. rewrite Q3. apply fupd_s.
Qed.

Theorem steps_ok l : forall st e e', rel st e -> vsems W e l = Some e' -> exists st', vexecs W w0 junk mask st l = Some st' /\ rel st' e'.
Proof.
  induction l as [|o l IH]; intros st e e' R V; cbn [vsems vexecs] in *; [injection V as <-; eauto|].
  destruct (vsem W e o) as [e1|] eqn:Q; [|discriminate]. cbn [obind] in V.
  destruct (step_ok st e o e1 R Q) as (st1 & X & R1). rewrite X. cbn [obind]. eauto.
Qed.
Lemma rel_start : rel (no_vectors W) (no_vecs W).
Proof.
  split; [|split].
  - constructor; cbn; try discriminate; congruence.
  - intros l _ _. unfold no_vectors; cbn. unfold sumz. induction l; cbn; auto. 
  - intros n. reflexivity.
Qed.
(** *** what resize keeps *)
Lemma nth_upd {A} (l : list A) i j v : i < length l -> j <> i -> nth_error (firstn i l ++ v :: skipn (S i) l) j = nth_error l j.
Proof.
  intros L N. destruct (Nat.lt_ge_cases j i).
  - rewrite nth_error_app1 by (rewrite firstn_length; lia). rewrite <- (firstn_skipn i l) at 2. now rewrite nth_error_app1 by (rewrite firstn_length; lia).
  - rewrite nth_error_app2 by (rewrite firstn_length; lia). rewrite firstn_length, Nat.min_l by lia.
    destruct (j - i) as [|d] eqn:D; [lia|]. cbn [nth_error]. rewrite <- (firstn_skipn (S i) l) at 2.
    rewrite nth_error_app2 by (rewrite firstn_length; lia). rewrite firstn_length, Nat.min_l by lia. f_equal. lia.
Qed.
Lemma nth_upd_same {A} (l : list A) i v : i < length l -> nth_error (firstn i l ++ v :: skipn (S i) l) i = Some v.
Proof.
  intros L. rewrite nth_error_app2 by (rewrite firstn_length; lia). rewrite firstn_length, Nat.min_l, Nat.sub_diag by lia. reflexivity.
Qed.
Lemma nth_fit k (l : list W) i x : nth_error l i = Some x -> i < k -> nth_error (fit W junk k l) i = Some x.
Proof.
  intros X L. assert (B : i < length l) by (apply nth_error_Some; congruence). unfold fit.
  rewrite nth_error_app1 by (rewrite firstn_length; lia). rewrite <- (firstn_skipn k l) in X.
  now rewrite nth_error_app1 in X by (rewrite firstn_length; lia).
Qed.
Lemma modw_inv st n o b ws i f st' : objs st n = Some o -> dt o = Some b -> blk st b = Some ws -> modw W st n i f = Some st' ->
  objs st' = objs st /\ i < length ws /\ exists w, nth_error ws i = Some w /\ blk st' b = Some (firstn i ws ++ f w :: skipn (S i) ws).
Proof.
  intros E D B. unfold modw. rewrite E. cbn [obind]. rewrite D. cbn [obind]. rewrite B. cbn [obind].
  destruct (nth_error ws i) as [w|] eqn:Q; [|discriminate]. cbn [obind]. intros H; injection H as <-.
  split; auto. split; [apply nth_error_Some; congruence|]. exists w. split; auto. cbn [setb blk]. apply fupd_s.
Qed.
Lemma resize_keeps st n s w all size st' : holds st n s w all -> resize W w0 junk mask st n size = Some st' ->
  exists ws', holds st' n size w ws' /\ forall i x, nth_error all i = Some x -> i < words size ->
    exists y, nth_error ws' i = Some y /\ (y = x \/ i = size / 64 /\ y = mask (size mod 64) x).
Proof.
  intros (b & E & B & L) R. unfold resize in R. rewrite E in R. cbn [obind dt sz wd] in R.
  rewrite orb_false_r in R. destruct (negb (words s =? words size)) eqn:Q.
  - unfold realloc_mem, free_mem in R. rewrite B in R. cbn [obind fst snd] in R.
    set (st1 := seto W _ n _) in R.
    assert (O1 : objs st1 n = Some (mkiv size w (Some (nxt st)))) by apply fupd_s.
    assert (B1 : blk st1 (nxt st) = Some (fit W junk ((size + 64) / 64) all)) by (unfold st1; cbn [seto blk setb nxt]; apply fupd_s).
    clearbody st1. set (ws1 := fit W junk _ all) in *.
    assert (L1 : length ws1 = (size + 64) / 64) by apply fit_len.
    assert (N1 : forall i x, nth_error all i = Some x -> i < words size -> nth_error ws1 i = Some x).
    { intros i x X I. apply nth_fit; auto. unfold words in I. lia. }
    destruct (if size <? 64 * words size then _ else _) as [st2|] eqn:R2 in R; [|discriminate]. cbn [obind] in R.
    assert (T : objs st2 n = objs st1 n /\ exists ws2, blk st2 (nxt st) = Some ws2 /\ length ws2 = length ws1 /\
       forall i x, nth_error all i = Some x -> i < words size -> exists y, nth_error ws2 i = Some y /\ (y = x \/ i = size / 64 /\ y = mask (size mod 64) x)).
    { destruct (size <? 64 * words size).
      - destruct (modw_inv _ _ _ _ _ _ _ _ O1 eq_refl B1 R2) as (O2 & LL & y & Y & B2). split; [now rewrite O2|]. eexists. split; [exact B2|].
        split; [now apply upd_len|]. intros i x X I. pose proof (N1 i x X I) as Z. destruct (Nat.eq_dec i (size / 64)) as [->|NE].
        + rewrite nth_upd_same by auto. eexists; split; [reflexivity|]. right. split; auto. congruence.
        + rewrite nth_upd by auto. eauto.
      - injection R2 as <-. split; auto. exists ws1. split; auto. split; auto. intros i x X I. exists x. auto. }
    destruct T as (O2 & ws2 & B2 & L2 & N2). rewrite O1 in O2.
    destruct (if size mod 64 =? 0 then _ else _) as [st3|] eqn:R3 in R; [|discriminate]. cbn [obind] in R.
    assert (T : objs st3 n = objs st2 n /\ exists ws3, blk st3 (nxt st) = Some ws3 /\ length ws3 = length ws2 /\
       forall i, i < words size -> nth_error ws3 i = nth_error ws2 i).
    { destruct (size mod 64 =? 0) eqn:M.
      - destruct (modw_inv _ _ _ _ _ _ _ _ O2 eq_refl B2 R3) as (O3 & LL & y & Y & B3). split; [now rewrite O3|]. eexists. split; [exact B3|].
        split; [now apply upd_len|]. intros i I. apply nth_upd; auto. apply Nat.eqb_eq in M. unfold words in I. lia.
      - injection R3 as <-. split; auto. exists ws2. auto. }
    destruct T as (O3 & ws3 & B3 & L3 & N3). rewrite O2 in O3. injection R as <-. exists ws3. split.
    + exists (nxt st). cbn [setc objs blk]. repeat split; auto. rewrite L3, L2, L1. unfold words. lia.
    + intros i x X I. rewrite N3 by auto. auto.
  - injection R as <-. apply negb_false_iff, Nat.eqb_eq in Q. exists all. split.
    + exists b. cbn [seto objs blk]. rewrite fupd_s. repeat split; auto. lia.
    + intros i x X I. exists x. auto.
Qed.
End P.
