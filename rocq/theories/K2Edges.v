(** * k2_tree: construction from edges *)
From Coq Require Import List Arith Bool Lia NArith.
From Verif Require Import Base AbsVec FnArr WtBase WtProofs SpecK2 K2Tree K2Proofs K2Build K2Sort.
Import ListNotations.

Lemma f2_length : forall {A B} (R : A -> B -> Prop) a b, Forall2 R a b -> length a = length b.
Proof. induction 1; cbn; auto. Qed.

Section E.
Variables (P : nat -> nat -> bool) (k n : nat).
Hypothesis K : 1 < k.
Notation ne := (ne P k). Notation bits := (bits P k). Notation next := (next P k). Notation chd := (chd k). Notation KK := (k * k).
Definition inb (d : nat) (rc e : nat * nat) : bool :=
  (fst rc <=? fst e) && (fst e <? fst rc + k ^ d) && (snd rc <=? snd e) && (snd e <? snd rc + k ^ d).
Lemma inb_iff : forall d rc e, inb d rc e = true <-> fst rc <= fst e < fst rc + k ^ d /\ snd rc <= snd e < snd rc + k ^ d.
Proof. intros. unfold inb. rewrite !andb_true_iff, !Nat.leb_le, !Nat.ltb_lt. tauto. Qed.
(* the queue entry of a block: its slice holds exactly the edges in the block *)
Definition eok (ef : nat -> nat * nat) (d : nat) (q : ent) (rc : nat * nat) : Prop :=
  exists i j, q = (i, j, k ^ d, fst rc, snd rc) /\ i < j <= n /\ forall e, (exists x, i <= x < j /\ ef x = e) <-> (P (fst e) (snd e) = true /\ inb (S d) rc e = true).
Definition ceb (d : nat) (rc e : nat * nat) : nat := (fst e - fst rc) / k ^ d * k + (snd e - snd rc) / k ^ d.
Lemma ceb_valid : forall d rc e, inb (S d) rc e = true -> chunk_idx (fst e) (snd e) (snd rc) (fst rc) (k ^ d) k = Some (ceb d rc e) /\ ceb d rc e < KK.
Proof.
  intros d rc e H. apply inb_iff in H. unfold chunk_idx. pose proof (kpos k K d) as KP. destruct (Nat.eqb_spec (k ^ d) 0); [lia|]. rewrite (csub_some _ _ (fst e - fst rc)) by lia. cbn [obind]. rewrite (csub_some _ _ (snd e - snd rc)) by lia. cbn [obind]. split; auto.
  unfold ceb. pose proof (dig k K d (fst e - fst rc) ltac:(lia)) as A. pose proof (dig k K d (snd e - snd rc) ltac:(lia)) as B. revert A B. generalize ((fst e - fst rc) / k ^ d) ((snd e - snd rc) / k ^ d). clear. intros a b A B. nia.
Qed.
Lemma ceb_chd : forall d rc e it, inb (S d) rc e = true -> it < KK -> (ceb d rc e = it <-> inb d (chd d rc it) e = true).
Proof.
  intros d [r c] [u v] it H I. apply inb_iff in H. cbn [fst snd] in H. rewrite inb_iff. unfold ceb, K2Proofs.chd. cbn [fst snd]. pose proof (kpos k K d) as KP.
  pose proof (dig k K d (u - r) ltac:(lia)) as A. pose proof (dig k K d (v - c) ltac:(lia)) as B. pose proof (Nat.div_mod it k ltac:(lia)) as DM. pose proof (Nat.mod_upper_bound it k ltac:(lia)) as MB.
  pose proof (Nat.div_mod (u - r) (k ^ d) ltac:(lia)) as DU. pose proof (Nat.div_mod (v - c) (k ^ d) ltac:(lia)) as DV. pose proof (Nat.mod_upper_bound (u - r) (k ^ d) ltac:(lia)) as MU. pose proof (Nat.mod_upper_bound (v - c) (k ^ d) ltac:(lia)) as MV.
  revert A B DM MB DU DV MU MV. generalize ((u - r) / k ^ d) ((v - c) / k ^ d) ((u - r) mod k ^ d) ((v - c) mod k ^ d) (it / k) (it mod k). intros a b mu mv x y A B DM MB DU DV MU MV.
  assert (HH : r <= u /\ c <= v) by lia. clear H. revert DU DV MU MV KP. generalize (k ^ d). clear - K A B DM MB HH. intros m DU DV MU MV KP. split.
  - intros E. assert (a = x /\ b = y) as [-> ->]; [|split; nia]. assert (k * a + b = k * x + y) by lia. clear - H B MB. split; [|]. { destruct (Nat.lt_trichotomy a x) as [|[|]]; auto; nia. } destruct (Nat.lt_trichotomy a x) as [|[|]]; nia.
  - intros [E1 E2]. assert (a = x). { destruct (Nat.lt_trichotomy a x) as [|[|]]; auto; nia. } assert (b = y). { destruct (Nat.lt_trichotomy b y) as [|[|]]; auto; nia. } subst. lia.
Qed.
Lemma chd_sub : forall d rc e it, it < KK -> inb d (chd d rc it) e = true -> inb (S d) rc e = true.
Proof.
  intros d [r c] [u v] it I H. apply inb_iff in H. apply inb_iff. unfold K2Proofs.chd in H. cbn [fst snd] in *. assert (X : it / k < k) by (apply Nat.div_lt_upper_bound; lia). pose proof (Nat.mod_upper_bound it k ltac:(lia)) as Y. cbn [Nat.pow]. revert X Y H. generalize (it / k) (it mod k) (k ^ d). clear. intros. nia.
Qed.
Lemma ne_inb : forall d rc, ne d rc = true <-> exists e, P (fst e) (snd e) = true /\ inb d rc e = true.
Proof. intros d [r c]. rewrite (ne_iff P k K). split. { intros (x & y & X & Y & E). exists (x, y). rewrite inb_iff. auto. } intros ([x y] & E & H). apply inb_iff in H. cbn [fst snd] in *. exists x, y. tauto. Qed.
Lemma filter_pos : forall {A} (g : A -> bool) l, length (filter g l) <> 0 <-> exists a, In a l /\ g a = true.
Proof.
  intros A g l. split.
  - intros H. destruct (filter g l) as [|a r] eqn:E; [cbn in H; lia|]. exists a. apply filter_In. rewrite E. left. auto.
  - intros (a & I & E) Z. assert (X : In a (filter g l)) by (apply filter_In; auto). destruct (filter g l); [destruct X|discriminate].
Qed.
Definition pair_eqb (a b : nat * nat) : bool := (fst a =? fst b) && (snd a =? snd b).
Lemma pair_eqb_iff : forall a b, pair_eqb a b = true <-> a = b.
Proof. intros [a b] [c d]. unfold pair_eqb. cbn [fst snd]. rewrite andb_true_iff, !Nat.eqb_eq. split. { intros [-> ->]. auto. } intros E. inversion E. auto. Qed.

Section Node.
Variables (ef : nat -> nat * nat) (d i j : nat) (rc : nat * nat).
Hypothesis OK : eok ef d (i, j, k ^ d, fst rc, snd rc) rc.
Notation acn := (ac i j ef (ceb d rc)). Notation Sn := (Sx i j ef (ceb d rc)).
Lemma node_ij : i < j <= n /\ forall e, (exists x, i <= x < j /\ ef x = e) <-> (P (fst e) (snd e) = true /\ inb (S d) rc e = true).
Proof. destruct OK as (a & b & E & L & H). inversion E; subst. split; auto. Qed.
Lemma node_v0 : forall x, i <= x < j -> inb (S d) rc (ef x) = true.
Proof. intros x X. destruct node_ij as [L H]. apply (H (ef x)). exists x. auto. Qed.
Lemma node_amounts : amounts k (farr n ef) (seq i (j - i)) (k ^ d) (fst rc) (snd rc) (repeat 0 KK) = Some (farr KK acn).
Proof. destruct node_ij as [L H]. apply (amounts_all k n i j _ _ _ ef (ceb d rc) (inb (S d) rc)); [lia|apply ceb_valid|apply node_v0]. Qed.
Lemma node_bits : forall it, it < KK -> negb (acn it =? 0) = ne d (chd d rc it).
Proof.
  intros it I. destruct node_ij as [L H]. apply eq_true_iff_eq. rewrite negb_true_iff, Nat.eqb_neq, ne_inb. unfold ac. rewrite filter_pos. split.
  - intros (x & X & E). apply in_seq in X. apply Nat.eqb_eq in E. exists (ef x). split. { apply (H (ef x)). exists x. split; auto; lia. } apply ceb_chd; auto. apply node_v0. lia.
  - intros (e & PE & IE). pose proof (chd_sub _ _ _ _ I IE) as IB. destruct (proj2 (H e) (conj PE IB)) as (x & X & E). exists x. split. { apply in_seq. lia. } apply Nat.eqb_eq. rewrite E. apply ceb_chd; auto.
Qed.
Lemma node_map : map (fun x => negb (x =? 0)) (farr KK acn) = bits d [rc].
Proof. unfold K2Proofs.bits, allch, chs, farr. cbn [flat_map]. rewrite app_nil_r, !map_map. apply map_ext_in. intros it I. apply in_seq in I. apply node_bits. lia. Qed.
Definition child (it : nat) : ent := (Sn it, Sn (it + 1), k ^ d / k, fst rc + it / k * k ^ d, snd rc + it mod k * k ^ d).
Lemma node_Sk : Sn KK = j.
Proof. destruct node_ij as [L H]. apply (SxK k n i j (k ^ d) (fst rc) (snd rc) ef (ceb d rc) (inb (S d) rc)); [lia|apply ceb_valid|apply node_v0]. Qed.
Lemma pushes_ok : forall m s, s + m = KK -> pushes k (farr KK acn) (farr KK Sn) (seq s m) j (k ^ d) (fst rc) (snd rc) = Some (map child (filter (fun it => ne d (chd d rc it)) (seq s m))).
Proof.
  induction m as [|m IH]; intros s E; auto. cbn [seq pushes filter]. rewrite farr_nth_error by lia. cbn [obind]. rewrite IH by lia. cbn [obind]. rewrite node_bits by lia. destruct (ne d (chd d rc s)); auto. rewrite farr_nth_error by lia. cbn [obind].
  assert (X : nth_error (farr KK Sn ++ [j]) (s + 1) = Some (Sn (s + 1))). { destruct (Nat.eq_dec (s + 1) KK) as [Z|Z]. { rewrite nth_error_app2 by (rewrite farr_length; lia). rewrite farr_length, Z, Nat.sub_diag, node_Sk. auto. } rewrite nth_error_app1 by (rewrite farr_length; lia). apply farr_nth_error. lia. }
  rewrite X. cbn [obind map]. auto.
Qed.
End Node.

Fixpoint chain (q : list ent) (a b : nat) : Prop :=
  match q with [] => a = b | (i, j, l, r, c) :: q' => i = a /\ i < j /\ chain q' j b end.
Lemma chain_app : forall p q a b c, chain p a b -> chain q b c -> chain (p ++ q) a c.
Proof. induction p as [|[[[[i j] l] r] c0] p IH]; intros q a b c H1 H2; cbn [chain app] in *. { subst. auto. } destruct H1 as (A & B & C). split; auto. split; auto. eapply IH; eauto. Qed.
Lemma chain_len : forall q a b, chain q a b -> a + length q <= b.
Proof. induction q as [|[[[[i j] l] r] c] q IH]; intros a b H; cbn [chain length] in *. lia. destruct H as (A & B & C). specialize (IH _ _ C). lia. Qed.
Lemma put_bits_ok : forall a t w m, length w = t -> length a <= m -> put_bits a t (w ++ repeat false m) = Some ((w ++ map (fun x => negb (x =? 0)) a) ++ repeat false (m - length a), t + length a).
Proof.
  induction a as [|x a IH]; intros t w m T L; cbn [put_bits map length] in *.
  - rewrite app_nil_r, Nat.sub_0_r, Nat.add_0_r. auto.
  - destruct m as [|m]; [lia|].
    assert (X : (if negb (x =? 0) then aset (w ++ repeat false (S m)) t true else Some (w ++ repeat false (S m))) = Some ((w ++ [negb (x =? 0)]) ++ repeat false m)).
    { rewrite <- app_assoc. cbn [repeat app]. destruct (negb (x =? 0)); auto. rewrite aset_some by (rewrite app_length; cbn; lia). f_equal. rewrite <- T. rewrite upd_app_r by auto. rewrite Nat.sub_diag. auto. }
    rewrite X. cbn [obind]. rewrite (IH (t + 1)) by (try rewrite app_length; cbn; lia). cbn [Nat.sub]. f_equal. f_equal; [|lia]. rewrite <- !app_assoc. cbn [app]. auto.
Qed.
Lemma eok_same : forall ef ef' d q rc, (forall i j, q = (i, j, k ^ d, fst rc, snd rc) -> forall x, i <= x < j -> ef' x = ef x) -> eok ef d q rc -> eok ef' d q rc.
Proof.
  intros ef ef' d q rc H (i & j & E & L & X). exists i, j. split; auto. split; auto. intros e. rewrite <- X. split; intros (x & R & Q); exists x; split; auto. { rewrite <- (H i j E x R). auto. } rewrite (H i j E x R). auto.
Qed.
Lemma chain_in : forall q a b i j l r c, chain q a b -> In (i, j, l, r, c) q -> a <= i /\ j <= b.
Proof. induction q as [|[[[[i0 j0] l0] r0] c0] q IH]; intros a b i j l r c H I; [destruct I|]. cbn [chain] in H. destruct H as (A & B & C). destruct I as [I|I]. { inversion I; subst. pose proof (chain_len _ _ _ C). lia. } specialize (IH _ _ _ _ _ _ _ C I). lia. Qed.
Lemma f2_same : forall ef ef' d q cs a b, chain q a b -> (forall x, a <= x < b -> ef' x = ef x) -> Forall2 (eok ef d) q cs -> Forall2 (eok ef' d) q cs.
Proof.
  intros ef ef' d q cs a b CH H F. induction F as [|e rc q cs X F IH] in a, b, CH, H |- *; constructor.
  - eapply eok_same; [|exact X]. intros i j E x R. apply H. destruct (chain_in _ _ _ i j (k ^ d) (fst rc) (snd rc) CH) as [A B]. { left. auto. } lia.
  - destruct e as [[[[i j] l] r] c]. cbn [chain] in CH. destruct CH as (A & B & C). eapply IH; [exact C|]. intros x X'. apply H. lia.
Qed.
(* the children of a sorted block *)
Lemma children_ok : forall ef d i j rc, eok ef (S d) (i, j, k ^ S d, fst rc, snd rc) rc ->
  exists ef', sort_chunks k (seq 0 KK) (farr KK (ac i j ef (ceb (S d) rc))) i (k ^ S d) (fst rc) (snd rc) (farr KK (Sx i j ef (ceb (S d) rc))) (farr n ef) = Some (farr n ef') /\
    (forall x, ~ (i <= x < j) -> ef' x = ef x) /\
    (let q := map (child ef (S d) i j rc) (filter (fun it => ne (S d) (chd (S d) rc it)) (seq 0 KK)) in
     chain q i j /\ Forall2 (eok ef' d) q (next (S d) [rc])).
Proof.
  intros ef d i j rc OK. destruct (node_ij _ _ _ _ _ OK) as [L H]. pose proof (node_v0 _ _ _ _ _ OK) as V0.
  destruct (sort_ok k n i j (k ^ S d) (fst rc) (snd rc) ef (ceb (S d) rc) (inb (S (S d)) rc) ltac:(lia) (ceb_valid (S d) rc) V0) as (ef' & G & OUT & CNT & SRT).
  exists ef'. split; auto. split; auto. cbn zeta. set (Sn := Sx i j ef (ceb (S d) rc)) in *.
  assert (SS : forall c, Sn (c + 1) = Sn c + ac i j ef (ceb (S d) rc) c) by (intros; apply SxS).
  assert (SK : Sn KK = j) by (apply (node_Sk _ _ _ _ _ OK)).
  assert (S0 : Sn 0 = i) by (apply Sx0).
  assert (MN : forall a b, a <= b -> Sn a <= Sn b) by (intros; apply Sx_mono; auto).
  (* where an edge of sub-block [it] may be *)
  assert (PART : forall x, i <= x < j -> exists c, c < KK /\ Sn c <= x < Sn (c + 1)).
  { intros x X. rewrite <- SK, <- S0 in X. revert X. clear - S0. generalize KK. intros N0. induction N0 as [|m IH]; intros X; [lia|]. destruct (Nat.lt_ge_cases x (Sn m)). { destruct IH as (c & C1 & C2); [lia|]. exists c. lia. } exists m. replace (m + 1) with (S m) by lia. lia. }
  assert (EDG : forall e, (exists x, i <= x < j /\ ef' x = e) <-> (P (fst e) (snd e) = true /\ inb (S (S d)) rc e = true)).
  { intros e. rewrite <- H. pose proof (CNT (pair_eqb e)) as C. assert (forall f, (exists x, i <= x < j /\ f x = e) <-> length (filter (fun x => pair_eqb e (f x)) (seq i (j - i))) <> 0) as T. { intros f. rewrite filter_pos. split; intros (x & X & Y); exists x. { split. apply in_seq; lia. apply pair_eqb_iff. auto. } apply in_seq in X. apply pair_eqb_iff in Y. split; auto; lia. } rewrite !T, C. tauto. }
  assert (CHK : forall it, it < KK -> forall e, (exists x, Sn it <= x < Sn (it + 1) /\ ef' x = e) <-> (P (fst e) (snd e) = true /\ inb (S d) (chd (S d) rc it) e = true)).
  { intros it I e. split.
    - intros (x & X & Y). assert (R : i <= x < j) by (pose proof (MN 0 it ltac:(lia)); pose proof (MN (it + 1) KK ltac:(lia)); lia). destruct (proj1 (EDG e) (ex_intro _ x (conj R Y))) as [PE IB]. split; auto. apply ceb_chd; auto. rewrite <- Y. apply SRT; auto.
    - intros [PE IC]. pose proof (chd_sub _ _ _ _ I IC) as IB. destruct (proj2 (EDG e) (conj PE IB)) as (x & X & Y). destruct (PART x X) as (c & C1 & C2). pose proof (SRT c x C1 C2) as Q. rewrite Y in Q. apply ceb_chd in IC; auto. exists x. split; auto. rewrite <- IC, Q. auto. }
  assert (NB : forall it, it < KK -> negb (ac i j ef (ceb (S d) rc) it =? 0) = ne (S d) (chd (S d) rc it)) by (intros; apply (node_bits _ _ _ _ _ OK); auto).
  assert (GEN : forall m s, s + m = KK -> chain (map (child ef (S d) i j rc) (filter (fun it => ne (S d) (chd (S d) rc it)) (seq s m))) (Sn s) j /\ Forall2 (eok ef' d) (map (child ef (S d) i j rc) (filter (fun it => ne (S d) (chd (S d) rc it)) (seq s m))) (filter (ne (S d)) (map (chd (S d) rc) (seq s m)))).
  { induction m as [|m IH]; intros s E.
    - cbn. replace s with KK by lia. split; auto.
    - destruct (IH (S s) ltac:(lia)) as [I1 I2]. cbn [seq filter map]. pose proof (NB s ltac:(lia)) as NS. pose proof (SS s) as SSs. replace (s + 1) with (S s) in SSs by lia. destruct (ne (S d) (chd (S d) rc s)) eqn:Q.
      + apply negb_true_iff, Nat.eqb_neq in NS. cbn [map chain child]. fold Sn. replace (s + 1) with (S s) by lia. split. { repeat split; auto. lia. } constructor; auto. exists (Sn s), (Sn (s + 1)). replace (s + 1) with (S s) by lia. split.
        { unfold child. rewrite (pow_div k K). fold Sn. replace (s + 1) with (S s) by lia. unfold K2Proofs.chd. cbn [fst snd]. auto. } split. { pose proof (MN (S s) KK ltac:(lia)). lia. } intros e. rewrite <- (CHK s ltac:(lia)). replace (s + 1) with (S s) by lia. tauto.
      + apply negb_false_iff, Nat.eqb_eq in NS. replace (Sn s) with (Sn (S s)) by lia. auto. }
  destruct (GEN KK 0 ltac:(lia)) as [G1 G2]. rewrite S0 in G1. split; auto. unfold K2Proofs.next, allch, chs. cbn [flat_map]. rewrite app_nil_r. auto.
Qed.
Lemma eok_shape : forall ef d i j l r c rc, eok ef d (i, j, l, r, c) rc -> l = k ^ d /\ r = fst rc /\ c = snd rc /\ i < j <= n.
Proof. intros ef d i j l r c rc (a & b & E & L & H). inversion E; subst. auto. Qed.
Lemma bits_cons : forall d rc cs, bits d (rc :: cs) = bits d [rc] ++ bits d cs.
Proof. intros. unfold K2Proofs.bits, allch. cbn [flat_map]. rewrite app_nil_r, map_app. auto. Qed.
Lemma next_cons : forall d rc cs, next d (rc :: cs) = next d [rc] ++ next d cs.
Proof. intros. unfold K2Proofs.next, allch. cbn [flat_map]. rewrite app_nil_r, filter_app. auto. Qed.
(* one inner level *)
Lemma level_ok : forall d A csA B csB ef mid fuel w t m,
  Forall2 (eok ef (S d)) A csA -> Forall2 (eok ef d) B csB -> chain B 0 mid -> chain A mid n -> length A <= fuel -> length w = t -> KK * length A <= m ->
  exists ef' B', bfs k fuel (A ++ B) (mkest (farr n ef) t false (w ++ repeat false m) []) =
    bfs k (fuel - length A) B' (mkest (farr n ef') (t + KK * length A) false ((w ++ bits (S d) csA) ++ repeat false (m - KK * length A)) []) /\
    Forall2 (eok ef' d) B' (csB ++ next (S d) csA) /\ chain B' 0 n.
Proof.
  intros d. induction A as [|q A IH]; intros csA B csB ef mid fuel w t m FA FB CB CA FU T M.
  - inversion FA; subst. cbn [chain] in CA. subst mid. exists ef, B. unfold K2Proofs.bits, K2Proofs.next. cbn [allch flat_map map filter length app]. rewrite !app_nil_r, Nat.mul_0_r, !Nat.sub_0_r, Nat.add_0_r. auto.
  - inversion FA as [|q0 rc A0 cs OK FA' E1 E2]; subst. destruct q as [[[[i j] l] r] c]. destruct (eok_shape _ _ _ _ _ _ _ _ OK) as (-> & -> & -> & L). cbn [chain] in CA. destruct CA as (-> & _ & CA). destruct fuel as [|fuel]; [cbn in FU; lia|].
    cbn [app bfs s_E s_t s_kt s_kl s_last]. rewrite (node_amounts _ _ _ _ _ OK). cbn [obind].
    assert (L1 : k ^ S d <> 1). { pose proof (kpos k K d). cbn [Nat.pow]. nia. } destruct (Nat.eqb_spec (k ^ S d) 1); [contradiction|].
    rewrite (starts_ok k mid j 0 ef (ceb (S d) rc)). cbn [length] in M, FU. rewrite put_bits_ok by (rewrite ?farr_length; auto; lia). cbn [obind snd fst]. rewrite (pushes_ok _ _ _ _ _ OK) by lia. cbn [obind]. destruct (children_ok _ _ _ _ _ OK) as (ef1 & G & OUT & CC & FC). rewrite G. cbn [obind]. rewrite (node_map _ _ _ _ _ OK), farr_length. rewrite <- app_assoc.
    pose proof (chain_len _ _ _ CB) as LB. pose proof (chain_len _ _ _ CA) as LA.
    destruct (IH cs (B ++ map (child ef (S d) mid j rc) (filter (fun it => ne (S d) (chd (S d) rc it)) (seq 0 KK))) (csB ++ next (S d) [rc]) ef1 j fuel (w ++ bits (S d) [rc]) (length w + KK) (m - KK)) as (ef' & B' & H & F' & C').
    + eapply f2_same; [exact CA| |exact FA']. intros x X. apply OUT. lia.
    + apply Forall2_app; auto. eapply f2_same; [exact CB| |exact FB]. intros x X. apply OUT. lia.
    + eapply chain_app; eauto.
    + auto.
    + lia.
    + rewrite app_length, bits_len. cbn [length]. lia.
    + lia.
    + exists ef', B'. split. 2: { split; auto. rewrite next_cons, app_assoc. auto. } rewrite H. cbn [length Nat.sub]. rewrite (bits_cons (S d) rc cs), !app_assoc. replace (m - KK - KK * length A) with (m - KK * S (length A)) by lia. replace (length w + KK + KK * length A) with (length w + KK * S (length A)) by lia. auto.
Qed.
(* the last level, after its first node *)
Lemma last_ok : forall A cs ef fuel w t m tt, Forall2 (eok ef 0) A cs -> length A <= fuel -> length w = t -> KK * length A <= m ->
  bfs k fuel A (mkest (farr n ef) t true tt (w ++ repeat false m)) = Some (mkest (farr n ef) (t + KK * length A) true tt ((w ++ bits 0 cs) ++ repeat false (m - KK * length A))).
Proof.
  induction A as [|q A IH]; intros cs ef fuel w t m tt FA FU T M.
  - inversion FA; subst. unfold K2Proofs.bits. destruct fuel; cbn [bfs allch flat_map map length app]; rewrite app_nil_r, Nat.mul_0_r, !Nat.sub_0_r, Nat.add_0_r; auto.
  - inversion FA as [|q0 rc A0 cs' OK FA' E1 E2]; subst. destruct q as [[[[i j] l] r] c]. destruct (eok_shape _ _ _ _ _ _ _ _ OK) as (-> & -> & -> & L). destruct fuel as [|fuel]; [cbn in FU; lia|].
    cbn [bfs s_E s_t s_kt s_kl s_last]. rewrite (node_amounts _ _ _ _ _ OK). cbn [obind Nat.pow Nat.eqb s_E s_t s_kt s_kl s_last]. cbn [length] in M, FU. rewrite put_bits_ok by (rewrite ?farr_length; auto; lia). cbn [obind snd fst]. rewrite (node_map _ _ _ _ _ OK), farr_length.
    rewrite (IH cs') by (auto; try lia; rewrite app_length, bits_len; cbn [length]; lia). cbn [length]. rewrite (bits_cons 0 rc cs'), !app_assoc. f_equal. f_equal; [lia|]. f_equal. f_equal. lia.
Qed.
Lemma bfs_ok : forall d A cs ef fuel w t m, A <> [] -> Forall2 (eok ef d) A cs -> chain A 0 n -> n * S d <= fuel -> length w = t -> KK * n * S d <= m ->
  exists E' m', bfs k fuel A (mkest (farr n ef) t false (w ++ repeat false m) []) = Some (mkest E' (length (lbits P k d cs)) true (w ++ tbits P k d cs) (lbits P k d cs ++ repeat false m')).
Proof.
  induction d as [|d IH]; intros A cs ef fuel w t m NE FA CA FU T M; pose proof (chain_len _ _ _ CA) as LA; cbn [Nat.add] in LA; pose proof (Nat.mul_le_mono_l _ _ KK LA) as LK.
  - destruct A as [|q A]; [contradiction|]. inversion FA as [|q0 rc A0 cs' OK FA' E1 E2]; subst. destruct q as [[[[i j] l] r] c]. destruct (eok_shape _ _ _ _ _ _ _ _ OK) as (-> & -> & -> & L). destruct fuel as [|fuel]; [cbn in LA; lia|].
    cbn [bfs s_E s_t s_kt s_kl s_last]. rewrite (node_amounts _ _ _ _ _ OK). cbn [obind Nat.pow Nat.eqb s_E s_t s_kt s_kl s_last]. cbn [length] in LA, LK.
    change (repeat false (length (w ++ repeat false m) - length w)) with ([] ++ repeat false (length (w ++ repeat false m) - length w)). rewrite app_length, repeat_length. replace (length w + m - length w) with m by lia. rewrite put_bits_ok by (rewrite ?farr_length; auto; lia). cbn [obind snd fst]. rewrite (node_map _ _ _ _ _ OK), farr_length. cbn [app Nat.add].
    rewrite (last_ok A cs' ef fuel (bits 0 [rc]) KK) by (auto; try lia; rewrite bits_len; cbn [length]; lia).
    eexists _, _. f_equal. cbn [lbits tbits]. rewrite (bits_cons 0 rc cs'), app_length, !bits_len, app_nil_r. cbn [length]. rewrite (f2_length _ _ _ FA'). f_equal; [lia|].
    unfold bresize. rewrite firstn_app, firstn_all2, Nat.sub_diag by auto. rewrite app_length, repeat_length. replace (length w - (length w + m)) with 0 by lia. cbn. rewrite !app_nil_r. auto.
  - destruct (level_ok d A cs [] [] ef 0 fuel w t m FA ltac:(constructor) eq_refl CA) as (ef' & B' & H & FB & CB); auto. { nia. } { nia. }
    rewrite app_nil_r in H. rewrite H. cbn [app] in FB.
    destruct (IH B' (next (S d) cs) ef' (fuel - length A) (w ++ bits (S d) cs) (t + KK * length A) (m - KK * length A)) as (E' & m' & G); auto.
    + intros Z. subst B'. cbn [chain] in CB. destruct A as [|[[[[i j] l] r] c] A]; [contradiction|]. cbn [length] in LA. lia.
    + nia.
    + rewrite app_length, bits_len. rewrite <- (f2_length _ _ _ FA). lia.
    + nia.
    + exists E', m'. rewrite G. cbn [lbits tbits]. rewrite app_assoc. auto.
Qed.
End E.

Theorem edges_rep : forall k h E, 1 < k -> 1 <= h -> E <> [] -> (forall u v, In (u, v) E -> u < k ^ h /\ v < k ^ h) ->
  exists t, k2_from_edges k h E = Some t /\ rep (edge_rel E) k h t.
Proof.
  intros k h E K H1 NE R. unfold k2_from_edges. rewrite (csub_some _ _ (h - 1)) by lia. cbn [obind]. set (ef := fun i => nth i E (0, 0)). replace (mkest E 0) with (mkest (farr (length E) ef) 0) by (f_equal; symmetry; apply farr_of_list).
  assert (LE : 0 < length E) by (destruct E; [contradiction|cbn; lia]).
  assert (OK : eok (edge_rel E) k (length E) ef (h - 1) (0, length E, k ^ (h - 1), 0, 0) (0, 0)).
  { exists 0, (length E). split; auto. split; [lia|]. intros [u v]. rewrite (inb_iff P00). replace (S (h - 1)) with h by lia. unfold edge_rel. cbn [fst snd Nat.add]. rewrite existsb_exists. split.
    - intros (x & X & Q). assert (I : In (u, v) E). { rewrite <- Q. apply nth_In. lia. } destruct (R u v I). split; [|lia]. exists (u, v). cbn [fst snd]. rewrite !Nat.eqb_refl. auto.
    - intros [([a b] & I & Q) _]. apply andb_true_iff in Q. destruct Q as [Q1 Q2]. apply Nat.eqb_eq in Q1, Q2. cbn [fst snd] in *. subst. apply In_nth with (d := (0, 0)) in I. destruct I as (x & X & Y). exists x. split; auto. lia. }
  destruct (bfs_ok (edge_rel E) k (length E) K (h - 1) [(0, length E, k ^ (h - 1), 0, 0)] [(0, 0)] ef (S (length E * h)) [] 0 (k * k * h * length E)) as (E' & m' & G).
  - discriminate.
  - constructor; auto.
  - cbn. auto.
  - replace (S (h - 1)) with h by lia. lia.
  - auto.
  - replace (S (h - 1)) with h by lia. lia.
  - cbn [app] in G. rewrite G. cbn [obind s_kt s_kl s_t]. eexists. split; [reflexivity|]. repeat split; auto. cbn [kl]. unfold bresize. rewrite firstn_app, firstn_all2, Nat.sub_diag by auto. rewrite app_length. replace (_ - (_ + _)) with 0 by lia. cbn. rewrite !app_nil_r. auto.
Qed.
