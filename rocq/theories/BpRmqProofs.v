(** * rmq of bp_support_sada: the last position of the minimal excess *)
From Coq Require Import NArith ZArith List Bool Arith Lia.
From Verif Require Import Base SpecBits AbsVec WtBase WtProofs Bp BpProofs BpProofs2 BpProofs3 BpProofs4 BpRmq.
Import ListNotations.
Open Scope nat_scope.

(** p is the last position in [a, b) whose excess is the minimum e *)
Definition lastarg (f : nat -> bool) (a b : nat) (e : Z) (p : nat) : Prop :=
  a <= p < b /\ ex f (S p) = e /\ (forall k, a <= k < b -> (e <= ex f (S k))%Z) /\ (forall k, p < k < b -> (e < ex f (S k))%Z).

Lemma la_unique : forall f a b e p e' p', lastarg f a b e p -> lastarg f a b e' p' -> e = e' /\ p = p'.
Proof.
  intros f a b e p e' p' (A1 & A2 & A3 & A4) (B1 & B2 & B3 & B4). pose proof (A3 p' B1). pose proof (B3 p A1). assert (E : e = e') by lia. split; auto. subst e'.
  destruct (Nat.lt_trichotomy p p') as [L|[L|L]]; auto; [specialize (A4 p' ltac:(lia))|specialize (B4 p ltac:(lia))]; lia.
Qed.
Lemma la_one : forall f a, lastarg f a (S a) (ex f (S a)) a.
Proof. intros. split; [lia|]. split; auto. split; intros k K; [replace k with a by lia; lia|lia]. Qed.
Lemma la_snoc : forall f a b e p, lastarg f a b e p -> if (ex f (S b) <=? e)%Z then lastarg f a (S b) (ex f (S b)) b else lastarg f a (S b) e p.
Proof.
  intros f a b e p (A1 & A2 & A3 & A4). destruct (Z.leb_spec (ex f (S b)) e).
  - split; [lia|]. split; auto. split; intros k K; [|lia]. destruct (Nat.eq_dec k b) as [->|]; [lia|]. pose proof (A3 k ltac:(lia)). lia.
  - split; [lia|]. split; auto. split; intros k K; (destruct (Nat.eq_dec k b) as [->|]; [lia|]); [apply A3|apply A4]; lia.
Qed.
Lemma la_ex : forall f a k, exists e p, lastarg f a (a + S k) e p.
Proof.
  intros f a. induction k.
  - exists (ex f (S a)), a. replace (a + 1) with (S a) by lia. apply la_one.
  - destruct IHk as (e & p & H). apply la_snoc in H. rewrite <- plus_n_Sm. destruct (ex f (S (a + S k)) <=? e)%Z; eauto.
Qed.
Lemma la_merge : forall f a b b' c e p e' p', lastarg f a b e p -> lastarg f b' c e' p' -> a <= b' <= b -> b <= c ->
  if (e' <=? e)%Z then lastarg f a c e' p' else lastarg f a c e p.
Proof.
  intros f a b b' c e p e' p' (A1 & A2 & A3 & A4) (B1 & B2 & B3 & B4) L1 L2. destruct (Z.leb_spec e' e).
  - split; [lia|]. split; auto. split; intros k K.
    + destruct (Nat.lt_ge_cases k b); [pose proof (A3 k ltac:(lia)); lia|apply B3; lia].
    + apply B4. lia.
  - split; [lia|]. split; auto. split; intros k K; (destruct (Nat.lt_ge_cases k b); [|pose proof (B3 k ltac:(lia)); lia]); [apply A3|apply A4]; lia.
Qed.
Lemma la_sub : forall f a b e p a' b', lastarg f a b e p -> a <= a' <= p -> p < b' <= b -> lastarg f a' b' e p.
Proof. intros f a b e p a' b' (A1 & A2 & A3 & A4) L1 L2. split; [lia|]. split; auto. split; intros k K; [apply A3|apply A4]; lia. Qed.
Lemma la_rmn : forall f base a b, a < b -> (ex f (S a) <= base)%Z -> exists p, lastarg f a b (rmn f base a b) p.
Proof.
  intros f base a b L H. destruct (la_ex f a (b - a - 1)) as (e & p & A). replace (a + S (b - a - 1)) with b in A by lia. exists p.
  replace (rmn f base a b) with e; auto. destruct A as (A1 & A2 & A3 & A4). pose proof (rmn_le f base a b (S p) ltac:(lia)).
  pose proof (rmn_le f base a b (S a) ltac:(lia)). destruct (rmn_in f base a b) as [E|(q & Q & E)].
  - pose proof (A3 a ltac:(lia)). lia.
  - pose proof (A3 (q - 1) ltac:(lia)) as X. replace (S (q - 1)) with q in X by lia. lia.
Qed.

Section N.
Variable g : padding.
Variable bp : list bool.
Let f := xb g bp.
Variable l : nat.
Notation El := (ex f (S l)).

Lemma nr_scan_ok : forall k a mn mp, l < a -> a + k <= cap bp -> lastarg f l a (mn + El) mp ->
  exists mn' mp', nr_scan g bp (seq a k) (ex f a - El) mn mp = Some ((ex f (a + k) - El)%Z, mn', mp') /\ lastarg f l (a + k) (mn' + El) mp'.
Proof.
  induction k; intros a mn mp L C H; cbn [seq nr_scan].
  { rewrite Nat.add_0_r. eauto. }
  rewrite rd_some by lia. cbn [obind]. fold f. pose proof (ex_S f a) as ES. pose proof (la_snoc _ _ _ _ _ H) as SN. replace (a + S k) with (S a + k) by lia.
  destruct (f a) eqn:E; cbn [stp] in ES.
  - replace (ex f a - El + 1)%Z with (ex f (S a) - El)%Z by lia. apply IHk; try lia. destruct (Z.leb_spec (ex f (S a)) (mn + El)); auto. exfalso.
    pose proof (proj1 (proj2 (proj2 H)) (a - 1) ltac:(lia)) as X. replace (S (a - 1)) with a in X by lia. lia.
  - replace (ex f a - El - 1)%Z with (ex f (S a) - El)%Z by lia. destruct (Z.leb_spec (ex f (S a) - El) mn).
    + apply IHk; try lia. rewrite (proj2 (Z.leb_le _ _)) in SN by lia. replace (ex f (S a) - El + El)%Z with (ex f (S a)) by lia. auto.
    + apply IHk; try lia. rewrite (proj2 (Z.leb_gt _ _)) in SN by lia. auto.
Qed.
Lemma min_scan_ok : forall k a0 a pos mn mp c, a0 < a -> pos = a - a0 -> lastarg f a0 a (mn + c) (a0 + mp) ->
  exists mn' mp', min_scan (map f (seq a k)) pos (ex f a - c) mn mp = (mn', mp') /\ lastarg f a0 (a + k) (mn' + c) (a0 + mp').
Proof.
  induction k; intros a0 a pos mn mp c L -> H; cbn [seq map min_scan].
  { rewrite Nat.add_0_r. eauto. }
  pose proof (la_snoc _ _ _ _ _ H) as SN. replace (a + S k) with (S a + k) by lia. replace (ex f a - c + stp (f a))%Z with (ex f (S a) - c)%Z by (rewrite ex_S; lia).
  destruct (Z.leb_spec (ex f (S a) - c) mn).
  - apply IHk; try lia. rewrite (proj2 (Z.leb_le _ _)) in SN by lia. replace (ex f (S a) - c + c)%Z with (ex f (S a)) by lia. replace (a0 + (a - a0)) with a by lia. auto.
  - apply IHk; try lia. rewrite (proj2 (Z.leb_gt _ _)) in SN by lia. auto.
Qed.
Lemma min_info_ok : forall a, exists x p, min_info (map f (seq a 8)) = (x, p) /\ lastarg f a (a + 8) (x + ex f a) (a + p).
Proof.
  intros a. unfold min_info. change (seq a 8) with (a :: seq (S a) 7). cbn [map min_scan].
  assert (S8 : (0 + stp (f a) <=? 8)%Z = true) by (destruct (f a); reflexivity). rewrite S8. replace (a + 8) with (S a + 7) by lia.
  pose proof (min_scan_ok 7 a (S a) (0 + 1) (0 + stp (f a)) 0 (ex f a)) as M. replace (ex f (S a) - ex f a)%Z with (0 + stp (f a))%Z in M by (rewrite ex_S; lia).
  apply M; try lia. replace (0 + stp (f a) + ex f a)%Z with (ex f (S a)) by (rewrite ex_S; lia). rewrite Nat.add_0_r. apply la_one.
Qed.
Lemma nr_bytes_ok : forall k a mn mp, l < a -> a + 8 * k <= cap bp -> lastarg f l a (mn + El) mp ->
  exists mn' mp', nr_bytes g bp k a (ex f a - El) mn mp = Some ((ex f (a + 8 * k) - El)%Z, mn', mp') /\ lastarg f l (a + 8 * k) (mn' + El) mp'.
Proof.
  induction k; intros a mn mp L C H; cbn [nr_bytes].
  { rewrite Nat.mul_0_r, Nat.add_0_r. eauto. }
  rewrite rd8_some by lia. cbn [obind]. fold f. destruct (min_info_ok a) as (x & p & -> & M). pose proof (wsum g bp a) as WS. fold f in WS. rewrite WS.
  replace (a + 8 * S k) with (a + 8 + 8 * k) by lia. replace (ex f a - El + (ex f (a + 8) - ex f a))%Z with (ex f (a + 8) - El)%Z by lia.
  pose proof (la_merge _ _ _ _ _ _ _ _ _ H M ltac:(lia) ltac:(lia)) as MG. destruct (Z.leb_spec (ex f a - El + x) mn).
  - apply IHk; try lia. rewrite (proj2 (Z.leb_le _ _)) in MG by lia. replace (ex f a - El + x + El)%Z with (x + ex f a)%Z by lia. auto.
  - apply IHk; try lia. rewrite (proj2 (Z.leb_gt _ _)) in MG by lia. auto.
Qed.
Lemma near_rmq_ok : forall r, l <= r < length bp -> exists p mn, near_rmq g bp l r = Some (p, mn) /\ lastarg f l (r + 1) (mn + El) p.
Proof.
  intros r R. unfold near_rmq. set (l8 := (l + 1 + 7) / 8 * 8). set (r8 := r / 8 * 8).
  pose proof (up8 (l + 1)) as U. fold l8 in U. pose proof (dn8 r) as D. fold r8 in D. pose proof (cap_n bp) as CN.
  assert (M8 : 8 * ((r8 - l8) / 8) = r8 - l8).
  { unfold r8, l8. rewrite <- Nat.mul_sub_distr_r. rewrite Nat.div_mul by lia. lia. }
  destruct (nr_scan_ok (Nat.min l8 (r + 1) - (l + 1)) (l + 1) 0 l) as (mn & mp & E1 & A1); try lia.
  { replace (0 + El)%Z with El by lia. replace (l + 1) with (S l) by lia. apply la_one. }
  replace (ex f (l + 1) - El)%Z with 0%Z in E1 by (replace (l + 1) with (S l) by lia; lia). rewrite E1. cbn [obind].
  destruct (Nat.le_gt_cases l8 r) as [L|L].
  - replace (l + 1 + (Nat.min l8 (r + 1) - (l + 1))) with l8 in * by lia.
    destruct (nr_bytes_ok ((r8 - l8) / 8) l8 mn mp) as (mn2 & mp2 & E2 & A2); try lia; auto. rewrite E2. cbn [obind]. rewrite M8 in *.
    assert (L8 : l8 <= r8). { assert (Q : l8 / 8 <= r / 8) by (apply Nat.div_le_mono; lia). unfold l8 in Q. rewrite Nat.div_mul in Q by lia. unfold l8, r8. lia. }
    replace (l8 + (r8 - l8)) with r8 in * by lia.
    destruct (nr_scan_ok (r + 1 - Nat.max l8 r8) r8 mn2 mp2) as (mn3 & mp3 & E3 & A3); try lia; auto.
    replace (seq (Nat.max l8 r8) (r + 1 - Nat.max l8 r8)) with (seq r8 (r + 1 - Nat.max l8 r8)) by (f_equal; lia). rewrite E3. cbn [obind]. replace (r8 + (r + 1 - Nat.max l8 r8)) with (r + 1) in A3 by lia. eauto.
  - replace ((r8 - l8) / 8) with 0 by lia. cbn [nr_bytes obind]. replace (r + 1 - Nat.max l8 r8) with 0 by lia. cbn [seq nr_scan obind].
    replace (l + 1 + (Nat.min l8 (r + 1) - (l + 1))) with (r + 1) in A1 by lia. eauto.
Qed.
End N.
