(** * Proofs about CoderFib.v: the main loop of decode_prefix_sum and the final statements. *)
From Coq Require Import NArith List Bool Arith Lia.
From Verif Require Import Base Tables Bits SpecBits BitsProofs BitsProofs2 BitsProofs3 BitsProofs4 BitsMem IntVector AbsVec WtBase WtProofs Coder CoderProofs CoderProofs3 CoderProofs4 SpecCoder SpecFib CoderFib CoderFibProofs CoderFibProofs2 CoderFibProofs3.
Import ListNotations.

Lemma sum_app : forall a b, sum_list (a ++ b) = (sum_list a + sum_list b)%N.
Proof. induction a; intros; auto. cbn [app sum_list fold_right]. fold (sum_list (a0 ++ b)) (sum_list a0). rewrite IHa. lia. Qed.
Lemma sum_cons : forall x t, sum_list (x :: t) = (x + sum_list t)%N.
Proof. auto. Qed.
Lemma bs_firstn : forall m P c L, (forall k, k < length c -> mbit m (P + k) = nth k c false) -> L <= length c -> bs m P L = firstn L c.
Proof.
  intros m P c L H HL. rewrite <- (bs_is m P c H). replace (length c) with (L + (length c - L)) by lia. rewrite bs_app.
  rewrite firstn_app, bs_length, Nat.sub_diag, firstn_all2 by (rewrite bs_length; auto). cbn [firstn]. rewrite app_nil_r. auto.
Qed.
Lemma cw_first0 : forall c L, cw c -> L < length c -> fst (greedy11 false (firstn L c)) = 0.
Proof.
  intros c L C H. apply (cw_prefix _ (skipn L c)). { rewrite firstn_skipn. auto. }
  intro Q. apply (f_equal (@length bool)) in Q. rewrite skipn_length in Q. simpl in Q. lia.
Qed.
Lemma modadd : forall a b c, (b mod W64 = c mod W64)%N -> ((a + b) mod W64 = (a + c) mod W64)%N.
Proof. intros. rewrite <- (N.add_mod_idemp_r a b), H, N.add_mod_idemp_r by apply W64_nz. auto. Qed.
Lemma codes_split : forall xs m P q L, codes fcode m P xs q -> P + L <= q ->
  exists cs ys zs r, xs = ys ++ zs /\ Forall cw cs /\ bs m P L = concat cs ++ r /\ fst (greedy11 false r) = 0 /\
    codes fcode m (P + length (concat cs)) zs q /\ (sum_list ys mod W64 = sumfv cs mod W64)%N.
Proof.
  induction xs as [|x t IH]; intros m P q L K H; simpl in K.
  - subst. exists [], [], [], []. assert (L = 0) by lia. subst. cbn. rewrite Nat.add_0_r. repeat split; auto.
  - destruct K as [s [[c [C1 [C2 [C3 [C4 C5]]]]] K]]. destruct (Nat.lt_ge_cases L (length c)).
    + exists [], [], (x :: t), (bs m P L). cbn [app concat length]. rewrite Nat.add_0_r. repeat split; auto.
      * rewrite (bs_firstn m P c) by (auto; lia). apply cw_first0; auto.
      * simpl. exists s. split; auto. exists c. auto.
    + subst s. destruct (IH m (P + length c) q (L - length c) K ltac:(lia)) as [cs [ys [zs [r [I1 [I2 [I3 [I4 [I5 I6]]]]]]]]].
      exists (c :: cs), (x :: ys), zs, r. cbn [concat app]. rewrite I1. repeat split; auto.
      * replace L with (length c + (L - length c)) by lia. rewrite bs_app, bs_is, I3, app_assoc by auto. auto.
      * rewrite app_length, Nat.add_assoc. auto.
      * rewrite sum_cons. cbn [sumfv fold_right]. fold (sumfv cs). rewrite C5. rewrite N.add_mod_idemp_l by apply W64_nz. apply modadd. auto.
Qed.
(** [k] codewords 11 *)
Lemma codes_ones : forall k xs m P q, codes fcode m P xs q -> P + 2 * k <= q -> (forall j, j < 2 * k -> mbit m (P + j) = true) ->
  exists ys, codes fcode m (P + 2 * k) ys q /\ sum_list xs = (N.of_nat k + sum_list ys)%N.
Proof.
  induction k; intros xs m P q K L B.
  { exists xs. cbn [Nat.mul]. rewrite Nat.add_0_r. split; auto. }
  destruct xs as [|x t]; simpl in K; [lia|]. destruct K as [s [[c [C1 [C2 [C3 [C4 C5]]]]] K]].
  assert (c = [true; true]).
  { pose proof (cw_len _ C1). destruct c as [|b0 [|b1 c]]; cbn [length] in *; try lia.
    pose proof (C4 0 ltac:(lia)) as X0. pose proof (C4 1 ltac:(lia)) as X1. rewrite B in X0, X1 by lia. cbn [nth] in X0, X1. subst b0 b1.
    inversion C1; auto. }
  subst c. cbn [length] in *. destruct (IHk t m s q K ltac:(lia)) as [ys [Y1 Y2]]. { intros. subst s. rewrite <- Nat.add_assoc. apply B. lia. }
  exists ys. split. { replace (P + 2 * S k) with (s + 2 * k) by lia. auto. }
  rewrite sum_cons, Y2, C5. change (fv 0 (removelast [true; true]) mod W64)%N with 1%N. lia.
Qed.
Lemma fp_fill_ok : forall fuel m d read b btd P q, words_ok m -> read < 64 -> b <= 64 -> b + btd = q - P -> P <= q -> q <= 64 * length m ->
  (0 < btd -> 64 * d + read = P + b) ->
  (if (64 <=? b) || (btd =? 0) then 1 else if read =? 0 then 2 else 3) <= fuel ->
  exists d' read' b' btd', fp_fill fuel m d read b btd (field m P b) = Some (d', read', b', btd', field m P b') /\
    read' < 64 /\ b' <= 64 /\ b' + btd' = q - P /\ (0 < btd' -> 64 * d' + read' = P + b') /\ (b' = 64 \/ btd' = 0).
Proof.
  induction fuel as [|f IH]; intros m d read b btd P q Hm Hr Hb Es PQ Hq Hp F.
  { destruct ((64 <=? b) || (btd =? 0)); [lia|]. destruct (read =? 0); lia. }
  cbn [fp_fill]. destruct (Nat.ltb_spec b 64).
  2:{ exists d, read, b, btd. cbn [andb]. repeat split; auto; lia. }
  destruct (Nat.ltb_spec 0 btd).
  2:{ exists d, read, b, btd. cbn [andb]. repeat split; auto; lia. }
  cbn [andb]. specialize (Hp H0). rewrite ld_some by lia. cbn [obind]. rewrite shl_c_some by lia. cbn [obind].
  rewrite fill_word by (auto; lia). replace ((64 <=? b) || (btd =? 0)) with false in F. 2:{ destruct (Nat.leb_spec 64 b); [lia|]. destruct (Nat.eqb_spec btd 0); [lia|]. auto. }
  assert (LM : forall b1 b2, b2 <= b1 -> N.land (field m P b1) (lo_set b2) = field m P b2).
  { intros b1 b2 Hb2. apply tb_ext. intros k. rewrite tb_land, tb_lo_set, !tb_field. destruct (Nat.ltb_spec k b2); rewrite ?andb_true_r, ?andb_false_r; auto. replace (k <? b1) with true by lia. auto. }
  destruct (Nat.leb_spec b read).
  - destruct (Nat.ltb_spec btd (64 - read)).
    + rewrite LM by lia. destruct f; [destruct (read =? 0); lia|]. cbn [fp_fill]. rewrite andb_false_r.
      exists (d + 1), 0, (b + (64 - read) - (64 - read - btd)), 0. repeat split; auto; lia.
    + destruct (IH m (d + 1) 0 (b + (64 - read)) (btd - (64 - read)) P q) as [d' [r' [b' [t' [R A]]]]]; auto; try lia.
      { destruct (Nat.eqb_spec read 0); cbn [Nat.eqb]. { replace (64 <=? b + (64 - read)) with true by lia. cbn [orb]. lia. }
        destruct ((64 <=? b + (64 - read)) || (btd - (64 - read) =? 0)); lia. }
      exists d', r', b', t'. auto.
  - destruct (Nat.ltb_spec btd (64 - b)).
    + rewrite LM by lia. destruct f; [destruct (read =? 0); lia|]. cbn [fp_fill]. rewrite andb_false_r.
      exists d, (read + (64 - b)), (64 - (64 - b - btd)), 0. repeat split; auto; lia.
    + destruct (IH m d (read + (64 - b)) 64 (btd - (64 - b)) P q) as [d' [r' [b' [t' [R A]]]]]; auto; try lia.
      { cbn [Nat.leb orb]. destruct (read =? 0); lia. }
      exists d', r', b', t'. auto.
Qed.
(** ** decoding several values at once *)
Lemma fp_ones_ok : forall m P b V xs q, codes fcode m P xs q -> b <= 64 -> P + b <= q ->
  exists b' P' V' ys, fp_ones b (field m P b) (V mod W64) = Some (b', field m P' b', V' mod W64)%N /\ P' + b' = P + b /\ P <= P' /\
    codes fcode m P' ys q /\ ((V + sum_list xs) mod W64 = (V' + sum_list ys) mod W64)%N /\ (b' = b \/ b' = b - 24) /\ b' <= b /\ (b' < b -> 24 <= b).
Proof.
  intros m P b V xs q K Hb L. unfold fp_ones. destruct (N.eqb_spec (N.land (field m P b) 16777215) 16777215).
  - change 16777215%N with (N.ones (N.of_nat 24)) in e.
    assert (T : forall j, j < 24 -> j < b /\ mbit m (P + j) = true).
    { intros j Hj. assert (X : tb (N.land (field m P b) (N.ones (N.of_nat 24))) j = true). { rewrite e, tb_ones. lia. }
      rewrite tb_land, tb_ones, tb_field in X. destruct (Nat.ltb_spec j b); cbn [andb] in X; [|discriminate]. split; auto. destruct (mbit m (P + j)); auto. }
    pose proof (T 23 ltac:(lia)) as [B23 _].
    destruct (codes_ones 12 xs m P q K ltac:(lia)) as [ys [Y1 Y2]]. { intros. apply T. lia. }
    rewrite (csub_some _ 24 (b - 24)) by lia. cbn [obind]. rewrite shr_field by lia. rewrite wadd_m.
    exists (b - 24), (P + 24), (V + 12)%N, ys. split; auto. split; [lia|]. split; [lia|]. split; auto. split; [|lia].
    f_equal. rewrite Y2. change (N.of_nat 12) with 12%N. lia.
  - exists b, P, V, xs. repeat split; auto; lia.
Qed.
Lemma fp_multi_ok : forall m P b V xs q, codes fcode m P xs q -> b <= 64 -> P + b <= q ->
  exists b' P' V' ys, fp_multi b (field m P b) (V mod W64) = Some (b', field m P' b', V' mod W64)%N /\ P' + b' = P + b /\ P <= P' /\
    codes fcode m P' ys q /\ ((V + sum_list xs) mod W64 = (V' + sum_list ys) mod W64)%N /\ (b = 64 -> 16 <= b').
Proof.
  intros m P b V xs q K Hb L. unfold fp_multi.
  destruct (fp_ones_ok m P b V xs q K Hb L) as [b1 [P1 [V1 [y1 [R1 [E1 [L1 [K1 [S1 [D1 [N1 M1]]]]]]]]]]]. rewrite R1. cbn [obind].
  destruct (N.land (field m P b) 16777215 =? 16777215)%N.
  - destruct (fp_ones_ok m P1 b1 V1 y1 q K1 ltac:(lia) ltac:(lia)) as [b2 [P2 [V2 [y2 [R2 [E2 [L2 [K2 [S2 [D2 [N2 M2]]]]]]]]]]].
    exists b2, P2, V2, y2. split; [exact R2|]. clear R1 R2. split; [clear - E1 E2; lia|]. split; [clear - L1 L2; lia|]. split; [exact K2|]. split; [congruence|]. clear - D1 D2; lia.
  - exists b1, P1, V1, y1. split; [reflexivity|]. clear R1. split; [exact E1|]. split; [exact L1|]. split; [exact K1|]. split; [exact S1|]. clear - D1; lia.
Qed.
(** the state after a round: [c] is what is left of a codeword, if any *)
Definition st_ok (m : mem) (P q : nat) (i : nat) (xs : list N) (S : N) : Prop :=
  (i = 0 /\ codes fcode m P xs q /\ S = sum_list xs) \/
  (0 < i /\ exists c ys, cw_at m P c /\ 12 * i + length c <= 93 /\ codes fcode m (P + length c) ys q /\ S = (fv (12 * i) (removelast c) + sum_list ys)%N).
Ltac nl := repeat match goal with
  | H : @eq N _ _ |- _ => clear H | H : @eq (option _) _ _ |- _ => clear H | H : @eq (list _) _ _ |- _ => clear H
  | H : codes _ _ _ _ _ |- _ => clear H | H : Forall _ _ |- _ => clear H | H : st_ok _ _ _ _ _ _ |- _ => clear H | H : words_ok _ |- _ => clear H
  | H : cw _ |- _ => clear H end; lia.
Lemma fp_greedy_ok : forall fuel m P b V xs q btd, codes fcode m P xs q -> b <= 64 -> b + btd = q - P -> P <= q -> (16 <= b \/ btd = 0) -> b < 2 * fuel ->
  (xs = [] /\ exists w v, fp_greedy fuel b (field m P b) (V mod W64) = Some (None, w, v, 1) /\ v = (V mod W64)%N /\ btd = 0) \/
  (xs <> [] /\ exists P' b' V' i S ys, fp_greedy fuel b (field m P b) (V mod W64) = Some (Some b', field m P' b', (V' mod W64)%N, i) /\ P < P' /\ P' + b' = P + b /\
    st_ok m P' q i ys S /\ ((V + sum_list xs) mod W64 = (V' + S) mod W64)%N /\ (0 < i -> 0 < b')).
Proof.
  induction fuel as [|f IH]; intros m P b V xs q btd K Hb Es PQ Hx F; [nl|].
  destruct xs as [|x0 xs0].
  { left. split; auto. simpl in K. assert (b = 0) by nl. assert (btd = 0) by nl. subst b. cbn [fp_greedy]. change (field m P 0) with 0%N.
    assert (fib_g16 (N.land 0 65535) = Some 0%N) as -> by (vm_compute; reflexivity). cbn [obind]. change (0 <? N.to_nat (N.shiftr 0 11)) with false. cbn iota.
    assert (fib_t95 0 (N.land 0 4095) = Some 0%N) as -> by (vm_compute; reflexivity). cbn [obind]. do 2 eexists. split; [reflexivity|]. split; auto.
    rewrite wadd_m. f_equal. nl. }
  right. split; [discriminate|]. remember (x0 :: xs0) as xs eqn:EX.
  destruct (codes_split xs m P q (Nat.min 16 b) K ltac:(nl)) as [cs [ys [zs [r [I1 [I2 [I3 [I4 [I5 I6]]]]]]]]].
  assert (LL : length (concat cs ++ r) = Nat.min 16 b). { rewrite <- I3. apply bs_length. }
  destruct (fib_g16_ok cs r I2 I4 ltac:(nl)) as [temp [T1 [T2 T3]]].
  cbn [fp_greedy]. change 65535%N with (N.ones (N.of_nat 16)). rewrite field_bs, land_first.
  assert (E16 : firstn 16 (bs m P b) = concat cs ++ r).
  { rewrite <- I3. destruct (Nat.le_gt_cases 16 b).
    - replace b with (16 + (b - 16)) at 1 by nl. rewrite bs_app, firstn_app, bs_length, Nat.sub_diag. rewrite firstn_all2 by (rewrite bs_length; auto). cbn [firstn]. rewrite app_nil_r. f_equal. nl.
    - rewrite firstn_all2 by (rewrite bs_length; nl). f_equal. nl. }
  rewrite E16, T1. cbn [obind]. rewrite T2, T3, Nat2N.id. rewrite <- field_bs.
  rewrite app_length in LL. rewrite wadd_m.
  assert (SS : ((V + sum_list xs) mod W64 = (V + sumfv cs + sum_list zs) mod W64)%N).
  { rewrite I1, sum_app. replace (V + (sum_list ys + sum_list zs))%N with (V + sum_list zs + sum_list ys)%N by nl. replace (V + sumfv cs + sum_list zs)%N with (V + sum_list zs + sumfv cs)%N by nl. apply modadd. auto. }
  destruct (Nat.ltb_spec 0 (length (concat cs))).
  - assert (G2' : 2 <= length (concat cs)).
    { destruct cs as [|c0 cs']; [cbn [concat length] in H; nl|]. inversion I2; subst. cbn [concat]. rewrite app_length. pose proof (cw_len _ H2). nl. }
    rewrite (csub_some _ (length (concat cs)) (b - length (concat cs))) by nl. cbn [obind]. rewrite shr_field by nl.
    destruct (Nat.ltb_spec 15 (b - length (concat cs))).
    + destruct (IH m (P + length (concat cs)) (b - length (concat cs)) (V + sumfv cs)%N zs q btd I5 ltac:(nl) ltac:(nl) ltac:(nl) ltac:(nl) ltac:(nl)) as [[Z _]|[_ G]].
      { exfalso. subst zs. simpl in I5. nl. }
      destruct G as [P' [b' [V' [i [S [y' [R [G1 [G2 [G3 [G4 G5]]]]]]]]]]]. exists P', b', V', i, S, y'. split; [exact R|]. split; [nl|]. split; [nl|]. split; auto. split; auto. rewrite SS. auto.
    + exists (P + length (concat cs)), (b - length (concat cs)), (V + sumfv cs)%N, 0, (sum_list zs), zs. split; auto. split; [nl|]. split; [nl|]. split; [left; auto|]. split; auto. nl.
  - assert (CN : concat cs = []). { destruct (concat cs); auto. simpl in H. nl. }
    rewrite CN in *. cbn [app length] in *. subst xs. simpl in K. destruct K as [s [[c [C1 [C2 [C3 [C4 C5]]]]] K]].
    assert (LC : Nat.min 16 b < length c).
    { destruct (Nat.lt_ge_cases (Nat.min 16 b) (length c)); auto. exfalso. rewrite <- I3 in I4.
      replace (Nat.min 16 b) with (length c + (Nat.min 16 b - length c)) in I4 by nl. rewrite bs_app, bs_is, cw_greedy in I4 by auto. discriminate. }
    pose proof (f_le _ _ _ _ K).
    assert (B16 : 16 <= b) by nl.
    rewrite field_bs, (fib_t95_mid _ 0 c); auto; try nl.
    2:{ intros i Hi. rewrite nth_bs, C4 by nl. replace (i <? b) with true by nl. auto. }
    cbn [obind]. rewrite <- field_bs, (csub_some _ 12 (b - 12)) by nl. rewrite shr_field by nl. rewrite wadd_m, N.add_mod_idemp_r by apply W64_nz.
    exists (P + 12), (b - 12), (V + fv (12 * 0) (firstn 12 c))%N, 1, (fv (12 * 1) (removelast (skipn 12 c)) + sum_list xs0)%N, [].
    split; auto. split; [nl|]. split; [nl|]. split.
    + right. split; [nl|]. exists (skipn 12 c), xs0. split. { apply cw_at_skip; [split; auto|nl]. } rewrite skipn_length. split; [nl|]. split; auto.
      replace (P + 12 + (length c - 12)) with s by nl. auto.
    + split; [|nl]. rewrite sum_cons, C5. rewrite removelast_skip by nl. rewrite fv_app, firstn_length. replace (0 + Nat.min 12 (length c)) with (12 * 1) by nl. change (12 * 0) with 0.
      replace (V + fv 0 (firstn 12 c) + (fv (12 * 1) (removelast (skipn 12 c)) + sum_list xs0))%N with (V + sum_list xs0 + (fv 0 (firstn 12 c) + fv (12 * 1) (removelast (skipn 12 c))))%N by nl.
      replace (V + ((fv 0 (firstn 12 c) + fv (12 * 1) (removelast (skipn 12 c))) mod W64 + sum_list xs0))%N with (V + sum_list xs0 + (fv 0 (firstn 12 c) + fv (12 * 1) (removelast (skipn 12 c))) mod W64)%N by nl.
      apply N.add_mod_idemp_r. apply W64_nz.
Qed.
Lemma fp_loop_ok : forall fuel m d read b btd P q V i xs S, words_ok m -> read < 64 -> b <= 64 -> b + btd = q - P -> P < q -> q <= 64 * length m ->
  (0 < btd -> 64 * d + read = P + b) -> st_ok m P q i xs S -> q - P < fuel ->
  fp_loop fuel m d read b btd (field m P b) (V mod W64) i = Some ((V + S) mod W64)%N.
Proof.
  induction fuel as [|f IH]; intros m d read b btd P q V i xs S Hm Hr Hb Es PQ Hq Hp St F; [nl|].
  cbn [fp_loop].
  destruct (fp_fill_ok 3 m d read b btd P q) as [d1 [r1 [b1 [t1 [R [Hr1 [Hb1 [Es1 [Hp1 Fu]]]]]]]]]; auto; try nl.
  { destruct ((64 <=? b) || (btd =? 0)); [nl|]. destruct (read =? 0); nl. }
  rewrite R. cbn [obind].
  assert (NEXT : forall P' b' V' i' ys S', P < P' -> P' + b' = P + b1 -> st_ok m P' q i' ys S' -> ((V + S) mod W64 = (V' + S') mod W64)%N -> (0 < i' -> 0 < b') ->
     (if (0 <? t1) || (0 <? b') then fp_loop f m d1 r1 b' t1 (field m P' b') (V' mod W64) i' else Some (V' mod W64)%N) = Some ((V + S) mod W64)%N).
  { intros P' b' V' i' ys S' HP HB HS HV HI. destruct ((0 <? t1) || (0 <? b')) eqn:C.
    - rewrite HV. apply (IH m d1 r1 b' t1 P' q V' i' ys S'); auto; try nl.
    - apply orb_false_iff in C. destruct C as [C1 C2]. apply Nat.ltb_ge in C1, C2. destruct HS as [[H1 [H2 H3]]|[H1 _]]; [|nl].
      rewrite HV. f_equal. f_equal. subst S'. destruct ys as [|y ys]. { cbn [sum_list fold_right]. nl. }
      exfalso. apply f_le in H2. simpl in H2. nl. }
  destruct St as [[-> [K ES]]|[Hi [c [ys [C [FT [K ES]]]]]]].
  - cbn [Nat.eqb]. destruct (fp_multi_ok m P b1 V xs q K Hb1 ltac:(nl)) as [b2 [P2 [V2 [y2 [R2 [E2 [L2 [K2 [S2 D2]]]]]]]]]. rewrite R2. cbn [obind].
    pose proof (f_le _ _ _ _ K2) as LK2.
    destruct (fp_greedy_ok 33 m P2 b2 V2 y2 q t1 K2 ltac:(nl) ltac:(nl) ltac:(nl)) as [[Z G]|[NZ G]].
    + nl.
    + nl.
    + destruct G as [w [v [G1 [G2 G3]]]]. rewrite G1. cbn [obind]. rewrite G3. cbn [Nat.ltb Nat.leb]. rewrite G2, ES, S2, Z. cbn [sum_list fold_right]. rewrite N.add_0_r. reflexivity.
    + destruct G as [P3 [b3 [V3 [i3 [S3 [y3 [G1 [G2 [G3 [G4 [G5 G6]]]]]]]]]]]. rewrite G1. cbn [obind]. apply (NEXT P3 b3 V3 i3 y3 S3); auto; try nl. rewrite ES, S2. auto.
  - replace (i =? 0) with false by nl. pose proof C as [CC CB]. pose proof (cw_len _ CC) as CL. pose proof (f_le _ _ _ _ K) as LK.
    assert (NB : forall j, j < length c -> j < b1 -> nth j (bs m P b1) false = nth j c false).
    { intros. rewrite nth_bs, CB by auto. replace (j <? b1) with true by nl. auto. }
    destruct (Nat.le_gt_cases (length c) 13) as [S13|L13].
    + rewrite field_bs, (fib_t95_end _ _ c); auto. 2:{ intros. apply NB; auto. nl. }
      cbn [obind]. rewrite (fib_shift_end _ c); auto; rewrite ?bs_length; try nl. 2:{ intros. apply NB; auto. nl. }
      cbn [obind]. rewrite <- field_bs. replace (0 <? length c) with true by nl. rewrite (csub_some _ (length c) (b1 - length c)) by nl. cbn [obind].
      rewrite shr_field by nl. rewrite wadd_m, N.add_mod_idemp_r by apply W64_nz.
      apply (NEXT (P + length c) (b1 - length c) _ 0 ys (sum_list ys)); try nl. { left. auto. } rewrite ES. f_equal. nl.
    + rewrite field_bs, (fib_t95_mid _ _ c); auto. 2:{ intros. apply NB; nl. }
      cbn [obind]. rewrite (fib_shift_mid _ c); auto; rewrite ?bs_length; try nl. 2:{ intros. apply NB; nl. }
      cbn [obind]. rewrite <- field_bs. replace (0 <? 0) with false by reflexivity. rewrite (csub_some _ 12 (b1 - 12)) by nl. cbn [obind].
      rewrite shr_field by nl. rewrite wadd_m, N.add_mod_idemp_r by apply W64_nz.
      apply (NEXT (P + 12) (b1 - 12) _ (i + 1) [] (fv (12 * (i + 1)) (removelast (skipn 12 c)) + sum_list ys)%N); try nl.
      * right. split; [nl|]. exists (skipn 12 c), ys. split. { apply cw_at_skip; auto. } rewrite skipn_length. split; [nl|]. split; auto.
        replace (P + 12 + (length c - 12)) with (P + length c) by nl. auto.
      * rewrite ES. rewrite (removelast_skip c) by auto. rewrite fv_app, firstn_length. replace (12 * i + Nat.min 12 (length c)) with (12 * (i + 1)) by nl. f_equal. nl.
Qed.
