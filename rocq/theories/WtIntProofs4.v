(** * wt_int: the constructor *)
From Coq Require Import NArith ZArith List Lia Bool Arith Permutation Sorted.
From Verif Require Import BitsProofs2 SdVectorProofs2 SelectSupportProofs3 Base SpecBits RankSelect AbsVec WtBase SpecWt WtProofs WtInt WtIntProofs WtIntProofs2.
Import ListNotations.

(** ** the word-wise bit writer *)
Definition twi (t : twr) (l : list bool) : Prop :=
  tw_pos t = length l /\ length (tw_out t) = length l / 64 /\
  (forall p, p < 64 * length (tw_out t) -> mbit (tw_out t) p = nth p l false) /\
  (forall k, tb (tw_word t) k = (k <? length l mod 64) && nth (64 * (length l / 64) + k) l false).

Lemma twi_new : twi tw_new [].
Proof. unfold twi. split; [reflexivity|]. split; [reflexivity|]. split; intros. { cbn in H. lia. } { cbn [tw_word tw_new]. rewrite tb_0. reflexivity. } Qed.
Lemma mbit_app : forall m1 m2 p, p < 64 * length m1 -> mbit (m1 ++ m2) p = mbit m1 p.
Proof. intros. unfold mbit. rewrite app_nth1; auto. apply Nat.div_lt_upper_bound; lia. Qed.
Lemma mbit_last : forall m x k, k < 64 -> mbit (m ++ [x]) (64 * length m + k) = tb x k.
Proof.
  intros. unfold mbit. rewrite (Nat.mul_comm 64), Nat.div_add_l by lia. rewrite (Nat.div_small k) by auto.
  rewrite (Nat.add_comm _ k), Nat.mod_add, Nat.mod_small by lia. rewrite app_nth2 by lia. replace (length m + 0 - length m) with 0 by lia. auto.
Qed.
Lemma tw_emit_ok : forall t l b, twi t l -> exists t', tw_emit t b = Some t' /\ twi t' (l ++ [b]).
Proof.
  intros t l b (A & B & C & D).
  assert (W : exists word, (if b then let* m := shl_c 1 (tw_pos t mod 64) in Some (N.lor (tw_word t) m) else Some (tw_word t)) = Some word /\
     forall k, tb word k = (k <? length l mod 64 + 1) && nth (64 * (length l / 64) + k) (l ++ [b]) false).
  { rewrite A. pose proof (Nat.mod_upper_bound (length l) 64 ltac:(lia)) as MB. pose proof (Nat.div_mod (length l) 64 ltac:(lia)) as DM.
    set (q := length l / 64) in *. set (r := length l mod 64) in *.
    assert (G : forall k, (k <? r + 1) && nth (64 * q + k) (l ++ [b]) false = if k =? r then b else (k <? r) && nth (64 * q + k) l false).
    { intros. destruct (Nat.eqb_spec k r).
      - subst k. rewrite app_nth2 by lia. replace (64 * q + r - length l) with 0 by lia. destruct (Nat.ltb_spec r (r + 1)); [auto|lia].
      - destruct (Nat.ltb_spec k r); destruct (Nat.ltb_spec k (r + 1)); try lia; auto. rewrite app_nth1 by lia. auto. }
    destruct b.
    - rewrite shl_c_pow by auto. cbn [obind]. eexists. split; [reflexivity|]. intros. rewrite tb_lor, D, G.
      unfold tb at 1. rewrite N.pow2_bits_eqb. destruct (Nat.eqb_spec k r).
      + subst. rewrite N.eqb_refl, orb_true_r. auto.
      + destruct (N.eqb_spec (N.of_nat r) (N.of_nat k)); [lia|]. now rewrite orb_false_r.
    - eexists. split; [reflexivity|]. intros. rewrite D, G. destruct (Nat.eqb_spec k r); auto. subst. now rewrite Nat.ltb_irrefl. }
  destruct W as (word & W1 & W2). unfold tw_emit. rewrite W1. cbn [obind]. rewrite A.
  pose proof (Nat.mod_upper_bound (length l) 64 ltac:(lia)) as MB. pose proof (Nat.div_mod (length l) 64 ltac:(lia)) as DM.
  pose proof (Nat.mod_upper_bound (length l + 1) 64 ltac:(lia)) as MB1. pose proof (Nat.div_mod (length l + 1) 64 ltac:(lia)) as DM1.
  set (q := length l / 64) in *. set (r := length l mod 64) in *. set (q1 := (length l + 1) / 64) in *. set (r1 := (length l + 1) mod 64) in *.
  destruct (Nat.eqb_spec r1 0) as [Z|Z].
  - assert (q1 = q + 1 /\ r = 63) by lia. eexists. split; [reflexivity|]. unfold twi. cbn [tw_pos tw_out tw_word].
    rewrite !app_length. cbn [length]. fold q1 r1. repeat split; try lia.
    + intros p Hp. destruct (Nat.lt_ge_cases p (64 * q)).
      * rewrite mbit_app by lia. rewrite C by lia. rewrite app_nth1; auto. lia.
      * replace p with (64 * length (tw_out t) + (p - 64 * q)) by lia. rewrite mbit_last by lia. rewrite W2. rewrite B.
        destruct (Nat.ltb_spec (p - 64 * q) (r + 1)); [|lia]. auto.
    + intros. rewrite tb_0, Z. auto.
  - assert (q1 = q /\ r1 = r + 1) by lia. eexists. split; [reflexivity|]. unfold twi. cbn [tw_pos tw_out tw_word].
    rewrite !app_length. cbn [length]. fold q1 r1. replace q1 with q by lia. replace r1 with (r + 1) by lia. repeat split; try lia; auto.
    intros. rewrite C by auto. rewrite app_nth1; auto. lia.
Qed.
Lemma tw_close_ok : forall t l, twi t l -> tw_close t (length l) = Some l.
Proof.
  intros t l (A & B & C & D). unfold tw_close. rewrite A.
  pose proof (Nat.mod_upper_bound (length l) 64 ltac:(lia)) as MB. pose proof (Nat.div_mod (length l) 64 ltac:(lia)) as DM.
  set (q := length l / 64) in *. set (r := length l mod 64) in *.
  set (out := if r =? 0 then tw_out t else tw_out t ++ [tw_word t]).
  assert (LO : length out = (length l + 63) / 64).
  { unfold out. destruct (Nat.eqb_spec r 0). rewrite B. apply (Nat.div_unique _ 64 q 63); lia.
    rewrite app_length, B. simpl. apply (Nat.div_unique _ 64 (q + 1) (r - 1)); lia. }
  rewrite <- LO, Nat.leb_refl. f_equal. apply (list_nth_ext _ false). { apply mbits_n_length. }
  intros i Hi. rewrite mbits_n_length in Hi.
  rewrite nth_mbits_n by auto. unfold out. destruct (Nat.eqb_spec r 0).
  - apply C. lia.
  - destruct (Nat.lt_ge_cases i (64 * q)).
    + rewrite mbit_app by lia. apply C. lia.
    + replace i with (64 * length (tw_out t) + (i - 64 * q)) by lia. rewrite mbit_last by lia. rewrite D, B.
      destruct (Nat.ltb_spec (i - 64 * q) r); [|lia]. auto.
Qed.

(** ** one node *)
Lemma upd_mid : forall A (a : list A) x y r, upd (a ++ y :: r) (length a) x = a ++ x :: r.
Proof. induction a; simpl; intros; auto. now rewrite IHa. Qed.
Lemma nth_error_mid : forall A (a : list A) x r, nth_error (a ++ x :: r) (length a) = Some x.
Proof. intros. rewrite nth_error_app2, Nat.sub_diag by auto. auto. Qed.
Lemma bput_prefix : forall l x p, firstn (length p) l = p -> firstn (length p + 1) (bput l (length p) x) = p ++ [x].
Proof.
  intros. unfold bput. assert (length p <= length l). { rewrite <- H at 1. rewrite firstn_length. lia. }
  set (l' := l ++ repeat 0%N (length p + 1 - length l)).
  assert (length p < length l') by (unfold l'; rewrite app_length, repeat_length; lia).
  assert (firstn (length p) l' = p). { unfold l'. rewrite firstn_app. replace (length p - length l) with 0 by lia. simpl. now rewrite app_nil_r. }
  rewrite <- (firstn_skipn (length p) l'). rewrite H2. destruct (skipn (length p) l') eqn:E.
  { exfalso. assert (length (skipn (length p) l') = 0) by now rewrite E. rewrite skipn_length in H3. lia. }
  rewrite upd_mid. rewrite firstn_app. rewrite firstn_all2 by lia. replace (length p + 1 - length p) with 1 by lia. auto.
Qed.

Lemma split_len : forall A (f g : A -> bool) T, (forall x, g x = negb (f x)) -> length (filter f T) + length (filter g T) = length T.
Proof. induction T; simpl; intros; auto. specialize (IHT H). rewrite H. destruct (f a); simpl; lia. Qed.

Lemma scan_ok : forall d mold sv Q fuel A Z X R P buf l t,
  (forall x, In x Q -> N.land x mold = sv) -> match R with [] => True | y :: _ => N.land y mold <> sv end ->
  Z = filter (fb false d) P -> length Z + length X = length P -> firstn (length (filter (fb true d) P)) buf = filter (fb true d) P ->
  length Q < fuel -> twi t l ->
  exists X' buf' t', ci_scan fuel (A ++ Z ++ X ++ Q ++ R) buf (length A) (length Z) (length (filter (fb true d) P)) (length A + length P) mold sv (2 ^ N.of_nat d) t =
    Some (A ++ filter (fb false d) (P ++ Q) ++ X' ++ R, buf', length (filter (fb false d) (P ++ Q)), length (filter (fb true d) (P ++ Q)), t') /\
    length (filter (fb false d) (P ++ Q)) + length X' = length (P ++ Q) /\
    firstn (length (filter (fb true d) (P ++ Q))) buf' = filter (fb true d) (P ++ Q) /\
    twi t' (l ++ map (fun x => tb x d) Q).
Proof.
  intros d mold sv. induction Q as [|x Q]; intros fuel A Z X R P buf l t HQ HR HZ HL HB HF HT.
  - destruct fuel; [simpl in HF; lia|]. exists X, buf, t. cbn [ci_scan map]. rewrite !app_nil_r. cbn [app].
    assert (I : length A + length P = length (A ++ Z ++ X)) by (rewrite !app_length; lia).
    split.
    + destruct (Nat.ltb_spec (length A + length P) (length (A ++ Z ++ X ++ R))) as [Y|Y].
      * destruct R as [|y R]. { rewrite !app_length in Y. simpl in Y. lia. }
        rewrite I. replace (A ++ Z ++ X ++ y :: R) with ((A ++ Z ++ X) ++ y :: R) at 1 by now rewrite <- !app_assoc.
        rewrite nth_error_mid. cbn [obind]. destruct (N.eqb_spec (N.land y mold) sv); [contradiction|]. now rewrite HZ.
      * now rewrite HZ.
    + rewrite <- HZ. auto.
  - destruct fuel; [simpl in HF; lia|]. cbn [ci_scan].
    assert (I : length A + length P = length (A ++ Z ++ X)) by (rewrite !app_length; lia).
    destruct (Nat.ltb_spec (length A + length P) (length (A ++ Z ++ X ++ (x :: Q) ++ R))) as [Y|Y].
    2:{ rewrite !app_length in Y. simpl in Y. lia. }
    rewrite I. replace (A ++ Z ++ X ++ (x :: Q) ++ R) with ((A ++ Z ++ X) ++ x :: Q ++ R) by (rewrite <- !app_assoc; auto).
    rewrite nth_error_mid. cbn [obind]. rewrite (HQ x) by (left; auto). rewrite N.eqb_refl. rewrite hit_pow.
    destruct (tw_emit_ok t l (tb x d) HT) as (t' & T1 & T2). rewrite T1. cbn [obind].
    rewrite <- I. replace (length A + length P + 1) with (length A + length (P ++ [x])) by (rewrite app_length; simpl; lia).
    replace (P ++ x :: Q) with ((P ++ [x]) ++ Q) by (rewrite <- app_assoc; auto).
    cbn [map]. replace (l ++ tb x d :: map (fun x => tb x d) Q) with ((l ++ [tb x d]) ++ map (fun x => tb x d) Q) by (rewrite <- app_assoc; auto).
    assert (HQ' : forall y, In y Q -> N.land y mold = sv) by (intros; apply HQ; right; auto).
    destruct (tb x d) eqn:Eb.
    + assert (F1 : filter (fb true d) (P ++ [x]) = filter (fb true d) P ++ [x]). { rewrite filter_app. simpl. now rewrite fb_true, Eb. }
      assert (F0 : filter (fb false d) (P ++ [x]) = filter (fb false d) P). { rewrite filter_app. simpl. rewrite fb_false, Eb. simpl. now rewrite app_nil_r. }
      replace ((A ++ Z ++ X) ++ x :: Q ++ R) with (A ++ Z ++ (X ++ [x]) ++ Q ++ R) by (rewrite <- !app_assoc; auto).
      replace (length (filter (fb true d) P) + 1) with (length (filter (fb true d) (P ++ [x]))) by (rewrite F1, app_length; simpl; lia).
      apply IHQ; auto.
      * now rewrite F0. * rewrite !app_length. simpl. lia.
      * rewrite F1. rewrite app_length. cbn [length]. apply bput_prefix. auto.
      * simpl in HF. lia.
    + assert (F1 : filter (fb true d) (P ++ [x]) = filter (fb true d) P). { rewrite filter_app. simpl. rewrite fb_true, Eb. now rewrite app_nil_r. }
      assert (F0 : filter (fb false d) (P ++ [x]) = filter (fb false d) P ++ [x]). { rewrite filter_app. simpl. rewrite fb_false, Eb. auto. }
      (* the write goes to the first garbage cell or to the cell just read *)
      assert (U : exists X', length X' = length X /\ upd ((A ++ Z ++ X) ++ x :: Q ++ R) (length A + length Z) x = A ++ (Z ++ [x]) ++ X' ++ Q ++ R).
      { destruct X as [|y X].
        - exists []. split; auto. rewrite app_nil_r, <- app_length, upd_mid, <- !app_assoc. auto.
        - exists (X ++ [x]). split. rewrite app_length. simpl. lia.
          replace ((A ++ Z ++ y :: X) ++ x :: Q ++ R) with ((A ++ Z) ++ y :: X ++ x :: Q ++ R) by (rewrite <- !app_assoc; auto).
          rewrite <- app_length, upd_mid, <- !app_assoc. auto. }
      destruct U as (X' & U1 & U2). rewrite aset_some by (rewrite !app_length; simpl; lia). rewrite U2. cbn [obind].
      replace (length Z + 1) with (length (Z ++ [x])) by (rewrite app_length; simpl; lia). rewrite <- F1.
      apply IHQ; auto.
      * rewrite F0. now subst Z. * rewrite !app_length. simpl. lia. * rewrite F1. auto. * simpl in HF. lia.
Qed.

Lemma copy_ok : forall O A buf j X R P, firstn (length P + length O) buf = P ++ O -> j = length P -> length X = length O ->
  ci_copy (A ++ P ++ X ++ R) buf (length A) (seq j (length O)) = Some (A ++ P ++ O ++ R).
Proof.
  induction O as [|x O]; intros. { destruct X; [auto|discriminate]. }
  destruct X as [|y X]; [discriminate|]. cbn [length seq ci_copy].
  assert (E : nth_error buf j = Some x).
  { subst j. rewrite <- (firstn_skipn (length P + length (x :: O)) buf). rewrite H, <- app_assoc. simpl. apply nth_error_mid. }
  rewrite E. cbn [obind]. rewrite aset_some by (rewrite !app_length; simpl; lia). cbn [obind].
  replace (upd (A ++ P ++ (y :: X) ++ R) (length A + j) x) with (A ++ (P ++ [x]) ++ X ++ R).
  2:{ subst j. replace (A ++ P ++ (y :: X) ++ R) with ((A ++ P) ++ y :: X ++ R) by (rewrite <- !app_assoc; auto).
      rewrite <- app_length, upd_mid, <- !app_assoc. auto. }
  rewrite (IHO A buf (S j) X R (P ++ [x])).
  - rewrite <- !app_assoc. auto.
  - rewrite app_length. simpl length. rewrite <- app_assoc. cbn [app]. rewrite <- H. f_equal. simpl. lia.
  - rewrite app_length. simpl. lia.
  - simpl in H1. lia.
Qed.

(** ** one level *)
Definition ne (G : list N) : bool := match G with [] => false | _ => true end.
Definition gn (d : nat) (gs : list (list N)) : list (list N) := flat_map (fun G => [filter (fb false d) G; filter (fb true d) G]) gs.
Definition gok (d : nat) (gs : list (list N)) : Prop :=
  Forall (fun G => forall x y, In x G -> In y G -> shr x d = shr y d) gs /\
  StronglySorted (fun G H => forall x y, In x G -> In y H -> (shr x d < shr y d)%N) gs.
Definition lvl_sigma (d : nat) (gs : list (list N)) : nat := length (filter ne (gn d gs)).

Lemma lvl_sigma_cons : forall d G gs, lvl_sigma d (G :: gs) =
  b2nat (0 <? length (filter (fb false d) G)) + b2nat (0 <? length (filter (fb true d) G)) + lvl_sigma d gs.
Proof.
  intros. unfold lvl_sigma, gn. cbn [flat_map app filter].
  destruct (filter (fb false d) G), (filter (fb true d) G); simpl; auto.
Qed.

Lemma level_ok : forall L d mold last gs fuel A buf sigma l t,
  (forall x y, In x (concat gs) -> In y (concat gs) -> (N.land x mold = N.land y mold <-> shr x (S d) = shr y (S d))) ->
  Forall (fun G => ne G = true) gs -> gs <> [] -> gok (S d) gs -> length gs < fuel + 0 -> twi t l -> d < L ->
  exists B buf' t', ci_level fuel (A ++ concat gs) buf (length A) mold (2 ^ N.of_nat d) last sigma t =
    Some (A ++ B, buf', (if last then sigma + lvl_sigma d gs else sigma), t') /\
    length B = length (concat gs) /\ (last = false -> B = concat (gn d gs)) /\ twi t' (l ++ map (fun x => tb x d) (concat gs)).
Proof.
  intros L d mold last. induction gs as [|G gs]; intros fuel A buf sigma l t HM HN HE HG HF HT HD; [congruence|].
  destruct fuel; [simpl in HF; lia|]. cbn [ci_level].
  inversion HN; subst. destruct G as [|g G]; [discriminate|]. clear HE. set (GG := g :: G) in *.
  destruct HG as [G1 G2]. inversion G1; subst. inversion G2; subst.
  assert (HM' : forall x y, In x (concat gs) -> In y (concat gs) -> (N.land x mold = N.land y mold <-> shr x (S d) = shr y (S d))).
  { intros. apply HM; simpl; rewrite in_app_iff; auto. }
  replace (A ++ concat (GG :: gs)) with (A ++ g :: G ++ concat gs) by reflexivity. rewrite nth_error_mid. cbn [obind].
  destruct (scan_ok d mold (N.land g mold) GG (length (A ++ g :: G ++ concat gs) + 1) A [] [] (concat gs) [] buf l t) as (X & buf1 & t1 & S1 & S2 & S3 & S4); auto.
  - intros x Hx. assert (Hg : In g GG) by (left; auto). apply HM.
    + change (In x (GG ++ concat gs)). apply in_or_app. auto.
    + change (In g (GG ++ concat gs)). apply in_or_app. auto.
    + apply H3; auto.
  - destruct (concat gs) eqn:EC; auto. destruct gs as [|H gs]; [discriminate|]. inversion H2; subst. destruct H as [|h H]; [discriminate|].
    simpl in EC. inversion EC; subst. rewrite HM. 2:{ simpl. rewrite !in_app_iff. simpl. auto. } 2:{ simpl. auto. }
    inversion H6; subst. specialize (H10 g n (or_introl eq_refl) (or_introl eq_refl)). intro X. rewrite X in H10. apply N.lt_irrefl in H10. auto.
  - rewrite !app_length. simpl. rewrite app_length. lia.
  - cbn [app length filter] in S1. rewrite Nat.add_0_r in S1. change (GG ++ concat gs) with (g :: G ++ concat gs) in S1. rewrite S1. cbn [obind]. clear S1.
    cbn [app] in S2, S3, S4.
    set (Z := filter (fb false d) GG) in *. set (O := filter (fb true d) GG) in *.
    assert (LX : length X = length O).
    { pose proof (split_len _ (fb false d) (fb true d) GG ltac:(intros; apply (fb_negb false))). fold Z O in H. lia. }
    assert (CP : exists Y, length Y = length O /\ (last = false -> Y = O) /\
      (if last then Some (A ++ Z ++ X ++ concat gs) else ci_copy (A ++ Z ++ X ++ concat gs) buf1 (length A + length Z) (seq 0 (length O))) = Some (A ++ Z ++ Y ++ concat gs)).
    { destruct last. { exists X. auto. intuition. discriminate. } exists O. split; auto. split; auto. rewrite <- app_length.
      pose proof (copy_ok O (A ++ Z) buf1 0 X (concat gs) [] S3 eq_refl LX) as C. cbn [app] in C. rewrite <- !app_assoc in C. auto. }
    destruct CP as (Y & Y1 & Y2 & ->). cbn [obind]. rewrite lvl_sigma_cons. fold Z O.
    assert (GL : length Z + length O = length GG) by (pose proof (split_len _ (fb false d) (fb true d) GG ltac:(intros; apply (fb_negb false))); auto).
    replace (length A + (length Z + length O)) with (length (A ++ Z ++ Y)) by (rewrite !app_length; lia).
    replace (A ++ Z ++ Y ++ concat gs) with ((A ++ Z ++ Y) ++ concat gs) by (rewrite <- !app_assoc; auto).
    destruct (Nat.ltb_spec (length (A ++ Z ++ Y)) (length ((A ++ Z ++ Y) ++ concat gs))) as [W|W].
    + assert (gs <> []). { intros ->. rewrite !app_length in W. simpl in W. lia. }
      destruct (IHgs fuel (A ++ Z ++ Y) buf1 (if last then sigma + b2nat (0 <? length Z) + b2nat (0 <? length O) else sigma) (l ++ map (fun x => tb x d) GG) t1) as (B & buf2 & t2 & E1 & E2 & E3 & E4); auto.
      { split; auto. } { simpl in HF. lia. }
      exists (Z ++ Y ++ B), buf2, t2. rewrite E1. split. { rewrite <- !app_assoc. do 3 f_equal. destruct last; auto. lia. }
      split. { change (concat (GG :: gs)) with (GG ++ concat gs). rewrite !app_length. lia. }
      split. { intros. rewrite Y2, E3 by auto. unfold gn. cbn [flat_map app concat]. fold Z O. auto. }
      change (concat (GG :: gs)) with (GG ++ concat gs). rewrite map_app, app_assoc. auto.
    + assert (concat gs = []) as EC. { rewrite (app_length _ (concat gs)) in W. destruct (concat gs); auto. simpl in W. lia. }
      assert (gs = []). { destruct gs as [|H gs]; auto. inversion H2; subst. destruct H; [discriminate|]. simpl in EC. discriminate. } subst gs.
      exists (Z ++ Y), buf1, t1. split. { simpl. rewrite app_nil_r. do 3 f_equal. destruct last; auto. unfold lvl_sigma. simpl. lia. }
      split. { change (concat [GG]) with (GG ++ []). rewrite app_nil_r, app_length. lia. }
      split. { intros. rewrite Y2 by auto. unfold gn. cbn [flat_map app concat]. fold Z O. now rewrite app_nil_r. }
      change (concat [GG]) with (GG ++ []). rewrite app_nil_r. auto.
Qed.

Lemma concat_ne : forall gs, concat (filter ne gs) = concat gs.
Proof. induction gs as [|[|]]; simpl; auto. now rewrite IHgs. Qed.
Lemma gn_ne : forall d gs, filter ne (gn d (filter ne gs)) = filter ne (gn d gs).
Proof.
  intros. unfold gn. induction gs as [|G gs]; auto. cbn [flat_map app]. destruct G as [|g G]. { cbn [filter ne]. auto. }
  replace (filter ne ((g :: G) :: gs)) with ((g :: G) :: filter ne gs) by reflexivity. cbn [flat_map app].
  set (a := filter (fb false d) (g :: G)). set (b := filter (fb true d) (g :: G)). cbn [filter]. now rewrite IHgs.
Qed.
Lemma concat_gn_ne : forall d gs, concat (gn d (filter ne gs)) = concat (gn d gs).
Proof. intros. rewrite <- concat_ne, gn_ne. apply concat_ne. Qed.
Lemma gn_app : forall d a b, gn d (a ++ b) = gn d a ++ gn d b.
Proof. intros. unfold gn. apply flat_map_app. Qed.
Lemma gn_len : forall d gs, length (concat (gn d gs)) = length (concat gs).
Proof.
  intros. induction gs as [|G gs]; auto. unfold gn in *. cbn [flat_map app concat]. rewrite !app_length, IHgs.
  pose proof (split_len _ (fb false d) (fb true d) G ltac:(intros; apply (fb_negb false))). lia.
Qed.
Lemma gn_In : forall d gs x, In x (concat (gn d gs)) <-> In x (concat gs).
Proof.
  intros. unfold gn. induction gs as [|G gs]; [tauto|]. cbn [flat_map app concat]. rewrite !in_app_iff, IHgs, !filter_In.
  rewrite fb_true, fb_false. destruct (tb x d); simpl; intuition congruence.
Qed.
Lemma SS_filter : forall A (R : A -> A -> Prop) f l, StronglySorted R l -> StronglySorted R (filter f l).
Proof.
  induction l; simpl; intros; auto. inversion H; subst. destruct (f a); auto. constructor; auto.
  rewrite Forall_forall in *. intros x Hx. apply filter_In in Hx. apply H3. tauto.
Qed.
Lemma gok_next : forall d gs, gok (S d) gs -> gok d (gn d gs).
Proof.
  intros d gs [A B]. split.
  - unfold gn. rewrite Forall_forall in *. intros H Hh x y Hx Hy. apply in_flat_map in Hh. destruct Hh as (G & HG & Hh).
    assert (exists b, H = filter (fb b d) G) as [b ->]. { destruct Hh as [<-|[<-|[]]]; eauto. }
    apply filter_In in Hx. apply filter_In in Hy. destruct Hx as [Hx F]. destruct Hy as [Hy F']. unfold fb in *. apply eqb_prop in F. apply eqb_prop in F'.
    apply shr_step; [|congruence]. apply (A G); auto.
  - assert (LT : forall x y, (shr x (S d) < shr y (S d))%N -> (shr x d < shr y d)%N).
    { intros. apply N.nle_gt. intro. apply (shr_mono _ _ 1) in H0.
      assert (X : forall z, shr (shr z d) 1 = shr z (S d)) by (intros; apply tb_ext; intros; rewrite !tb_shr; f_equal; lia). rewrite !X in H0. lia. }
    induction gs as [|G gs]; [constructor|]. inversion A; subst. inversion B; subst. unfold gn in *. cbn [flat_map app].
    assert (OUT : forall b H x y, In H (flat_map (fun G => [filter (fb false d) G; filter (fb true d) G]) gs) -> In x (filter (fb b d) G) -> In y H -> (shr x d < shr y d)%N).
    { intros b H x y Hh Hx Hy. apply LT. apply filter_In in Hx. apply in_flat_map in Hh. destruct Hh as (G' & HG' & Hh).
      rewrite Forall_forall in H4. apply (H4 G'); auto. tauto. destruct Hh as [<-|[<-|[]]]; apply filter_In in Hy; tauto. }
    constructor; [constructor; [apply IHgs; auto|]|]; rewrite Forall_forall; intros H Hh.
    + intros. eapply OUT; eauto.
    + destruct Hh as [<-|Hh]; [|intros; eapply OUT; eauto]. intros x y Hx Hy. apply filter_In in Hx. apply filter_In in Hy.
      destruct Hx as [Hx F]. destruct Hy as [Hy F']. rewrite fb_false in F. rewrite fb_true in F'. apply negb_true_iff in F.
      assert (E := H1 x y Hx Hy).
      rewrite !shr_div. assert (x < y)%N by (apply (bit_lt x y d); auto).
      destruct (N.eq_dec (shr x d) (shr y d)) as [e|e].
      { exfalso. apply shr_step_inv in e. destruct e as [_ e]. congruence. }
      apply N.lt_le_incl in H. apply (shr_mono _ _ d) in H. rewrite !shr_div in *. lia.
Qed.
Lemma gok_filter : forall d gs, gok d gs -> gok d (filter ne gs).
Proof.
  intros d gs [A B]. split. rewrite Forall_forall in *. intros G HG. apply filter_In in HG. apply A. tauto. apply SS_filter. auto.
Qed.

(** ** all levels *)
Fixpoint lvl (d : nat) (gs : list (list N)) : list bool :=
  match d with 0 => [] | S d' => map (fun x => tb x d') (concat gs) ++ lvl d' (gn d' gs) end.
Fixpoint gfin (d : nat) (gs : list (list N)) : list (list N) :=
  match d with 0 => gs | S d' => gfin d' (gn d' gs) end.

Lemma mold_spec : forall L d mold x y, (forall j, tb mold j = (d <=? j) && (j <=? L)) ->
  (x < 2 ^ N.of_nat L)%N -> (y < 2 ^ N.of_nat L)%N -> (N.land x mold = N.land y mold <-> shr x d = shr y d).
Proof.
  intros. split; intro E; apply tb_ext; intros k.
  - rewrite !tb_shr. destruct (Nat.le_gt_cases L (k + d)). { rewrite !(tb_high _ L) by auto. auto. }
    pose proof (f_equal (fun z => tb z (k + d)) E) as F. cbv beta in F. rewrite !tb_land, H in F.
    destruct (Nat.leb_spec d (k + d)); [|lia]. destruct (Nat.leb_spec (k + d) L); [|lia]. cbn [andb] in F. now rewrite !andb_true_r in F.
  - rewrite !tb_land, H. destruct (Nat.leb_spec d k); cbn [andb]; [|now rewrite !andb_false_r].
    pose proof (f_equal (fun z => tb z (k - d)) E) as F. cbv beta in F. rewrite !tb_shr in F. replace (k - d + d) with k in F by lia. now rewrite F.
Qed.

Lemma levels_ok : forall L d gs buf mold sigma l t,
  d <= L -> L <= 63 -> (forall j, tb mold j = (d <=? j) && (j <=? L)) -> (forall x, In x (concat gs) -> (x < 2 ^ N.of_nat L)%N) ->
  concat gs <> [] -> gok d (filter ne gs) -> twi t l ->
  exists rac t', ci_levels d (concat gs) buf mold sigma t = Some (rac, (if d =? 0 then sigma else sigma + length (filter ne (gfin d gs))), t') /\
    twi t' (l ++ lvl d gs).
Proof.
  intros L. induction d; intros gs buf mold sigma l t HD HL HM HX HE HG HT.
  - exists (concat gs), t. cbn. rewrite app_nil_r. auto.
  - cbn [ci_levels]. rewrite shl_c_pow by lia. cbn [obind].
    destruct (level_ok L d mold (d =? 0) (filter ne gs) (length (concat gs) + 1) [] buf sigma l t) as (B & buf' & t1 & E1 & E2 & E3 & E4).
    + intros. apply (mold_spec L); auto; apply HX; rewrite <- concat_ne; auto.
    + rewrite Forall_forall. intros G HGi. apply filter_In in HGi. tauto.
    + intro Z. rewrite <- concat_ne, Z in HE. auto.
    + auto.
    + rewrite <- (concat_ne gs). clear. induction gs as [|[|] gs]; simpl; try lia. rewrite app_length. simpl in *. lia.
    + auto.
    + lia.
    + cbn [app length] in E1. rewrite concat_ne in *. rewrite E1. cbn [obind].
      assert (MB : (mold < 2 ^ N.of_nat (S L))%N). { apply tb_lt_pow2. intros. rewrite HM. destruct (Nat.leb_spec k L); [lia|]. apply andb_false_r. }
      assert (PB : (2 ^ N.of_nat d < 2 ^ N.of_nat (S L))%N) by (apply N.pow_lt_mono_r; lia).
      assert (LA : N.land mold (2 ^ N.of_nat d) = 0%N).
      { apply tb_ext. intros. rewrite tb_land, HM, tb_0. unfold tb. rewrite N.pow2_bits_eqb.
        destruct (N.eqb_spec (N.of_nat d) (N.of_nat k)); [|apply andb_false_r]. destruct (Nat.leb_spec (S d) k); [lia|]. auto. }
      assert (MO : wadd mold (2 ^ N.of_nat d) = N.lor mold (2 ^ N.of_nat d)).
      { rewrite (lor_disjoint_add _ _ LA). apply wadd_small. rewrite <- (lor_disjoint_add _ _ LA).
        assert (N.lor mold (2 ^ N.of_nat d) < 2 ^ N.of_nat (S L))%N.
        { apply tb_lt_pow2. intros. rewrite tb_lor, HM. unfold tb. rewrite N.pow2_bits_eqb.
          destruct (N.eqb_spec (N.of_nat d) (N.of_nat k)); [lia|]. destruct (Nat.leb_spec k L); [lia|]. now rewrite andb_false_r. }
        eapply N.lt_le_trans; [exact H|]. rewrite W64_pow. apply N.pow_le_mono_r; lia. }
      rewrite MO.
      destruct d as [|d0].
      * cbn [ci_levels Nat.eqb]. exists B, t1. split. { cbn [gfin]. unfold lvl_sigma. now rewrite gn_ne. } cbn [lvl]. rewrite app_nil_r. auto.
      * rewrite E3 by auto. rewrite concat_gn_ne.
        destruct (IHd (gn (S d0) gs) buf' (N.lor mold (2 ^ N.of_nat (S d0))) sigma (l ++ map (fun x => tb x (S d0)) (concat gs)) t1) as (rac & t2 & F1 & F2); auto; try lia.
        -- intros. rewrite tb_lor, HM. unfold tb. rewrite N.pow2_bits_eqb. destruct (N.eqb_spec (N.of_nat (S d0)) (N.of_nat j)).
           ++ assert (j = S d0) by lia. subst. rewrite Nat.leb_refl. destruct (Nat.leb_spec (S d0) L); [|lia]. now rewrite orb_true_r.
           ++ rewrite orb_false_r. destruct (Nat.leb_spec (S (S d0)) j), (Nat.leb_spec (S d0) j); auto; lia.
        -- intros. apply HX. apply gn_In in H. auto.
        -- intro Z. apply (f_equal (@length N)) in Z. rewrite gn_len in Z. destruct (concat gs); auto. discriminate.
        -- rewrite <- gn_ne. apply gok_filter, gok_next. auto.
        -- exists rac, t2. cbn [Nat.eqb] in *. split; auto. cbn [lvl gfin] in *. rewrite app_assoc. auto.
Qed.

(** ** the tree holds the sequence *)
Lemma lvl_length : forall d gs, length (lvl d gs) = d * length (concat gs).
Proof. induction d; intros; auto. cbn [lvl]. rewrite app_length, map_length, IHd, gn_len. lia. Qed.
Lemma lvl_at : forall d gs1 T gs2 pt, let t := pt ++ lvl d (gs1 ++ T :: gs2) in
  wt_at t (length (concat (gs1 ++ T :: gs2))) d (length pt + length (concat gs1)) T.
Proof.
  induction d; intros; [exact I|]. cbn [wt_at].
  assert (LC : length (concat (gs1 ++ T :: gs2)) = length (concat gs1) + length T + length (concat gs2)).
  { rewrite concat_app, app_length. simpl. rewrite app_length. lia. }
  assert (GN : gn d (gs1 ++ T :: gs2) = gn d gs1 ++ filter (fb false d) T :: filter (fb true d) T :: gn d gs2).
  { rewrite gn_app. reflexivity. }
  assert (TE : t = (pt ++ map (fun x => tb x d) (concat (gs1 ++ T :: gs2))) ++ lvl d (gn d (gs1 ++ T :: gs2))).
  { unfold t. cbn [lvl]. now rewrite app_assoc. }
  assert (LP : length (pt ++ map (fun x => tb x d) (concat (gs1 ++ T :: gs2))) = length pt + length (concat (gs1 ++ T :: gs2))) by now rewrite app_length, map_length.
  split. { rewrite TE, app_length, LP. lia. }
  split.
  { intros. unfold t_bit. rewrite TE, app_nth1 by lia. rewrite app_nth2 by lia.
    replace (length pt + length (concat gs1) + k - length pt) with (length (concat gs1) + k) by lia.
    rewrite concat_app, map_app. rewrite app_nth2; rewrite map_length; [|lia].
    replace (length (concat gs1) + k - length (concat gs1)) with k by lia. simpl. rewrite map_app, app_nth1 by (rewrite map_length; auto).
    rewrite (nth_indep _ _ (tb 0%N d)) by (rewrite map_length; auto). apply (map_nth (fun x => tb x d)). }
  assert (NN : length (concat (gs1 ++ T :: gs2)) = length (concat (gn d (gs1 ++ T :: gs2)))) by now rewrite gn_len.
  split.
  - pose proof (IHd (gn d gs1) (filter (fb false d) T) (filter (fb true d) T :: gn d gs2) (pt ++ map (fun x => tb x d) (concat (gs1 ++ T :: gs2)))) as Q.
    cbv zeta in Q. rewrite <- GN, <- TE, <- NN, LP, gn_len in Q.
    replace (length pt + length (concat gs1) + length (concat (gs1 ++ T :: gs2))) with (length pt + length (concat (gs1 ++ T :: gs2)) + length (concat gs1)) by lia. auto.
  - pose proof (IHd (gn d gs1 ++ [filter (fb false d) T]) (filter (fb true d) T) (gn d gs2) (pt ++ map (fun x => tb x d) (concat (gs1 ++ T :: gs2)))) as Q.
    cbv zeta in Q. rewrite <- !app_assoc in Q. cbn [app] in Q. rewrite <- GN in Q. rewrite app_assoc, <- TE, <- NN, LP in Q.
    rewrite (concat_app (gn d gs1)), (app_length (concat (gn d gs1))), gn_len in Q. cbn [concat] in Q. rewrite app_nil_r in Q.
    replace (length pt + length (concat gs1) + length (filter (fb false d) T) + length (concat (gs1 ++ T :: gs2)))
      with (length pt + length (concat (gs1 ++ T :: gs2)) + (length (concat gs1) + length (filter (fb false d) T))) by lia. auto.
Qed.

(** ** sigma *)
Lemma gfin_In : forall d gs x, In x (concat (gfin d gs)) <-> In x (concat gs).
Proof. induction d; simpl; intros; [tauto|]. rewrite IHd. apply gn_In. Qed.
Lemma gfin_ok : forall d gs, gok d gs -> gok 0 (gfin d gs).
Proof. induction d; simpl; intros; auto. apply IHd. apply gok_next. auto. Qed.
Lemma distinct_groups : forall gs S, gok 0 gs -> Forall (fun G => ne G = true) gs -> (forall x, In x (concat gs) <-> In x S) ->
  length gs = distinct S.
Proof.
  intros gs S [A B] HN HI. unfold distinct.
  assert (ND : NoDup (map (hd 0%N) gs)).
  { clear HI. induction gs as [|G gs]; simpl; constructor; inversion A; inversion B; inversion HN; subst.
    - intro X. apply in_map_iff in X. destruct X as (H & E & X). rewrite Forall_forall in H6, H10. specialize (H6 H X).
      specialize (H10 H X). destruct G as [|g G]; [discriminate|]. destruct H as [|h H]; [discriminate|]. simpl in E. subst h.
      specialize (H6 g g (or_introl eq_refl) (or_introl eq_refl)). lia.
    - apply IHgs; auto. }
  rewrite <- (map_length (hd 0%N) gs). apply Permutation_length. apply NoDup_Permutation; auto. apply NoDup_nodup.
  intros x. rewrite nodup_In, <- HI, in_map_iff, in_concat. split.
  - intros (G & E & HG). exists G. split; auto. rewrite Forall_forall in HN. specialize (HN G HG). destruct G; [discriminate|]. simpl in E. left. auto.
  - intros (G & HG & Hx). exists G. split; auto. rewrite Forall_forall in A, HN. specialize (HN G HG). specialize (A G HG).
    destruct G as [|g G]; [discriminate|]. simpl. specialize (A g x (or_introl eq_refl) Hx). now rewrite !shr_0 in A.
Qed.

(** ** the constructor *)
Definition level_of (S : list N) (ml : nat) : nat := if ml =? 0 then hiw (max_value S) else ml.

Lemma max_value_ge : forall S a, (a <= fold_left (fun x v => if (x <? v)%N then v else x) S a)%N /\
  (forall x, In x S -> (x <= fold_left (fun x v => if (x <? v)%N then v else x) S a)%N) /\
  (fold_left (fun x v => if (x <? v)%N then v else x) S a = a \/ In (fold_left (fun x v => if (x <? v)%N then v else x) S a) S).
Proof.
  induction S; simpl; intros. { split; [lia|]. split; auto. intros x []. }
  destruct (IHS (if (a0 <? a)%N then a else a0)) as (H1 & H2 & H3). destruct (N.ltb_spec a0 a); repeat split; try lia.
  - intros z [Hz|Hz]; [subst z; lia|auto]. - destruct H3; auto.
  - intros z [Hz|Hz]; [subst z; lia|auto]. - destruct H3; auto.
Qed.

Lemma level_of_ok : forall S ml, S <> [] -> wt_dom S ml -> 1 <= level_of S ml <= 63 /\ Forall (fun x => (x < 2 ^ N.of_nat (level_of S ml))%N) S.
Proof.
  intros S ml HS [HM HF]. cbv zeta in HF. unfold level_of. destruct (Nat.eqb_spec ml 0) as [E|E]; [|split; [lia|auto]].
  destruct (max_value_ge S 1%N) as (A & B & C). fold (max_value S) in *.
  assert (MB : (max_value S < 2 ^ N.of_nat 63)%N).
  { destruct C as [->|C]. reflexivity. rewrite Forall_forall in HF. auto. }
  split.
  - assert (MW : is_word (max_value S)). { unfold is_word. rewrite W64_pow. eapply N.lt_trans; [exact MB|]. reflexivity. }
    destruct (hiw_bound _ MW). split; auto. unfold hiw. rewrite hi_correct by auto. assert (N.log2 (max_value S) < 63)%N by (apply N.log2_lt_pow2; [lia|exact MB]). lia.
  - rewrite Forall_forall. intros x Hx. eapply N.le_lt_trans; [apply B; auto|]. apply hiw_fits; [|lia]. rewrite W64_pow. eapply N.lt_trans; [exact MB|]. reflexivity.
Qed.

Theorem wt_make_ok : forall S ml, S <> [] -> wt_dom S ml ->
  exists w, wt_make S ml = Some w /\ wt_holds w S /\ wt_sigma w = distinct S /\ wt_L w = level_of S ml.
Proof.
  intros S ml HS HD. destruct (level_of_ok S ml HS HD) as [HL HX]. unfold wt_make. fold (level_of S ml). set (L := level_of S ml) in *.
  destruct (Nat.eqb_spec (length S) 0) as [E|_]. { destruct S; [congruence|discriminate]. }
  rewrite shl_c_pow by lia. cbn [obind].
  assert (G0 : gok L [S]).
  { split; constructor; constructor || auto. intros x y Hx Hy. rewrite Forall_forall in HX. rewrite !shr_small; auto. }
  destruct (levels_ok L L [S] [] (2 ^ N.of_nat L) 0 [] tw_new) as (rac & t & E1 & E2); auto; try lia.
  - intros. unfold tb. rewrite N.pow2_bits_eqb. destruct (N.eqb_spec (N.of_nat L) (N.of_nat j)), (Nat.leb_spec L j), (Nat.leb_spec j L); auto; lia.
  - intros. simpl in H. rewrite app_nil_r in H. rewrite Forall_forall in HX. auto.
  - simpl. now rewrite app_nil_r.
  - apply gok_filter. auto.
  - apply twi_new.
  - change (concat [S]) with (S ++ []) in E1. rewrite app_nil_r in E1. rewrite E1. cbn [obind]. clear E1. cbn [app] in E2.
    replace (length S * L) with (length (lvl L [S])) by (rewrite lvl_length; simpl; rewrite app_nil_r; lia).
    rewrite (tw_close_ok _ _ E2). cbn [obind]. eexists. split; [reflexivity|]. unfold wt_holds. cbn [wt_n wt_tree wt_L wt_sigma]. repeat split; auto; try lia.
    + pose proof (lvl_at L [] S [] []) as Q. cbv zeta in Q. cbn [app concat length Nat.add] in Q. rewrite app_nil_r in Q. auto.
    + destruct (Nat.eqb_spec L 0); [lia|]. simpl. apply distinct_groups.
      * apply gok_filter, gfin_ok. auto.
      * rewrite Forall_forall. intros G HG. apply filter_In in HG. tauto.
      * intros. rewrite concat_ne, gfin_In. simpl. now rewrite app_nil_r.
Qed.
