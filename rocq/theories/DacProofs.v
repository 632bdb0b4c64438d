(** * Proofs about dac_vector_dp *)
From Coq Require Import NArith List Bool Arith Lia.
From Verif Require Import Base Bits SpecBits RankSelect AbsVec WtBase BitsProofs2 Dac.
Import ListNotations.

Lemma filter_nth_error : forall A (f : A -> bool) l i x, nth_error l i = Some x -> f x = true ->
  nth_error (filter f l) (length (filter f (firstn i l))) = Some x.
Proof.
  induction l as [|a l IH]; intros i x H F; [destruct i; discriminate|]. destruct i; cbn in *.
  - inversion H; subst. rewrite F. reflexivity.
  - destruct (f a); cbn; apply IH; auto.
Qed.
Lemma filter_negb_length : forall A (f : A -> bool) l, length (filter (fun x => negb (f x)) l) + length (filter f l) = length l.
Proof. induction l; cbn; auto. destruct (f a); cbn; lia. Qed.
Lemma rank_map : forall A (f : A -> bool) l d i, i <= length l -> rank_of (fun p => nth p (map f l) d) i = length (filter f (firstn i l)).
Proof.
  induction l as [|a l IH]; intros d i H; cbn in H. { replace i with 0 by lia. reflexivity. }
  destruct i; [reflexivity|]. change (S i) with (1 + i). rewrite rank_of_add, rank_of_S, rank_of_0. cbn [nth map firstn filter Nat.add].
  rewrite IH by lia. destruct (f a); cbn; lia.
Qed.
Lemma rank_app_r : forall (p q : list bool) i, rank_of (fun j => nth j (p ++ q) false) (length p + i) =
  rank_of (fun j => nth j (p ++ q) false) (length p) + rank_of (fun j => nth j q false) i.
Proof. intros. rewrite rank_of_add. f_equal. apply rank_of_ext. intros. rewrite app_nth2 by lia. f_equal. lia. Qed.
Lemma rank_app_l : forall (p q : list bool) i, i <= length p -> rank_of (fun j => nth j (p ++ q) false) i = rank_of (fun j => nth j p false) i.
Proof. intros. apply rank_of_ext. intros. rewrite app_nth1 by lia. auto. Qed.

Definition ovf (b : nat) (x : N) : bool := b <=? N.to_nat (hi x).
Fixpoint lvbits (bs : list nat) (c : list N) : list bool :=
  match bs with [] => [] | b :: t => map (ovf b) c ++ lvbits t (filter (ovf b) c) end.
Fixpoint lvdata (bs : list nat) (c : list N) : list (list N) :=
  match bs with [] => [] | b :: t => filter (fun x => negb (ovf b x)) c :: lvdata t (filter (ovf b) c) end.
Fixpoint lvoff (bs : list nat) (off : nat) (c : list N) : list nat :=
  match bs with [] => [] | b :: t => off :: lvoff t (off + length c) (filter (ovf b) c) end.
(** no value overflows every level *)
Definition covers (bs : list nat) (c : list N) : Prop := forall x, In x c -> exists b, In b bs /\ N.to_nat (hi x) < b.

Lemma covers_nil : forall c, covers [] c -> c = [].
Proof. intros [|x c] H; auto. destruct (H x) as (b & [] & _). left; auto. Qed.
Lemma covers_cons : forall b bs c, covers (b :: bs) c -> covers bs (filter (ovf b) c).
Proof.
  intros b bs c H x Hx. apply filter_In in Hx. destruct Hx as [Hx Ho]. destruct (H x Hx) as (b' & [->|Hb] & L); eauto.
  unfold ovf in Ho. apply Nat.leb_le in Ho. lia.
Qed.
Lemma dp_total_cons : forall b bs c, dp_total (b :: bs) c = length c + dp_total bs (filter (ovf b) c).
Proof.
  unfold dp_total. induction c as [|x c IH]; cbn [fold_right length filter]; auto. rewrite IH. cbn [dp_depth].
  change (b <=? N.to_nat (hi x)) with (ovf b x). destruct (ovf b x); cbn [fold_right]; lia.
Qed.
Lemma lvbits_length : forall bs c, covers bs c -> length (lvbits bs c) = dp_total bs c.
Proof.
  induction bs; intros c H. { rewrite (covers_nil c H). reflexivity. }
  cbn [lvbits]. rewrite app_length, map_length, IHbs, dp_total_cons by (apply covers_cons; auto). reflexivity.
Qed.
Lemma dp_mark_ok : forall b c p m r, length m = length c -> dp_mark b (length p) c (p ++ m ++ r) = Some (p ++ map (ovf b) c ++ r).
Proof.
  induction c as [|x c IH]; intros p m r H; destruct m as [|y m]; try discriminate; cbn [dp_mark map].
  - reflexivity.
  - rewrite aset_some by (rewrite !app_length; cbn; lia). cbn [obind]. rewrite upd_app_r by lia. rewrite Nat.sub_diag. cbn [app upd].
    replace (p ++ (b <=? N.to_nat (hi x)) :: m ++ r) with ((p ++ [ovf b x]) ++ m ++ r) by (rewrite <- app_assoc; reflexivity).
    replace (length p + 1) with (length (p ++ [ovf b x])) by (rewrite app_length; cbn; lia).
    rewrite IH by (cbn in H; lia). rewrite <- app_assoc. reflexivity.
Qed.
Lemma dp_split_ok : forall b c p r, dp_split (length p) c (p ++ map (ovf b) c ++ r) = Some (filter (fun x => negb (ovf b x)) c, filter (ovf b) c).
Proof.
  induction c as [|x c IH]; intros p r; cbn [dp_split map filter]; auto.
  rewrite nth_error_app2 by lia. rewrite Nat.sub_diag. cbn [app nth_error obind].
  replace (p ++ ovf b x :: map (ovf b) c ++ r) with ((p ++ [ovf b x]) ++ map (ovf b) c ++ r) by (rewrite <- app_assoc; reflexivity).
  replace (length p + 1) with (length (p ++ [ovf b x])) by (rewrite app_length; cbn; lia).
  rewrite IH. cbn [obind fst snd]. destruct (ovf b x); reflexivity.
Qed.
Lemma dp_levels_ok : forall bs c p m, covers bs c -> length m = dp_total bs c ->
  dp_levels bs (length p) c (p ++ m) = Some (p ++ lvbits bs c, lvdata bs c, lvoff bs (length p) c).
Proof.
  induction bs as [|b bs IH]; intros c p m H L.
  - rewrite (covers_nil c H) in L. destruct m; [|discriminate]. reflexivity.
  - rewrite dp_total_cons in L. cbn [dp_levels lvbits lvdata lvoff].
    rewrite <- (firstn_skipn (length c) m).
    rewrite dp_mark_ok by (rewrite firstn_length; lia). cbn [obind]. rewrite dp_split_ok. cbn [obind snd].
    replace (p ++ map (ovf b) c ++ skipn (length c) m) with ((p ++ map (ovf b) c) ++ skipn (length c) m) by (rewrite <- app_assoc; reflexivity).
    replace (length p + length c) with (length (p ++ map (ovf b) c)) by (rewrite app_length, map_length; auto).
    rewrite IH; [|apply covers_cons; auto|rewrite skipn_length; lia]. cbn [obind fst]. rewrite <- app_assoc. reflexivity.
Qed.
Lemma dp_build_ok : forall bs c, covers bs c -> dp_build bs c = Some (mkdacp (length c) (lvbits bs c) (lvdata bs c) (lvoff bs 0 c)).
Proof. intros. unfold dp_build. pose proof (dp_levels_ok bs c [] (repeat false (dp_total bs c)) H (repeat_length _ _)) as E. cbn [length app] in E. rewrite E. reflexivity. Qed.

Lemma ovrank_some : forall ov i, i <= length ov -> ovrank ov i = Some (rank_of (fun p => nth p ov false) i).
Proof. intros. unfold ovrank. rewrite (proj2 (Nat.leb_le _ _) H). reflexivity. Qed.
Lemma csub_ok : forall a b, b <= a -> csub a b = Some (a - b).
Proof. intros. unfold csub. rewrite (proj2 (Nat.leb_le _ _) H). reflexivity. Qed.
Lemma firstn_filter_le : forall A (f : A -> bool) l i, length (filter f (firstn i l)) <= length (filter f l).
Proof. intros. rewrite <- (firstn_skipn i l) at 2. rewrite filter_app, app_length. lia. Qed.

Lemma dp_go_ok : forall bs c d lv p fuel i x, covers bs c -> length bs < fuel ->
  p_ov d = p ++ lvbits bs c -> (forall k, nth_error (p_data d) (lv + k) = nth_error (lvdata bs c) k) ->
  (forall k, nth_error (p_off d) (lv + k) = nth_error (lvoff bs (length p) c) k) -> nth_error c i = Some x ->
  dp_go fuel d lv (length p) i = Some x.
Proof.
  induction bs as [|b bs IH]; intros c d lv p fuel i x C F OV DA OF X.
  { rewrite (covers_nil c C) in X. destruct i; discriminate. }
  destruct fuel as [|fuel]; [cbn in F; lia|]. cbn [dp_go]. cbn [lvbits] in OV.
  assert (Hi : i < length c) by (apply nth_error_Some; congruence).
  assert (G : nth_error (p_ov d) (length p + i) = Some (ovf b x)).
  { rewrite OV, nth_error_app2 by lia. replace (length p + i - length p) with i by lia.
    rewrite nth_error_app1 by (rewrite map_length; auto). rewrite nth_error_map, X. reflexivity. }
  rewrite G. cbn [obind]. rewrite !ovrank_some by (rewrite OV, !app_length, map_length; lia). cbn [obind].
  assert (R : rank_of (fun q => nth q (p_ov d) false) (length p + i) = rank_of (fun q => nth q (p_ov d) false) (length p) + length (filter (ovf b) (firstn i c))).
  { rewrite OV, rank_app_r. f_equal. rewrite rank_app_l by (rewrite map_length; lia). apply rank_map. lia. }
  rewrite R, csub_ok by lia. cbn [obind].
  replace (rank_of (fun q => nth q (p_ov d) false) (length p) + length (filter (ovf b) (firstn i c)) - rank_of (fun q => nth q (p_ov d) false) (length p))
    with (length (filter (ovf b) (firstn i c))) by lia.
  destruct (ovf b x) eqn:O.
  - pose proof (filter_nth_error _ (ovf b) c i x X O) as X'. set (c' := filter (ovf b) c) in *.
    pose proof (OF 1) as O1. cbn [lvoff nth_error] in O1. fold c' in O1.
    destruct bs as [|b' bs]. { pose proof (covers_cons _ _ _ C) as C'. fold c' in C'. rewrite (covers_nil _ C') in X'. destruct (length (filter (ovf b) (firstn i c))); discriminate. }
    rewrite O1. cbn [lvoff nth_error obind].
    replace (length p + length c) with (length (p ++ map (ovf b) c)) by (rewrite app_length, map_length; auto).
    apply IH with c'; auto.
    + apply covers_cons; auto.
    + cbn in *; lia.
    + rewrite OV, <- app_assoc. reflexivity.
    + intros k. rewrite <- Nat.add_assoc. rewrite DA. reflexivity.
    + intros k. rewrite <- Nat.add_assoc. rewrite OF. cbn [lvoff Nat.add nth_error]. rewrite app_length, map_length. reflexivity.
  - assert (S : length (filter (fun x => negb (ovf b x)) (firstn i c)) + length (filter (ovf b) (firstn i c)) = i).
    { rewrite filter_negb_length, firstn_length. lia. }
    rewrite csub_ok by lia. cbn [obind]. pose proof (DA 0) as D0. rewrite Nat.add_0_r in D0. rewrite D0. cbn [lvdata nth_error obind].
    replace (i - length (filter (ovf b) (firstn i c))) with (length (filter (fun x => negb (ovf b x)) (firstn i c))) by lia.
    apply (filter_nth_error _ (fun x => negb (ovf b x))); auto. rewrite O. reflexivity.
Qed.

Lemma lvoff_length : forall bs off c, length (lvoff bs off c) = length bs.
Proof. induction bs; intros; cbn; auto. Qed.
Lemma lvoff_head : forall b bs off c, nth_error (lvoff (b :: bs) off c) 0 = Some off. Proof. reflexivity. Qed.
Lemma dp_get_ok : forall bs c i x, covers bs c -> nth_error c i = Some x ->
  dp_get (mkdacp (length c) (lvbits bs c) (lvdata bs c) (lvoff bs 0 c)) i = Some x.
Proof.
  intros bs c i x C X. destruct bs as [|b bs]. { rewrite (covers_nil c C) in X. destruct i; discriminate. }
  unfold dp_get. cbn [p_off]. rewrite lvoff_head. cbn [obind]. rewrite lvoff_length.
  apply (dp_go_ok (b :: bs) c _ 0 []); auto.
Qed.
Lemma lvdata_length : forall bs c, length (lvdata bs c) = length bs.
Proof. induction bs; intros; cbn; auto. Qed.
Lemma lvdata_total : forall bs c, covers bs c -> fold_right (fun (l : list N) s => length l + s) 0 (lvdata bs c) = length c.
Proof.
  induction bs as [|b bs IH]; intros c C. { rewrite (covers_nil c C). reflexivity. }
  cbn [lvdata fold_right]. rewrite IH by (apply covers_cons; auto). apply filter_negb_length.
Qed.

(** the plan *)
Section plan.
Context {V : Type} (inf zero : V) (lt : V -> V -> bool) (cw : nat -> nat -> V -> V) (fin : V -> Prop).
Hypothesis Hz : fin zero.
Hypothesis Hfin : forall b b2 v, fin v -> fin (cw b b2 v) /\ lt (cw b b2 v) inf = true.
Hypothesis Hinf : forall b b2 v, lt (cw b b2 inf) v = false.
Notation plan_b2 := (plan_b2 lt cw).
Notation plan_f := (plan_f inf zero lt cw).
Notation plan_walk := (plan_walk inf zero lt cw).

Lemma plan_b2_ok : forall b prev cands best nx, (forall x, prev x = inf \/ fin (prev x)) ->
  let r := plan_b2 b cands prev best nx in
  (r = (best, nx)) \/ (exists b2, snd r = Some b2 /\ In b2 cands /\ fin (prev b2) /\ fin (fst r)).
Proof.
  induction cands as [|b2 t IH]; intros best nx HP; cbn [Dac.plan_b2]; [left; auto|].
  destruct (lt (cw b b2 (prev b2)) best) eqn:L.
  - assert (F : fin (prev b2)). { destruct (HP b2) as [E|E]; auto. rewrite E, Hinf in L. discriminate. }
    destruct (IH (cw b b2 (prev b2)) (Some b2) HP) as [E|(b3 & E1 & E2 & E3 & E4)].
    + right. exists b2. rewrite E. cbn [fst snd]. repeat split; auto. left; auto. apply Hfin; auto.
    + right. exists b3. repeat split; auto. right; auto.
  - destruct (IH best nx HP) as [E|(b3 & E1 & E2 & E3 & E4)]; [left; auto|].
    right. exists b3. repeat split; auto. right; auto.
Qed.
Lemma plan_b2_found : forall b prev cands nx, (forall x, prev x = inf \/ fin (prev x)) -> (exists x, In x cands /\ fin (prev x)) ->
  let r := plan_b2 b cands prev inf nx in exists b2, snd r = Some b2 /\ In b2 cands /\ fin (prev b2) /\ fin (fst r).
Proof.
  induction cands as [|b2 t IH]; intros nx HP (x & Hx & Hf); [contradiction|]. cbn [Dac.plan_b2]. destruct (lt (cw b b2 (prev b2)) inf) eqn:L.
  - assert (F : fin (prev b2)). { destruct (HP b2) as [E|E]; auto. rewrite E, Hinf in L. discriminate. }
    destruct (plan_b2_ok b prev t (cw b b2 (prev b2)) (Some b2) HP) as [E|(b3 & E1 & E2 & E3 & E4)].
    + exists b2. rewrite E. cbn [fst snd]. repeat split; auto. left; auto. apply Hfin; auto.
    + exists b3. repeat split; auto. right; auto.
  - destruct Hx as [->|Hx]. { destruct (Hfin b x (prev x) Hf) as [_ E]. congruence. }
    destruct (IH nx HP) as (b3 & E1 & E2 & E3 & E4); eauto. exists b3. repeat split; auto. right; auto.
Qed.
Lemma plan_f_dich : forall top lvl b, fst (plan_f top lvl b) = inf \/ fin (fst (plan_f top lvl b)).
Proof.
  intros top. induction lvl; intros b; cbn [Dac.plan_f]; destruct (top <=? b); auto.
  destruct (plan_b2_ok b (fun b2 => fst (plan_f top lvl b2)) (seq (b + 1) (top - b)) inf None) as [E|(b3 & E1 & E2 & E3 & E4)]; auto.
  rewrite E. auto.
Qed.
Lemma plan_f_fin : forall top lvl b, 1 <= lvl -> b < top -> exists b2, snd (plan_f top lvl b) = Some b2 /\ b < b2 <= top /\ fin (fst (plan_f top (lvl - 1) b2)).
Proof.
  intros top [|l] b Hl Hb; [lia|]. cbn [Dac.plan_f]. rewrite (proj2 (Nat.leb_gt _ _) Hb).
  destruct (plan_b2_found b (fun b2 => fst (plan_f top l b2)) (seq (b + 1) (top - b)) None) as (b2 & E1 & E2 & E3 & E4).
  - intros. apply plan_f_dich.
  - exists top. split; [apply in_seq; lia|]. destruct l; cbn [Dac.plan_f]; rewrite (proj2 (Nat.leb_le _ _)) by lia; auto.
  - exists b2. rewrite E1. apply in_seq in E2. replace (S l - 1) with l by lia. repeat split; auto; lia.
Qed.
Lemma plan_f_top : forall top lvl b, top <= b -> snd (plan_f top lvl b) = None.
Proof. intros. destruct lvl; cbn [Dac.plan_f]; rewrite (proj2 (Nat.leb_le _ _) H); auto. Qed.
Lemma plan_fin_lvl : (forall v, fin v -> v <> inf) -> forall top b, fin (fst (plan_f top 0 b)) -> top <= b.
Proof. intros Hne top b. cbn [Dac.plan_f]. destruct (Nat.leb_spec top b); auto. intros F. exfalso. apply (Hne _ F). reflexivity. Qed.
(** the plan ascends to [top], which is its last entry, in at most [lvl] steps *)
Lemma plan_walk_ok : (forall v, fin v -> v <> inf) -> forall top lvl b, 1 <= lvl \/ top <= b -> b <= top ->
  (b < top -> fin (fst (plan_f top lvl b)) \/ 1 <= lvl) ->
  let w := plan_walk top lvl b in length w <= lvl /\ (forall x, In x w -> b < x <= top) /\ (b < top -> In top w).
Proof.
  intros Hne top. induction lvl; intros b H1 H2 H3; cbn [Dac.plan_walk].
  - assert (E : top <= b) by lia. rewrite plan_f_top by auto. cbn. repeat split; try contradiction; lia.
  - destruct (Nat.lt_ge_cases b top) as [L|L].
    + destruct (plan_f_fin top (S lvl) b) as (b2 & E1 & E2 & E3); [lia|auto|]. rewrite E1. replace (S lvl - 1) with lvl in E3 by lia.
      assert (C : 1 <= lvl \/ top <= b2). { destruct lvl; [right; apply plan_fin_lvl; auto|left; lia]. }
      destruct (IHlvl b2) as (A1 & A2 & A3); auto; try lia.
      cbn [length]. split; [lia|]. split.
      * intros x [<-|Hx]; [lia|]. apply A2 in Hx. lia.
      * intros _. destruct (Nat.eq_dec b2 top); [left; auto|right; apply A3; lia].
    + rewrite plan_f_top by auto. cbn. repeat split; try contradiction; lia.
Qed.
End plan.

Lemma dp_maxmsb_ge : forall c x, In x c -> N.to_nat (hi x) <= dp_maxmsb c.
Proof.
  assert (G : forall c m, m <= fold_left (fun m x => Nat.max m (N.to_nat (hi x))) c m /\
    forall x, In x c -> N.to_nat (hi x) <= fold_left (fun m x => Nat.max m (N.to_nat (hi x))) c m).
  { induction c as [|y c IH]; intros m; cbn [fold_left]; [split; [lia|contradiction]|].
    destruct (IH (Nat.max m (N.to_nat (hi y)))) as [A B]. split; [lia|]. intros x [->|Hx]; [lia|auto]. }
  intros. apply G. auto.
Qed.

Lemma dp_make_m : forall V (inf zero : V) lt cw (fin : V -> Prop) maxl c,
  fin zero -> (forall v, fin v -> v <> inf) -> (forall b b2 v, fin v -> fin (cw b b2 v) /\ lt (cw b b2 v) inf = true) ->
  (forall b b2 v, lt (cw b b2 inf) v = false) -> 1 <= maxl ->
  exists d, dp_make inf zero lt cw maxl c = Some d /\ p_size d = length c /\ dp_load_size d = length c /\ length (p_data d) <= maxl /\
    forall i x, nth_error c i = Some x -> dp_get d i = Some x.
Proof.
  intros V inf zero lt cw fin maxl c Hz Hne Hfin Hinf Hl. unfold dp_make.
  destruct (plan_walk_ok inf zero lt cw fin Hz Hfin Hinf Hne (dp_maxmsb c + 1) maxl 0) as (A1 & A2 & A3); auto; try lia.
  set (bs := plan_walk inf zero lt cw (dp_maxmsb c + 1) maxl 0) in *.
  assert (C : covers bs c). { intros x Hx. exists (dp_maxmsb c + 1). split; [apply A3; lia|]. pose proof (dp_maxmsb_ge c x Hx). lia. }
  rewrite dp_build_ok by auto. eexists. split; [reflexivity|]. cbn [p_size p_data]. split; auto.
  split; [apply lvdata_total; auto|]. split.
  - rewrite lvdata_length. auto.
  - intros. apply dp_get_ok; auto.
Qed.
(** any plan whose widths cover the values *)
Lemma dp_plan_m : forall bs c, covers bs c -> exists d, dp_build bs c = Some d /\ p_size d = length c /\ dp_load_size d = length c /\
  forall i x, nth_error c i = Some x -> dp_get d i = Some x.
Proof.
  intros bs c C. rewrite dp_build_ok by auto. eexists. split; [reflexivity|]. split; auto. split; [apply lvdata_total; auto|]. intros. apply dp_get_ok; auto.
Qed.
