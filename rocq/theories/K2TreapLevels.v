(** * k2_treap: construction, level by level *)
From Coq Require Import List Arith Bool Lia NArith Permutation.
From Verif Require Import Base AbsVec FnArr WtBase WtProofs K2Treap K2Proofs K2Build K2TreapProofs.
Import ListNotations.

Lemma nodup_join : forall {A} (a b : list A), NoDup a -> NoDup b -> (forall x, In x a -> In x b -> False) -> NoDup (a ++ b).
Proof. induction a as [|x a IH]; intros b A1 B1 D; auto. cbn. inversion A1; subst. constructor. { intros X. apply in_app_or in X. destruct X; auto. apply (D x); auto. left. auto. } apply IH; auto. intros y Y Z. apply (D y); auto. right. auto. Qed.
Lemma filt_true : forall {A} (f : A -> bool) l, (forall x, In x l -> f x = true) -> filter f l = l.
Proof. induction l as [|a l IH]; intros H; auto. cbn. rewrite H by (left; auto). rewrite IH; auto. intros. apply H. right. auto. Qed.
Lemma filt_idx : forall {A} (f : A -> nat) (g : A -> bool) l s, (forall i c, nth_error l i = Some c -> g c = true -> f c = s + i) -> NoDup (map f (filter g l)) /\ forall x, In x (map f (filter g l)) -> s <= x.
Proof.
  intros A f g l. induction l as [|a l IH]; intros s H; cbn [filter]. { split. constructor. intros x []. }
  destruct (IH (S s)) as [N M]. { intros i c E G. rewrite (H (S i) c E G). lia. } destruct (g a) eqn:G; cbn [map].
  - pose proof (H 0 a eq_refl G) as F. split. { constructor; auto. intros X. specialize (M _ X). lia. } intros x [<- |X]; [lia|]. specialize (M x X). lia.
  - split; auto. intros x X. specialize (M x X). lia.
Qed.
Lemma concat_nonempty : forall {A} (L : list (list A)), concat (filter nonempty L) = concat L.
Proof. induction L as [|a L IH]; auto. cbn [filter concat]. destruct a as [|x a]; auto. cbn [nonempty length Nat.eqb negb concat]. rewrite IH. auto. Qed.
Lemma ones_map : forall {A} (g : A -> bool) l, ones (map g l) = length (filter g l).
Proof. induction l as [|a l IH]; auto. unfold ones in *. cbn [map filter]. destruct (g a); cbn [filter length]; rewrite IH; auto. Qed.
Lemma ones_app : forall a b, ones (a ++ b) = ones a + ones b.
Proof. intros. unfold ones. rewrite filter_app, app_length. auto. Qed.
Lemma NoDup_concat_in : forall {A} (L : list (list A)) c, NoDup (concat L) -> In c L -> NoDup c.
Proof. induction L as [|a L IH]; intros c N I; [destruct I|]. cbn [concat] in N. destruct I as [-> |I]. { clear IH. induction c as [|x c IHc]; constructor; cbn in N; inversion N; subst; auto. intros X. apply H1. apply in_or_app. auto. } apply IH; auto. clear - N. induction a; auto. cbn in N. inversion N; auto. Qed.
Lemma div_split : forall k a l, k <> 0 -> a / k ^ l = a / k ^ S l * k + a / k ^ l mod k.
Proof. intros k a l K. pose proof (Nat.pow_nonzero k l K). cbn [Nat.pow]. rewrite (Nat.mul_comm k (k ^ l)), <- Nat.div_div by auto. pose proof (Nat.div_mod (a / k ^ l) k K). lia. Qed.
Lemma span_ok : forall {A} (f : A -> bool) S rest, (forall x, In x S -> f x = true) -> match rest with [] => True | y :: _ => f y = false end -> span f (S ++ rest) = (S, rest).
Proof.
  induction S as [|a S IH]; intros rest H1 H2; cbn [app span]. { destruct rest as [|y r]; auto. cbn [span]. rewrite H2. auto. }
  rewrite (H1 a) by (left; auto). rewrite IH; auto. intros. apply H1. right. auto.
Qed.

Section L.
Variable k : nat.
Hypothesis K : 1 < k.
Variable part : (pt -> bool) -> list pt -> list pt * list pt.
Hypothesis PS : forall f l, Permutation l (fst (part f l) ++ snd (part f l)) /\ (forall e, In e (fst (part f l)) -> f e = true) /\ (forall e, In e (snd (part f l)) -> f e = false).
Definition tm (S : list pt) : pt * list pt := match take_max S with Some r => r | None => ((0, 0, 0), []) end.
Definition cellsof (l : nat) (S : list pt) : list (list pt) := cells k part l (snd (tm S)).
Definition kidsof (l : nat) (S : list pt) : list (list pt) := filter nonempty (cellsof l S).
Definition nbits (l : nat) (S : list pt) : list bool := map nonempty (cellsof l S).
Definition good (l : nat) (S : list pt) : Prop := S <> [] /\ (forall a b, In a S -> In b S -> same_cell k l a b = true) /\ NoDup (map fst S).
Definition key (l : nat) (S : list pt) : nat * nat := match S with e :: _ => (ptx e / k ^ l, pty e / k ^ l) | [] => (0, 0) end.
Definition goodL (l : nat) (L : list (list pt)) : Prop := (forall S, In S L -> good l S) /\ NoDup (map (key l) L).
Lemma tm_ok : forall S, S <> [] -> take_max S = Some (tm S) /\ Permutation S (fst (tm S) :: snd (tm S)) /\ forall e, In e S -> plt (fst (tm S)) e = false.
Proof. intros S NE. destruct (take_max_ok S NE) as (mx & rest & E & P & M). unfold tm. rewrite E. auto. Qed.
Lemma kids_perm : forall l S, S <> [] -> Permutation S (fst (tm S) :: concat (kidsof l S)).
Proof. intros l S NE. destruct (tm_ok S NE) as (_ & P & _). eapply Permutation_trans; [exact P|]. constructor. unfold kidsof. rewrite concat_nonempty. apply cells_perm; auto. Qed.
Lemma kids_in : forall l S c e, S <> [] -> In c (kidsof l S) -> In e c -> In e S.
Proof. intros l S c e NE C E. eapply Permutation_in; [apply Permutation_sym, (kids_perm l S NE)|]. right. apply in_concat. eauto. Qed.
Lemma same_iff : forall l a b, same_cell k l a b = true <-> ptx a / k ^ l = ptx b / k ^ l /\ pty a / k ^ l = pty b / k ^ l.
Proof. intros. unfold same_cell. rewrite andb_true_iff, !Nat.eqb_eq. tauto. Qed.
Lemma key_in : forall l S e, good l S -> In e S -> key l S = (ptx e / k ^ l, pty e / k ^ l).
Proof. intros l S e (NE & SC & _) I. destruct S as [|a S]; [contradiction|]. cbn [key]. destruct (proj1 (same_iff l a e) (SC a e ltac:(left; auto) I)). congruence. Qed.
Lemma cells_dig' : forall l S it c e, nth_error (cellsof (Datatypes.S l) S) it = Some c -> In e c -> ptx e / k ^ l mod k = it / k /\ pty e / k ^ l mod k = it mod k.
Proof. intros l S it c e N I. destruct (cells_dig k K part PS _ _ _ _ _ N I) as (A & B & _). unfold digx, digy in *. replace (Datatypes.S l - 1) with l in * by lia. auto. Qed.
Lemma kid_good : forall l S c, good (Datatypes.S l) S -> In c (kidsof (Datatypes.S l) S) -> good l c.
Proof.
  intros l S c (NE & SC & ND) C. pose proof C as C'. unfold kidsof in C'. apply filter_In in C'. destruct C' as [C' CN]. destruct (In_nth_error _ _ C') as [it IT]. split; [|split].
  - intros ->. discriminate.
  - intros a b A B. apply same_iff. destruct (cells_dig' _ _ _ _ _ IT A) as [A1 A2]. destruct (cells_dig' _ _ _ _ _ IT B) as [B1 B2]. pose proof (kids_in _ _ _ _ NE C A) as IA. pose proof (kids_in _ _ _ _ NE C B) as IB. destruct (proj1 (same_iff _ _ _) (SC a b IA IB)) as [E1 E2].
    rewrite (div_split k (ptx a) l), (div_split k (ptx b) l), (div_split k (pty a) l), (div_split k (pty b) l) by lia. rewrite E1, E2, A1, A2, B1, B2. auto.
  - pose proof (Permutation_map fst (kids_perm (Datatypes.S l) S NE)) as PM. pose proof (Permutation_NoDup PM ND) as N2. cbn [map] in N2. apply NoDup_cons_iff in N2. destruct N2 as [_ N2]. rewrite concat_map in N2. eapply NoDup_concat_in; [exact N2|]. apply in_map. auto.
Qed.
Lemma kid_key : forall l S c, good (Datatypes.S l) S -> In c (kidsof (Datatypes.S l) S) -> (fst (key l c) / k, snd (key l c) / k) = key (Datatypes.S l) S.
Proof.
  intros l S c G C. pose proof (kid_good l S c G C) as GC. destruct c as [|e c]; [destruct GC; contradiction|]. rewrite (key_in l _ e GC) by (left; auto). cbn [fst snd]. rewrite (key_in (Datatypes.S l) S e G). 2: { eapply kids_in; [apply G|exact C|left; auto]. }
  assert (k <> 0) by lia. rewrite !Nat.div_div by (try apply Nat.pow_nonzero; auto). cbn [Nat.pow]. rewrite (Nat.mul_comm k). auto.
Qed.
Lemma kids_keys : forall l S, good (Datatypes.S l) S -> NoDup (map (key l) (kidsof (Datatypes.S l) S)).
Proof.
  intros l S G. apply (NoDup_map_inv (fun p => k * (fst p mod k) + snd p mod k)). rewrite map_map. unfold kidsof. apply (filt_idx _ nonempty _ 0). intros it c N NE. assert (C : In c (kidsof (Datatypes.S l) S)). { apply filter_In. split; auto. eapply nth_error_In; eauto. }
  pose proof (kid_good l S c G C) as GC. destruct c as [|e c]; [discriminate|]. rewrite (key_in l _ e GC) by (left; auto). cbn [fst snd]. destruct (cells_dig' l S it (e :: c) e N ltac:(left; auto)) as [-> ->]. pose proof (Nat.div_mod it k ltac:(lia)). lia.
Qed.
Lemma next_good : forall l L, goodL (Datatypes.S l) L -> goodL l (flat_map (kidsof (Datatypes.S l)) L).
Proof.
  intros l L [G N]. split. { intros c C. apply in_flat_map in C. destruct C as (S & IS & C). apply (kid_good l S); auto. }
  induction L as [|S L IH]; cbn [flat_map map]; [constructor|]. rewrite map_app. cbn [map] in N. apply NoDup_cons_iff in N. destruct N as [N1 N2]. apply nodup_join.
  - apply kids_keys. apply G. left. auto.
  - apply IH; auto. intros. apply G. right. auto.
  - intros x X Y. apply N1. apply in_map_iff in X. destruct X as (c & Q1 & X). apply in_map_iff in Y. destruct Y as (c' & Q2 & Y). apply in_flat_map in Y. destruct Y as (S' & IS & Y). apply in_map_iff. exists S'. split; auto.
    rewrite <- (kid_key l S' c'); auto; [|apply G; right; auto]. rewrite Q2, <- Q1. apply kid_key; auto. apply G. left. auto.
Qed.
(** one level of the code *)
Definition cof (l : nat) (S : list pt) : list nat := [ptx (fst (tm S)) mod k ^ l; pty (fst (tm S)) mod k ^ l].
Definition newv (l : nat) (MM : pt) (S : list pt) : list pt := (if l =? 0 then snd (tm S) else concat (cellsof l S)) ++ [MM].
Lemma level_ok : forall L fuel l MM cc pre vals bits vv, goodL l L -> length L <= fuel -> (l <> 0 -> length pre = 2 * cc) ->
  level k part fuel l MM cc (concat L) (mklst (pre ++ (if l =? 0 then [] else repeat 0 (2 * length L))) vals bits vv) =
  Some (mklst (pre ++ if l =? 0 then [] else flat_map (cof l) L) (vals ++ map (fun S => ptw (fst (tm S))) L) (bits ++ if l =? 0 then [] else flat_map (nbits l) L) (vv ++ flat_map (newv l MM) L)).
Proof.
  induction L as [|S L IH]; intros fuel l MM cc pre vals bits vv [G N] F LP.
  - cbn [concat level flat_map map length]. destruct fuel; cbn [level]; destruct (l =? 0); rewrite !app_nil_r; auto.
  - destruct fuel as [|fuel]; [cbn in F; lia|]. pose proof (G S ltac:(left; auto)) as GS. destruct S as [|e S]; [destruct GS; contradiction|]. cbn [concat]. rewrite <- app_comm_cons. cbn [level]. rewrite app_comm_cons. cbn [map] in N. apply NoDup_cons_iff in N. destruct N as [N1 N2].
    rewrite span_ok.
    2: { intros x X. apply GS; auto. left. auto. }
    2: { destruct L as [|S' L]; [exact I|]. pose proof (G S' ltac:(right; left; auto)) as GS'. destruct S' as [|e' S']; [destruct GS'; contradiction|]. cbn [concat app]. destruct (same_cell k l e e') eqn:Q; auto. exfalso. apply N1. left. apply same_iff in Q. cbn [key]. destruct Q. congruence. }
    cbn [fst snd]. destruct (tm_ok (e :: S) ltac:(discriminate)) as (TM & _ & _). rewrite TM. cbn [obind]. destruct (tm (e :: S)) as [mx rest] eqn:ET. cbn [fst snd] in *.
    assert (GL : goodL l L) by (split; auto; intros; apply G; right; auto). cbn [length] in F.
    assert (NC : cof l (e :: S) = [ptx mx mod k ^ l; pty mx mod k ^ l]) by (unfold cof; rewrite ET; auto).
    assert (NB : nbits l (e :: S) = map nonempty (cells k part l rest)) by (unfold nbits, cellsof; rewrite ET; auto).
    assert (NV : newv l MM (e :: S) = (if l =? 0 then rest else concat (cells k part l rest)) ++ [MM]) by (unfold newv, cellsof; rewrite ET; auto).
    destruct (Nat.eqb_spec l 0) as [-> |Z].
    + cbn [l_coord l_vals l_bits l_v]. pose proof (IH fuel 0 MM cc pre (vals ++ [ptw mx]) bits (vv ++ rest ++ [MM]) GL ltac:(lia)) as H. cbn [Nat.eqb] in H. rewrite H by lia. cbn [flat_map map]. rewrite NV, ET. cbn [fst snd Nat.eqb]. rewrite <- !app_assoc. auto.
    + specialize (LP Z). cbn [length l_coord l_vals l_bits l_v]. replace (2 * Datatypes.S (length L)) with (Datatypes.S (Datatypes.S (2 * length L))) by lia. cbn [repeat].
      rewrite aset_some by (rewrite app_length; cbn; lia). cbn [obind]. rewrite upd_app_r by lia. replace (2 * cc - length pre) with 0 by lia. cbn [upd]. rewrite aset_some by (rewrite app_length; cbn; lia). cbn [obind]. rewrite upd_app_r by lia. replace (2 * cc + 1 - length pre) with 1 by lia. cbn [upd].
      pose proof (IH fuel l MM (cc + 1) (pre ++ cof l (e :: S)) (vals ++ [ptw mx]) (bits ++ nbits l (e :: S)) (vv ++ newv l MM (e :: S)) GL ltac:(lia)) as H. destruct (Nat.eqb_spec l 0) as [|_]; [lia|]. rewrite NC, NB, NV in H. rewrite <- !app_assoc in H. cbn [app] in H. rewrite H by (rewrite app_length; cbn [length]; lia).
      cbn [flat_map map]. rewrite NC, NB, NV, ET. cbn [fst snd app]. rewrite <- !app_assoc. auto.
Qed.
(** all levels *)
Section All.
Variables (t : nat) (v : list pt).
Hypothesis NE : v <> [].
Hypothesis BND : forall e, In e v -> ptx e < k ^ t /\ pty e < k ^ t.
Hypothesis DST : NoDup (map fst v).
Variable MM : pt.
Hypothesis HM : ptx MM = k ^ t.
Fixpoint Lj (j : nat) : list (list pt) := match j with 0 => [v] | S j' => flat_map (kidsof (t - j')) (Lj j') end.
Definition A (j : nat) : nat := psum (fun i => length (Lj i)) j.
Lemma Lj_good : forall j, j <= t -> goodL (t - j) (Lj j).
Proof.
  induction j as [|j IH]; intros J; cbn [Lj].
  - rewrite Nat.sub_0_r. split. 2: { cbn. constructor. intros []. constructor. } intros S [<- |[]]. split; auto. split; auto. intros a b IA IB. apply same_iff. destruct (BND a IA), (BND b IB). rewrite !Nat.div_small by auto. auto.
  - replace (t - j) with (S (t - S j)) by lia. apply next_good. replace (S (t - S j)) with (t - j) by lia. apply IH. lia.
Qed.
Lemma Lj_bound : forall j, forall S e, j <= t -> In S (Lj j) -> In e S -> In e v.
Proof.
  induction j as [|j IH]; intros S e J IS IE; cbn [Lj] in IS. { destruct IS as [<- |[]]. auto. }
  apply in_flat_map in IS. destruct IS as (S' & IS' & C). apply (IH S' e ltac:(lia) IS'). eapply kids_in; eauto. destruct (Lj_good j ltac:(lia)) as [G _]. apply G. auto.
Qed.
Lemma newv_filter : forall l L, l <> 0 -> (forall S e, In S L -> In e S -> ptx e < k ^ t) -> (forall S, In S L -> S <> []) -> filter (fun e => negb (pteqb e MM)) (flat_map (newv l MM) L) = concat (flat_map (kidsof l) L).
Proof.
  intros l L Z. induction L as [|S L IH]; intros B N; auto. cbn [flat_map]. rewrite filter_app, concat_app. rewrite IH by (intros; try (eapply B; [right|]; eauto); apply N; right; auto). f_equal. unfold newv. destruct (Nat.eqb_spec l 0); [contradiction|]. rewrite filter_app. unfold kidsof. rewrite concat_nonempty.
  cbn [filter]. unfold pteqb at 2. rewrite !Nat.eqb_refl. cbn [andb negb]. rewrite app_nil_r. apply filt_true. intros e E. unfold pteqb. rewrite HM. destruct (Nat.eqb_spec (ptx e) (k ^ t)) as [Q|]; auto. assert (ptx e < k ^ t); [|lia]. apply (B S e ltac:(left; auto)).
  destruct (tm_ok S (N S ltac:(left; auto))) as (_ & P & _). eapply Permutation_in; [apply Permutation_sym; exact P|]. right. eapply Permutation_in; [apply Permutation_sym, (cells_perm k K part PS l)|]. exact E.
Qed.
Definition vl (j : nat) : list nat := map (fun S => ptw (fst (tm S))) (Lj j).
Definition bl (j : nat) : list bool := flat_map (nbits (t - j)) (Lj j).
Lemma bl_len : forall j, length (bl j) = k * k * length (Lj j).
Proof. intros. unfold bl. apply fm_len. intros. unfold nbits. rewrite map_length. apply cells_len. Qed.
Lemma bl_ones : forall j, ones (bl j) = length (Lj (S j)).
Proof. intros j. unfold bl. cbn [Lj]. generalize (Lj j). intros L. induction L as [|S L IH]; auto. cbn [flat_map]. rewrite ones_app, app_length, IH. f_equal. unfold nbits. apply ones_map. Qed.
Definition st (j : nat) : bst :=
  mkbst (farr (1 + t) (fun x => if t - j <=? x then A (t - x) else 0)) (farr t (fun x => if t - j <=? x then flat_map (cof (x + 1)) (Lj (t - x - 1)) else []))
    (flat_map vl (seq 0 j)) (flat_map bl (seq 0 j)) (concat (Lj j)) (length (Lj j)).
Lemma concat_len : forall (L : list (list pt)), (forall S, In S L -> S <> []) -> length L <= length (concat L).
Proof. induction L as [|S L IH]; intros H; auto. cbn [concat length]. rewrite app_length. pose proof (H S ltac:(left; auto)). destruct S; [contradiction|]. cbn [length]. specialize (IH ltac:(intros; apply H; right; auto)). lia. Qed.
Lemma flat_snoc : forall {B} (f : nat -> list B) j, flat_map f (seq 0 (S j)) = flat_map f (seq 0 j) ++ f j.
Proof. intros. rewrite seq_S, flat_map_app. cbn. rewrite app_nil_r. auto. Qed.
Lemma one_level_ok : forall j, j < t -> one_level k part (t - j) MM (st j) = Some (st (S j)).
Proof.
  intros j J. unfold one_level. destruct (Nat.eqb_spec (t - j) 0); [lia|]. unfold st at 1 2 3 4 5 6 7 8. cbn [b_lidx b_coord b_last b_v b_vals b_bits]. rewrite farr_nth_error by lia. cbn [obind]. rewrite Nat.leb_refl. rewrite farr_aset by lia. cbn [obind].
  destruct (Lj_good j ltac:(lia)) as [G N].
  pose proof (level_ok (Lj j) (length (concat (Lj j))) (t - j) MM 0 [] [] [] [] (conj G N)) as H. destruct (Nat.eqb_spec (t - j) 0) as [|_] in H; [lia|]. cbn [app] in H. rewrite H; auto. 2: { apply concat_len. intros S IS. apply G. auto. }
  cbn [obind l_coord l_vals l_bits l_v]. rewrite farr_aset by lia. cbn [obind]. f_equal. unfold st. cbn [b_lidx b_coord b_last b_v b_vals b_bits]. rewrite !flat_snoc. f_equal.
  - apply farr_ext. intros x X. destruct (Nat.eqb_spec x (t - j - 1)) as [-> |Z].
    + destruct (Nat.leb_spec (t - S j) (t - j - 1)); [|lia]. replace (t - (t - j)) with j by lia. replace (t - (t - j - 1)) with (S j) by lia. auto.
    + destruct (Nat.leb_spec (t - j) x), (Nat.leb_spec (t - S j) x); auto; lia.
  - apply farr_ext. intros x X. destruct (Nat.eqb_spec x (t - j - 1)) as [-> |Z].
    + destruct (Nat.leb_spec (t - S j) (t - j - 1)); [|lia]. replace (t - (t - j - 1) - 1) with j by lia. replace (t - j - 1 + 1) with (t - j) by lia. auto.
    + destruct (Nat.leb_spec (t - j) x), (Nat.leb_spec (t - S j) x); auto; lia.
  - rewrite newv_filter; auto. { intros S e IS IE. apply BND. apply (Lj_bound j S); auto. lia. } intros S IS. apply G. auto.
  - apply bl_ones.
Qed.
Lemma last_level_ok : exists v' n', one_level k part 0 MM (st t) = Some (mkbst (b_lidx (st t)) (b_coord (st t)) (flat_map vl (seq 0 (S t))) (flat_map bl (seq 0 t)) v' n').
Proof.
  unfold one_level. cbn [Nat.eqb obind]. destruct (Lj_good t ltac:(lia)) as [G N]. rewrite Nat.sub_diag in *.
  pose proof (level_ok (Lj t) (length (concat (Lj t))) 0 MM 0 [] [] [] [] (conj G N)) as H. cbn [Nat.eqb app] in H. cbn [b_v st]. rewrite H; [|apply concat_len; intros S IS; apply G; auto|lia].
  cbn [obind l_coord l_vals l_bits l_v]. eexists _, _. f_equal. rewrite flat_snoc. cbn [b_vals b_bits st]. rewrite app_nil_r. auto.
Qed.
Lemma all_levels_ok : forall l j, j + l = t -> exists v' n', all_levels k part l MM (st j) = Some (mkbst (b_lidx (st t)) (b_coord (st t)) (flat_map vl (seq 0 (S t))) (flat_map bl (seq 0 t)) v' n').
Proof.
  induction l as [|l IH]; intros j J; cbn [all_levels].
  - replace j with t by lia. destruct last_level_ok as (v' & n' & E). rewrite E. cbn [obind]. eauto.
  - replace (S l) with (t - j) by lia. rewrite one_level_ok by lia. cbn [obind]. apply IH. lia.
Qed.
Lemma st0 : mkbst (repeat 0 (1 + t)) (repeat [] t) [] [] v 1 = st 0.
Proof.
  unfold st. cbn [seq flat_map Lj concat length]. rewrite app_nil_r. f_equal.
  - rewrite farr_repeat. apply farr_ext. intros x X. destruct (Nat.leb_spec (t - 0) x); auto. replace (t - x) with 0 by lia. auto.
  - rewrite farr_repeat. apply farr_ext. intros x X. destruct (Nat.leb_spec (t - 0) x); auto. lia.
Qed.
End All.
End L.
