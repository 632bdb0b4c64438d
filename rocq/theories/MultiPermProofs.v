From Coq Require Import NArith List Bool Arith Lia Permutation.
From Verif Require Import Base Bits SpecBits RankSelect AbsVec RrrVector InvPerm InvPermProofs WtBase WtProofs SelectSupportProofs3 MultiPerm GmrProofs.
Import ListNotations.

Section P.
Variables (ts cs : nat) (v : list nat).
Hypothesis TS : 1 <= ts.
Hypothesis CS : 1 <= cs.
Let n := length v.
Definition off (i : nat) : nat := i / cs * cs.
Hypothesis R : forall i x, nth_error v i = Some x -> x < cs /\ off i + x < n.
Hypothesis I : forall i j x, nth_error v i = Some x -> nth_error v j = Some x -> off i = off j -> i = j.

Lemma off_iff : forall m x, off x = m * cs <-> m * cs <= x < m * cs + cs.
Proof.
  clear TS R I. intros m x. unfold off. pose proof (Nat.div_mod x cs ltac:(lia)). pose proof (Nat.mod_upper_bound x cs ltac:(lia)). split.
  - intro E. lia.
  - intro E. f_equal. symmetry. apply (Nat.div_unique x cs m (x - m * cs)); lia.
Qed.
Lemma off_add : forall i x, x < cs -> off (x + off i) = off i.
Proof. clear TS R I. intros i x X. unfold off at 2 3. apply off_iff. unfold off. lia. Qed.
Lemma off_le : forall i, off i <= i < off i + cs.
Proof. clear TS R I. intro i. apply (proj1 (off_iff (i / cs) i)). reflexivity. Qed.

Definition gv : list nat := map (fun i => nth i v 0 + off i) (seq 0 n).
Lemma gv_len : length gv = n.
Proof. unfold gv. rewrite map_length, seq_length. auto. Qed.
Lemma gv_nth : forall j x, nth_error v j = Some x -> nth_error gv j = Some (x + off j).
Proof.
  intros j x E. unfold gv. assert (J : j < n) by (apply nth_error_Some; congruence).
  rewrite (nth_error_nth' _ 0) by (rewrite map_length, seq_length; auto).
  rewrite (nth_indep _ 0 (nth 0 v 0 + off 0)) by (rewrite map_length, seq_length; auto).
  rewrite (map_nth (fun i => nth i v 0 + off i)), seq_nth by auto. cbn. rewrite (nth_error_nth v j 0 E). auto.
Qed.
Lemma gv_range : forall x, In x gv -> x < length gv.
Proof.
  intros x X. rewrite gv_len. apply In_nth_error in X. destruct X as [j J].
  assert (JN : j < n) by (rewrite <- gv_len; apply nth_error_Some; congruence).
  pose proof (nth_error_nth' v 0 JN) as E. rewrite (gv_nth _ _ E) in J. injection J as <-. destruct (R _ _ E). lia.
Qed.
Lemma gv_nodup : NoDup gv.
Proof.
  apply NoDup_nth_error. intros a b A E. rewrite gv_len in A.
  assert (B : b < n). { rewrite <- gv_len. apply nth_error_Some. rewrite <- E. apply nth_error_Some. rewrite gv_len. auto. }
  pose proof (nth_error_nth' v 0 A) as EA. pose proof (nth_error_nth' v 0 B) as EB.
  rewrite (gv_nth _ _ EA), (gv_nth _ _ EB) in E. injection E as E.
  assert (O : off a = off b).
  { rewrite <- (off_add a (nth a v 0)) by (apply (R _ _ EA)). rewrite E. apply off_add. apply (R _ _ EB). }
  apply (I a b (nth a v 0)); auto. rewrite EB. f_equal. lia.
Qed.

(** ** the passes simulate those of inv_perm_support over the global permutation *)
Section Sim.
Context {A : Type}.
Variable act : A -> nat -> nat -> option A.
Definition act2 (st : A) (j b : nat) : option A := act st j (b - off j).
Definition rel (o : nat) (dl dg : list bool) : Prop := length dl = cs /\ length dg = n /\
  forall x, x < n -> off x = o -> nth (x - o) dl false = nth x dg false.

Lemma csub_ge : forall a b, b <= a -> csub a b = Some (a - b).
Proof. intros. apply csub_some. lia. Qed.

Lemma cycle_sim : forall fuel i j bp steps all dl dg st, i < n -> j < n -> bp < n -> off j = off i -> off bp = off i -> rel (off i) dl dg ->
  match ip_cycle ts gv act2 fuel i j bp steps all dg st with
  | Some (dg', st') => exists dl', mp_cycle ts v act fuel (off i) i j bp steps all dl st = Some (dl', st') /\ rel (off i) dl' dg' /\
      (forall x, off x <> off i -> nth x dg' false = nth x dg false)
  | None => mp_cycle ts v act fuel (off i) i j bp steps all dl st = None
  end.
Proof.
  induction fuel as [|fuel IH]; intros i j bp steps all dl dg st IN JN BN OJ OB RL; [reflexivity|].
  cbn [ip_cycle mp_cycle]. pose proof (nth_error_nth' v 0 JN) as E. rewrite (gv_nth _ _ E), E. cbn [obind]. set (x := nth j v 0) in *. rewrite OJ.
  destruct (R _ _ E) as [X1 X2]. rewrite OJ in X2. pose proof (off_add i x X1) as OX.
  pose proof (off_le bp) as LB. rewrite OB in LB.
  destruct (Nat.eqb_spec (x + off i) i) as [EQ|NE].
  - destruct (ts <? all).
    + rewrite csub_ge by lia. cbn [obind]. unfold act2. destruct (act st i (bp - off i)); cbn [obind]; auto. exists dl. auto.
    + exists dl. auto.
  - rewrite csub_ge by lia. cbn [obind]. replace (x + off i - off i) with x by lia. destruct RL as (L1 & L2 & L3).
    rewrite !aset_some by lia. cbn [obind].
    assert (RL' : rel (off i) (upd dl x true) (upd dg (x + off i) true)).
    { split; [rewrite upd_length; auto|]. split; [rewrite upd_length; auto|]. intros y Y OY. pose proof (off_le y) as LY. rewrite OY in LY.
      rewrite !nth_upd by lia. rewrite <- L3 by auto. 
      destruct (Nat.eqb_spec y (x + off i)) as [->|NY].
      - replace (x + off i - off i =? x) with true by (symmetry; apply Nat.eqb_eq; lia).
        replace (x + off i <? length dg) with true by (symmetry; apply Nat.ltb_lt; lia).
        replace (x + off i - off i <? length dl) with true by (symmetry; apply Nat.ltb_lt; lia).
        try (replace (x <? length dl) with true by (symmetry; apply Nat.ltb_lt; lia)). auto.
      - replace (y - off i =? x) with false by (symmetry; apply Nat.eqb_neq; lia). auto. }
    assert (KEEP : forall y, off y <> off i -> nth y (upd dg (x + off i) true) false = nth y dg false).
    { intros y Y. rewrite nth_upd by lia. replace (y =? x + off i) with false; auto. symmetry. apply Nat.eqb_neq. intros ->. auto. }
    destruct (ts =? steps + 1).
    + rewrite csub_ge by lia. cbn [obind]. unfold act2 at 1. rewrite OX. destruct (act st (x + off i) (bp - off i)) as [st1|]; cbn [obind]; auto.
      specialize (IH i (x + off i) (x + off i) 0 (all + 1) _ _ st1 IN ltac:(lia) ltac:(lia) OX OX RL').
      destruct (ip_cycle ts gv act2 fuel i (x + off i) (x + off i) 0 (all + 1) (upd dg (x + off i) true) st1) as [[dg' st']|]; auto.
      destruct IH as (dl' & E1 & E2 & E3). exists dl'. split; auto. split; auto. intros y Y. rewrite E3; auto.
    + specialize (IH i (x + off i) bp (steps + 1) (all + 1) _ _ st IN ltac:(lia) BN OX OB RL').
      destruct (ip_cycle ts gv act2 fuel i (x + off i) bp (steps + 1) (all + 1) (upd dg (x + off i) true) st) as [[dg' st']|]; auto.
      destruct IH as (dl' & E1 & E2 & E3). exists dl'. split; auto. split; auto. intros y Y. rewrite E3; auto.
Qed.

Lemma pass_sim : forall k i m dl dg st, i + k = n -> m * cs <= i <= m * cs + cs -> rel (m * cs) dl dg ->
  (forall x, m * cs + cs <= x -> nth x dg false = false) ->
  mp_pass ts cs v act k i (m * cs) dl st = ip_pass ts gv act2 k i dg st.
Proof.
  induction k as [|k IH]; intros i m dl dg st IK B RL FA; [reflexivity|].
  assert (STEP : forall m dl, off i = m * cs -> rel (m * cs) dl dg -> (forall x, m * cs + cs <= x -> nth x dg false = false) ->
    (let* o := csub i (m * cs) in let* d := nth_error dl o in
     if d then mp_pass ts cs v act k (S i) (m * cs) dl st
     else let* done := aset dl o true in
          let* (done, st) := mp_cycle ts v act (length v + 1) (m * cs) i i i 0 0 done st in
          mp_pass ts cs v act k (S i) (m * cs) done st) = ip_pass ts gv act2 (S k) i dg st).
  { clear m dl B RL FA. intros m dl OI RL FA. pose proof (off_le i) as LI. rewrite OI in LI. pose proof RL as (L1 & L2 & L3).
    rewrite csub_ge by lia. cbn [obind ip_pass]. rewrite (nth_error_nth' dl false) by lia. rewrite (nth_error_nth' dg false) by lia. cbn [obind].
    rewrite L3 by (auto; lia). destruct (nth i dg false) eqn:D.
    { apply IH; auto; lia. }
    rewrite !aset_some by lia. cbn [obind]. rewrite gv_len. fold n.
    assert (RL' : rel (off i) (upd dl (i - m * cs) true) (upd dg i true)).
    { split; [rewrite upd_length; auto|]. split; [rewrite upd_length; auto|]. intros y Y OY. pose proof (off_le y) as LY. rewrite OY, OI in LY.
      rewrite !nth_upd by lia. rewrite OI in *. rewrite <- L3 by auto.
      destruct (Nat.eqb_spec y i) as [->|NY].
      - rewrite Nat.eqb_refl. replace (i <? length dg) with true by (symmetry; apply Nat.ltb_lt; lia).
        replace (i - m * cs <? length dl) with true by (symmetry; apply Nat.ltb_lt; lia). auto.
      - replace (y - m * cs =? i - m * cs) with false by (symmetry; apply Nat.eqb_neq; lia). auto. }
    pose proof (cycle_sim (n + 1) i i i 0 0 _ _ st ltac:(lia) ltac:(lia) ltac:(lia) eq_refl eq_refl RL') as CY. rewrite OI in *.
    destruct (ip_cycle ts gv act2 (n + 1) i i i 0 0 (upd dg i true) st) as [[dg' st']|].
    - destruct CY as (dl' & E1 & E2 & E3). rewrite E1. cbn [obind]. apply IH; auto; try lia.
      intros x X. assert (NX : off x <> m * cs). { intro Q. apply off_iff in Q. lia. } rewrite E3 by auto.
      rewrite nth_upd by lia. replace (x =? i) with false by (symmetry; apply Nat.eqb_neq; lia). apply FA. auto.
    - rewrite CY. reflexivity. }
  cbn [mp_pass]. destruct (Nat.eqb_spec i (m * cs + cs)) as [->|NE].
  - replace (m * cs + cs) with (S m * cs) in * by lia. apply (STEP (S m)).
    + apply off_iff. lia.
    + destruct RL as (L1 & L2 & L3). split; [apply repeat_length|]. split; auto. intros x X OX. rewrite nth_repeat. symmetry. apply FA.
      apply off_iff in OX. lia.
    + intros x X. apply FA. lia.
  - apply STEP; auto. apply off_iff. lia.
Qed.

Lemma pass_eq : forall st, mp_pass ts cs v act n 0 0 (repeat false cs) st = ip_pass ts gv act2 n 0 (repeat false n) st.
Proof.
  intro st. apply (pass_sim n 0 0); try lia.
  - split; [apply repeat_length|]. split; [apply repeat_length|]. intros. rewrite !nth_repeat. auto.
  - intros. apply nth_repeat.
Qed.
Lemma facts2 : forall es st, facts act2 st es = facts act st (map (fun e => (fst e, snd e - off (fst e))) es).
Proof. induction es as [|[j b] es IH]; intro st; cbn; auto. unfold act2 at 1. destruct (act st j (b - off j)); cbn; auto. Qed.
End Sim.

(** ** operator[] simulates that of inv_perm_support *)
Section Query.
Variables p q : invperm.
Hypothesis MQ : ip_marked q = ip_marked p.
Hypothesis LM : length (ip_marked p) = n.
Hypothesis BQ : forall j, j < n -> nth j (ip_marked p) false = true ->
  exists b, avn (ip_bp p) (ip_rank (ip_marked p) j) = Some b /\ avn (ip_bp q) (ip_rank (ip_marked p) j) = Some (b + off j) /\ b + off j < n /\ b < cs.

Lemma walk_sim : forall fuel i j, j < n -> off j = off i -> mp_walk v fuel (off i) i j = ip_walk gv fuel i j.
Proof.
  induction fuel as [|fuel IH]; intros i j J O; [reflexivity|]. cbn [mp_walk ip_walk].
  pose proof (nth_error_nth' v 0 J) as E. rewrite (gv_nth _ _ E), E. cbn [obind]. rewrite O.
  destruct (R _ _ E) as [X1 X2]. destruct (nth j v 0 + off i =? i); auto. apply IH; [lia|]. apply off_add. auto.
Qed.
Lemma search_sim : forall fuel i j, j < n -> off j = off i -> mp_search v p fuel (off i) i j = ip_search gv q fuel i j.
Proof.
  induction fuel as [|fuel IH]; intros i j J O; [reflexivity|]. cbn [mp_search ip_search].
  pose proof (nth_error_nth' v 0 J) as E. rewrite (gv_nth _ _ E), E. cbn [obind]. rewrite O, MQ.
  destruct (R _ _ E) as [X1 X2]. destruct (nth j v 0 + off i =? i); auto.
  rewrite (nth_error_nth' (ip_marked p) false) by lia. cbn [obind]. destruct (nth j (ip_marked p) false) eqn:M.
  - destruct (BQ j J M) as (b & B1 & B2 & B3 & B4). rewrite B1, B2. cbn [obind]. rewrite O in *. apply walk_sim; auto. apply off_add. auto.
  - apply IH; [lia|]. apply off_add. auto.
Qed.
End Query.

Theorem mp_ok : (N.of_nat n < W64)%N ->
  exists p, mp_make ts cs v = Some p /\ forall i x, nth_error v i = Some x -> mp_get cs v p (2 * ts + 2) (off i + x) = Some i.
Proof.
  intros NW.
  assert (OK0 : evs_ok ts gv []) by (intros j b []).
  destruct (pass_spec ts TS gv gv_range gv_nodup n 0 (repeat false n) []) as (es & E & OK & CV); auto.
  { rewrite gv_len. auto. } { rewrite gv_len. apply repeat_length. } { intros x X F. rewrite nth_repeat in F. discriminate. } { intros. lia. }
  cbn [app] in *. rewrite gv_len in CV.
  set (es' := map (fun e => (fst e, snd e - off (fst e))) es).
  assert (EV : forall j b, In (j, b) es -> j < n /\ b < n /\ off b = off j).
  { intros j b J. destruct (OK j b J) as (J1 & J2 & (g & G & IT) & _). rewrite gv_len in *. split; auto. split; auto.
    rewrite <- IT. clear - J2 R CS. assert (H : forall g, it gv g b < n /\ off (it gv g b) = off b).
    { intro g0. induction g0 as [|g0 IHg]; [cbn [it]; auto|]. destruct IHg as [IH1 IH2]. cbn [it]. unfold nxt. pose proof (nth_error_nth' v 0 IH1) as EE. rewrite (nth_error_nth _ _ 0 (gv_nth _ _ EE)).
      destruct (R _ _ EE). split; [lia|]. rewrite off_add; auto. }
    symmetry. apply H. }
  assert (EV' : forall j b, In (j, b) es' -> exists b0, In (j, b0) es /\ b = b0 - off j /\ j < n /\ b < n).
  { intros j b J. unfold es' in J. apply in_map_iff in J. destruct J as ([j0 b0] & Q & J). cbn [fst snd] in Q. injection Q as <- <-.
    destruct (EV _ _ J) as (J1 & J2 & J3). exists b0. repeat split; auto; lia. }
  assert (EP : forall j, epos es' j <-> epos es j).
  { intro j. split; intros [b B].
    - destruct (EV' _ _ B) as (b0 & B0 & _). exists b0. auto.
    - exists (b - off j). unfold es'. apply in_map_iff. exists (j, b). auto. }
  destruct (mark_spec ts TS gv gv_range es' (repeat false n) 0) as (m & mx & EM & LM & MX & BB & MK).
  { rewrite gv_len. apply repeat_length. }
  { intros j b J. rewrite gv_len. destruct (EV' _ _ J) as (b0 & _ & _ & J1 & J2). auto. } { lia. }
  rewrite gv_len in *.
  assert (MK' : forall x, x < n -> (nth x m false = true <-> epos es x)).
  { intros x X. rewrite MK by auto. rewrite nth_repeat, EP. split; auto. intros [Q|Q]; [discriminate|auto]. }
  destruct (store_spec ts TS gv gv_range m (hiw (N.of_nat mx)) ltac:(rewrite gv_len; auto) es' es' [] (av_new (ip_rank m n) 0 (hiw (N.of_nat mx)))) as (bp & EB & BPK).
  { intros j b J. cbn [app] in J. split; auto. destruct (EV' j b J) as (b0 & J0 & _ & J1 & J2). rewrite gv_len. split; auto. split.
    - apply MK'; auto. exists b0. auto.
    - apply hiw_fits; [lia|]. specialize (BB j b J). lia. }
  { rewrite gv_len. apply av_size_new. } { reflexivity. } { intros j [b []]. }
  exists (mkip m bp). split.
  { unfold mp_make. fold n. rewrite !pass_eq. rewrite E, facts2. fold es'. rewrite EM. cbn [obind]. rewrite pass_eq, E, facts2. fold es'. rewrite EB. reflexivity. }
  (* the same pointers, global *)
  set (g := fun j => nth j m false).
  set (q := mkip m (mkav 64 (map (fun j => match avn bp (ip_rank m j) with Some b => N.of_nat (b + off j) | None => 0%N end) (positions g n)))).
  assert (BQ0 : forall j, j < n -> g j = true -> exists b, In (j, b) es /\ avn bp (ip_rank m j) = Some (b - off j) /\ avn (ip_bp q) (ip_rank m j) = Some b /\ off b = off j /\ b < n).
  { intros j J GJ. assert (PJ : epos es' j) by (apply EP, MK'; auto). destruct (BPK j PJ) as (b & B & G). destruct (EV' _ _ B) as (b0 & B0 & -> & _).
    destruct (EV _ _ B0) as (_ & B2 & B3). exists b0. split; auto. split; auto. split; auto.
    unfold q, avn, av_get. cbn [ip_bp av_l]. change (ip_rank m j) with (rank_of g j). rewrite nth_error_map, nth_pos by auto. cbn [option_map].
    unfold avn, av_get in G. rewrite G. rewrite Nnat.Nat2N.id. pose proof (off_le b0). f_equal. lia. }
  intros i x IX. assert (IN : i < n) by (apply nth_error_Some; congruence). destruct (R _ _ IX) as [X1 X2].
  edestruct (InvPermProofs.get_ok ts TS gv gv_range gv_nodup q es OK) with (i := off i + x) as (j & G & J & NJ).
  { rewrite gv_len. auto. } { rewrite gv_len. auto. } { rewrite gv_len. auto. }
  { intros j PJ. assert (JN : j < n) by (destruct PJ as [b B]; apply (EV _ _ B)). destruct (BQ0 j JN) as (b & B & _ & B2 & _). { apply MK'; auto. } exists b. auto. }
  { rewrite gv_len. auto. }
  rewrite gv_len in J. unfold mp_get. fold (off (off i + x)).
  assert (OX : off (off i + x) = off i) by (rewrite Nat.add_comm; apply off_add; auto).
  rewrite (search_sim (mkip m bp) q) ; auto.
  - unfold ip_get in G. rewrite G. f_equal. pose proof (nth_error_nth' v 0 J) as EJ.
    assert (NG : nth j gv 0 = off i + x) by exact NJ. rewrite (nth_error_nth _ _ 0 (gv_nth _ _ EJ)) in NG.
    assert (OJ : off j = off i).
    { rewrite <- (off_add j (nth j v 0)) by (apply (R _ _ EJ)). rewrite NG. auto. }
    apply (I j i x); auto. rewrite EJ. f_equal. lia.
  - cbn [ip_marked]. intros j' J' GJ. destruct (BQ0 j' J' GJ) as (b & B & B1 & B2 & B3 & B4). pose proof (off_le b). exists (b - off j').
    split; auto. rewrite B2. split; [f_equal; lia|]. lia.
Qed.
End P.

Lemma nth_error_firstn_lt : forall (l : list nat) k i, i < k -> nth_error (firstn k l) i = nth_error l i.
Proof. induction l as [|a l IH]; intros [|k] [|i] H; cbn; auto; try lia. apply IH. lia. Qed.
Lemma nth_error_skipn' : forall (l : list nat) k i, nth_error (skipn k l) i = nth_error l (k + i).
Proof. induction l as [|a l IH]; intros [|k] i; cbn; auto. destruct i; auto. Qed.

(** chunks that are permutations *)
Theorem multiperm_ok : forall t cs v, 1 <= t -> 1 <= cs -> (N.of_nat (length v) < W64)%N ->
  (forall k, Permutation (firstn cs (skipn (k * cs) v)) (seq 0 (length (firstn cs (skipn (k * cs) v))))) ->
  exists p, mp_make t cs v = Some p /\ forall i x, nth_error v i = Some x -> mp_get cs v p (2 * t + 2) (i / cs * cs + x) = Some i.
Proof.
  intros t cs v T C NW PM.
  assert (NE : forall i, i < length v -> nth_error (firstn cs (skipn (i / cs * cs) v)) (i - i / cs * cs) = nth_error v i).
  { intros i IL. pose proof (off_le cs v C i) as O. unfold off in O. rewrite nth_error_firstn_lt by lia. rewrite nth_error_skipn'. f_equal. lia. }
  apply (mp_ok t cs v T C); auto.
  - intros i x E. assert (IL : i < length v) by (apply nth_error_Some; congruence). rewrite <- NE in E by auto. apply nth_error_In in E.
    apply (Permutation_in _ (PM (i / cs))) in E. apply in_seq in E. rewrite firstn_length, skipn_length in E. unfold off. lia.
  - intros i j x E1 E2 O. assert (IL : i < length v) by (apply nth_error_Some; congruence). assert (JL : j < length v) by (apply nth_error_Some; congruence).
    unfold off in O. rewrite <- NE in E1, E2 by auto. rewrite <- O in E2.
    assert (ND : NoDup (firstn cs (skipn (i / cs * cs) v))) by (apply (Permutation_NoDup (Permutation_sym (PM (i / cs)))); apply seq_NoDup).
    pose proof (proj1 (NoDup_nth_error _) ND (i - i / cs * cs) (j - i / cs * cs)) as Q.
    pose proof (off_le cs v C i) as O1. pose proof (off_le cs v C j) as O2. unfold off in *. rewrite <- O in O2.
    assert (i - i / cs * cs = j - i / cs * cs); [|lia]. apply Q; [apply nth_error_Some; congruence | congruence].
Qed.

Theorem multiperm_total : forall t cs v, 1 <= t -> 1 <= cs -> (N.of_nat (length v) < W64)%N ->
  (forall k, Permutation (firstn cs (skipn (k * cs) v)) (seq 0 (length (firstn cs (skipn (k * cs) v))))) ->
  exists p, mp_make t cs v = Some p /\
    forall i, i < length v -> exists j, mp_get cs v p (2 * t + 2) i = Some j /\ j / cs = i / cs /\ nth_error v j = Some (i mod cs).
Proof.
  intros t cs v T C NW PM. destruct (multiperm_ok t cs v T C NW PM) as (p & E & G). exists p. split; auto. intros i IL.
  set (k := i / cs). pose proof (Nat.div_mod i cs ltac:(lia)) as DM. pose proof (Nat.mod_upper_bound i cs ltac:(lia)) as MB. fold k in DM.
  set (l := firstn cs (skipn (k * cs) v)).
  assert (LL : i mod cs < length l) by (unfold l; rewrite firstn_length, skipn_length; lia).
  assert (X : In (i mod cs) l). { apply (Permutation_in _ (Permutation_sym (PM k))). apply in_seq. unfold l in LL. lia. }
  apply In_nth_error in X. destruct X as [o O]. assert (OL : o < cs).
  { assert (o < length l) by (apply nth_error_Some; congruence). unfold l in H. rewrite firstn_length in H. lia. }
  unfold l in O. rewrite nth_error_firstn_lt, nth_error_skipn' in O by auto.
  assert (KC : (k * cs + o) / cs = k) by (symmetry; apply (Nat.div_unique _ cs k o); lia).
  exists (k * cs + o). split; auto. rewrite <- (G _ _ O). rewrite KC. f_equal. lia.
Qed.
