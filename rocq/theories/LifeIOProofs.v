(** * Histories with files: proofs *)
From Coq Require Import List Bool Arith Lia.
From Verif Require Import Base Life SpecLife LifeProofs LifeIO SpecLifeIO.
Import ListNotations.

Section P.
Context {V : Type}.
Variable c : class V.
Variable i : io.
Notation wf := (wf (nf V c) (over V c)).
Notation rel := (rel c).

(** the records of a value *)
Definition wrec (v : nat -> V) (w : wstmt) : rec V :=
  match w with W f => RV V f (v f) | WS s => RSup V s (v (nth s (over V c) 0)) end.
Definition image (v : nat -> V) : list (rec V) := map (wrec v) (ser i).
Definition inr (w : wstmt) : bool := match w with W f => f <? nf V c | WS s => s <? length (over V c) end.
Definition ld_ok : Prop := forall a o v t, exists o', read_recs V (ld i) a o (image v ++ t) = Some (o', t) /\ wf a v o'.
Hypothesis I1 : forallb inr (ser i) = true.
Hypothesis I2 : ld_ok.

Lemma write_image a v o : wf a v o -> map (write V o) (ser i) = image v.
Proof.
  intros [Wf Ws]. unfold image. apply map_ext_in. intros w L. rewrite forallb_forall in I1. specialize (I1 w L).
  destruct w; cbn in *; apply Nat.ltb_lt in I1.
  - now rewrite Wf.
  - f_equal. now apply Ws.
Qed.
Definition iop_ok (o : iop V) : Prop := match o with Op _ o => op_ok c o | _ => True end.
Definition frel (ar : archive V) (fs : files V) : Prop := forall k, fs k = concat (map image (ar k)).
Lemma step_io o e ar e' ar' h fs : iop_ok o -> rel e h -> frel ar fs -> sem_io V (e, ar) o = Some (e', ar') ->
  exists h' fs', exec_io V c i (h, fs) o = Some (h', fs') /\ rel e' h' /\ frel ar' fs'.
Proof.
  intros K RL FR S. destruct o as [o|n k|n k]; cbn [sem_io exec_io iop_ok] in *.
  - destruct (sem V e o) as [e1|] eqn:E; [|discriminate]. cbn [obind] in S. injection S as <- <-.
    destruct (step_ok c o e e1 h K RL E) as [h' [X RL']]. rewrite X. cbn [obind]. eauto.
  - destruct (e n) as [| |v] eqn:E; try discriminate. injection S as <- <-.
    pose proof (RL n) as RN. rewrite E in RN. destruct RN as [o [A Wo]]. rewrite A. cbn [obind].
    eexists _, _. split; [reflexivity|]. split; auto.
    intros x. unfold keep, fupd. destruct (x =? k) eqn:X; [|apply FR].
    rewrite map_app, concat_app, FR, (write_image _ _ _ Wo). cbn. now rewrite app_nil_r.
  - destruct (dead V e n) eqn:D; [discriminate|]. destruct (ar k) as [|v l] eqn:E; [discriminate|]. injection S as <- <-.
    destruct (rel_live c e h n RL D) as [o [A _]]. rewrite A. cbn [obind].
    rewrite (FR k), E. cbn [map concat].
    destruct (I2 (U n) o v (concat (map image l))) as [o' [X Wo]]. rewrite X. cbn [obind fst snd].
    eexists _, _. split; [reflexivity|]. split.
    + intros x. unfold put. destruct (x =? n) eqn:Y.
      * apply Nat.eqb_eq in Y; subst. eexists; split; [apply upd_same|exact Wo].
      * rewrite upd_other by exact Y. apply RL.
    + intros x. unfold keep, fupd. destruct (x =? k); auto.
Qed.
Lemma steps_io l : forall e ar e' ar' h fs, Forall iop_ok l -> rel e h -> frel ar fs -> sems_io V (e, ar) l = Some (e', ar') ->
  exists h' fs', execs_io V c i (h, fs) l = Some (h', fs') /\ rel e' h' /\ frel ar' fs'.
Proof.
  induction l as [|o l IH]; intros e ar e' ar' h fs K RL FR S; cbn [sems_io execs_io] in *.
  - injection S as <- <-. eauto.
  - inversion K; subst. destruct (sem_io V (e, ar) o) as [[e1 ar1]|] eqn:E; [|discriminate]. cbn [obind] in S.
    destruct (step_io o e ar e1 ar1 h fs H1 RL FR E) as [h1 [fs1 [X [RL1 FR1]]]]. rewrite X. cbn [obind]. eauto.
Qed.
Lemma hist_io l e ar : Forall iop_ok l -> (forall f, In f (over V c) -> f < nf V c) ->
  sems_io V (no_objects V, no_archive V) l = Some (e, ar) ->
  exists h fs, execs_io V c i (empty_heap V, no_files V) l = Some (h, fs) /\ sees c e h /\ (forall k, ar k = [] -> fs k = []).
Proof.
  intros K O S. assert (R0 : rel (no_objects V) (empty_heap V)) by (intro; exact I).
  assert (F0 : frel (no_archive V) (no_files V)) by (intro; reflexivity).
  destruct (steps_io l _ _ e ar _ _ K R0 F0 S) as [h [fs [E [RL FR]]]].
  exists h, fs; sp; auto. now apply rel_sees. intros k Z. now rewrite FR, Z.
Qed.
Lemma hist_io_all l e ar : class_ok c -> (forall f, In f (over V c) -> f < nf V c) ->
  sems_io V (no_objects V, no_archive V) l = Some (e, ar) ->
  exists h fs, execs_io V c i (empty_heap V, no_files V) l = Some (h, fs) /\ sees c e h /\ (forall k, ar k = [] -> fs k = []).
Proof.
  intros (K1 & K2 & K3 & K4 & K5 & K6) O S. apply hist_io; auto. apply Forall_forall. intros o _.
  destruct o as [o| |]; cbn; auto. destruct o; cbn; auto.
Qed.
End P.
Ltac ld_tac :=
  let a := fresh in let o := fresh in let v := fresh in let t := fresh in
  intros a o v t; eexists; split; [lazy; reflexivity|];
  let f := fresh "f" in let Hf := fresh in
  (split; intros f Hf; lazy in Hf;
   [do 9 (destruct f as [|f]; [first [exfalso; lia | lazy; reflexivity]|]); exfalso; lia
   |do 7 (destruct f as [|f]; [first [exfalso; lia | lazy; split; reflexivity]|]); exfalso; lia]).
