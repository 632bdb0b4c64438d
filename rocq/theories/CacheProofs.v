(** * The cache: proofs *)
From Coq Require Import List Bool Arith NArith Lia Ascii.
From Verif Require Import Base TmpFile TmpFileProofs Cache SpecCache.
Import ListNotations.

Lemma str_eqb_eq a b : str_eqb a b = true <-> a = b.
Proof. unfold str_eqb. destruct (list_eq_dec ascii_dec a b); split; auto; discriminate. Qed.
Lemma str_eqb_refl a : str_eqb a a = true.
Proof. now apply str_eqb_eq. Qed.
Lemma str_eqb_neq a b : a <> b -> str_eqb a b = false.
Proof. intros N. destruct (str_eqb a b) eqn:E; auto. apply str_eqb_eq in E. congruence. Qed.
Lemma lookup_insert l k f k' : lookup (insert l k f) k' = if str_eqb k k' then Some f else lookup l k'.
Proof.
  unfold lookup, insert. cbn [find fst snd]. destruct (str_eqb k k') eqn:E; auto.
  induction l as [|[a b] l IH]; cbn [filter find fst]; auto.
  destruct (str_eqb a k) eqn:Q; cbn [negb].
  - apply str_eqb_eq in Q. subst a. now rewrite E.
  - cbn [find fst]. destruct (str_eqb a k'); auto.
Qed.
Lemma insert_in l k f p : In p (insert l k f) -> p = (k, f) \/ In p l.
Proof. intros [H|H]; auto. apply filter_In in H. tauto. Qed.
Lemma lookup_in l k f : lookup l k = Some f -> In (k, f) l.
Proof.
  unfold lookup. destruct (find _ l) as [[a b]|] eqn:E; [|discriminate]. intros H; injection H as <-.
  apply find_some in E. destruct E as [I Q]. cbn in Q. apply str_eqb_eq in Q. now subst.
Qed.
Lemma in_lookup l k f : In (k, f) l -> exists f', lookup l k = Some f'.
Proof.
  intros I. unfold lookup. destruct (find _ l) as [p|] eqn:E; eauto.
  apply (find_none _ _ E) in I. cbn in I. rewrite str_eqb_refl in I. discriminate.
Qed.

(** names *)
Lemma digits_split_r a b p q : forallb digit a = true -> forallb digit b = true -> nodigit (rev p) -> nodigit (rev q) -> p ++ a = q ++ b -> p = q /\ a = b.
Proof.
  intros A B P Q E. apply (f_equal (@rev ascii)) in E. rewrite !rev_app_distr in E.
  assert (R : forall l, forallb digit l = true -> forallb digit (rev l) = true).
  { intros l F. rewrite forallb_forall in *. intros x I. apply F. now apply in_rev. }
  apply digits_split in E; auto. destruct E as [E1 E2]. split.
  - rewrite <- (rev_involutive p), E2. apply rev_involutive.
  - rewrite <- (rev_involutive a), E1. apply rev_involutive.
Qed.
Lemma id_split k k' p p' i i' : k ++ ["_"%char] ++ default_id p i = k' ++ ["_"%char] ++ default_id p' i' -> k = k' /\ p = p' /\ i = i'.
Proof.
  unfold default_id. intros E. rewrite !app_assoc in E. apply digits_split_r in E; try apply chars_digits; try (rewrite rev_app_distr; reflexivity).
  destruct E as [E I]. apply to_string_inj in I. apply app_inj_tail in E. destruct E as [E _].
  apply digits_split_r in E; try apply chars_digits; try (rewrite rev_app_distr; reflexivity).
  destruct E as [E P]. apply to_string_inj in P. apply app_inj_tail in E. tauto.
Qed.

Section P.
Context {V : Type}.
Variable dirof : nat -> list ascii.
Variable pidof ctrof : nat -> N.
Hypothesis ids : forall c d, pidof c = pidof d -> ctrof c = ctrof d -> c = d.
Notation idof := (fun c => default_id (pidof c) (ctrof c)).
Definition name c key : list ascii := dirof c ++ ["/"%char] ++ key ++ ["_"%char] ++ idof c ++ sdsl_suffix.
Definition no_slash (key : list ascii) : Prop := ~ In "/"%char key.
Lemma name_eq c key d key' : no_slash key -> no_slash key' -> name c key = name d key' -> c = d /\ key = key'.
Proof.
  intros K K' E. unfold name in E. cbn [List.app] in E.
  assert (NS : forall k p i, no_slash k -> ~ In "/"%char (k ++ "_"%char :: default_id p i ++ sdsl_suffix)).
  { clear. intros k p i NK I. unfold default_id in I. cbn [List.app] in I.
    repeat (rewrite in_app_iff in I || cbn [In] in I).
    assert (D : forall n, ~ In "/"%char (to_string n)) by (intros n; apply digits_no; [reflexivity|apply chars_digits]).
    repeat match goal with H : _ \/ _ |- _ => destruct H as [H|H] end; try discriminate; try (now apply NK); try (now apply D in I).
    cbn in I. repeat (destruct I as [I|I]; [discriminate|]). destruct I. }
  apply no_slash_split in E; [|now apply NS|now apply NS]. destruct E as [_ E].
  assert (E' : (key ++ ["_"%char] ++ default_id (pidof c) (ctrof c)) ++ sdsl_suffix = (key' ++ ["_"%char] ++ default_id (pidof d) (ctrof d)) ++ sdsl_suffix).
  { rewrite <- !app_assoc. exact E. }
  apply app_inv_tail in E'. apply id_split in E'. destruct E' as (-> & P & I). auto.
Qed.

Definition plain (o : cop V) : Prop :=
  match o with CStore _ _ key hash _ => hash = None /\ no_slash key | CRegister _ _ key => no_slash key | CDeleteAll _ _ => True end.
Record inv (y : cst V) (m : smap V) : Prop := {
  vMap : forall c key f, In (key, f) (fmap _ y c) -> f = name c key /\ no_slash key;
  vFile : forall c key, no_slash key -> files _ y (name c key) = m c key None;
  vIn : forall c key, no_slash key -> m c key None <> None -> exists f, In (key, f) (fmap _ y c)
}.
Lemma file_name y m c key : inv y m -> cache_file_name V dirof idof y c key = name c key.
Proof.
  intros [M _ _]. unfold cache_file_name. destruct (lookup (fmap V y c) key) as [f|] eqn:E; [|reflexivity].
  apply lookup_in, M in E. tauto.
Qed.
Lemma inv_step y m o : inv y m -> plain o -> inv (cexec V dirof idof y o) (csem V m o).
Proof.
  intros I P. pose proof I as [M F K]. destruct o as [c key hash v|c key|c]; cbn [cexec csem plain] in *.
  - destruct P as [-> NK]. unfold store_to_cache, file_of. rewrite (file_name y m c key I). constructor; cbn [set_fmap files fmap].
    + intros d k f J. destruct (d =? c) eqn:D; [|now apply M]. apply Nat.eqb_eq in D; subst d.
      apply insert_in in J. destruct J as [J|J]; [injection J as -> ->; auto|now apply M].
    + intros d k NK'. destruct (str_eqb (name d k) (name c key)) eqn:Q.
      * apply str_eqb_eq in Q. apply name_eq in Q; auto. destruct Q as [-> ->]. rewrite Nat.eqb_refl. cbn [andb same_key].
        destruct (list_eq_dec ascii_dec key key); [reflexivity|congruence].
      * rewrite F by auto. destruct (d =? c) eqn:D; auto. apply Nat.eqb_eq in D; subst d. cbn [andb].
        destruct (list_eq_dec ascii_dec k key) as [->|]; auto. now rewrite str_eqb_refl in Q.
    + intros d k NK' N. destruct (d =? c) eqn:D; [|apply K; auto; intros Z; apply N; cbn [andb]; exact Z].
      apply Nat.eqb_eq in D; subst d. cbn [andb] in N.
      assert (X : exists f, lookup (insert (fmap V y c) key (name c key)) k = Some f).
      { rewrite lookup_insert. destruct (str_eqb key k) eqn:Q; [eauto|]. destruct (list_eq_dec ascii_dec k key) as [->|]; [now rewrite str_eqb_refl in Q|].
        cbn [andb] in N. destruct (K c k NK' N) as (f & J). eapply in_lookup; eauto. }
      destruct X as (f & X). exists f. now apply lookup_in.
  - unfold register_cache_file. rewrite (file_name y m c key I). destruct (files V y (name c key)) eqn:Q; auto.
    constructor; cbn [set_fmap files fmap]; auto.
    + intros d k f J. destruct (d =? c) eqn:D; [|now apply M]. apply Nat.eqb_eq in D; subst d.
      apply insert_in in J. destruct J as [J|J]; [injection J as -> ->; auto|now apply M].
    + intros d k NK' N. destruct (K d k NK' N) as (f & J). destruct (d =? c) eqn:D; [|eauto]. apply Nat.eqb_eq in D; subst d.
      destruct (in_lookup _ _ _ J) as (f' & X).
      assert (Y : exists g, lookup (insert (fmap V y c) key (name c key)) k = Some g).
      { rewrite lookup_insert. destruct (str_eqb key k); eauto. }
      destruct Y as (g & Y). exists g. now apply lookup_in.
  - unfold delete_all_files. constructor; cbn [set_fmap files fmap].
    + intros d k f J. destruct (d =? c); [destruct J|now apply M].
    + intros d k NK'. destruct (existsb (fun p => str_eqb (snd p) (name d k)) (fmap V y c)) eqn:Q.
      * apply existsb_exists in Q. destruct Q as ([k' f] & J & Q). cbn in Q. apply str_eqb_eq in Q. subst f.
        apply M in J. destruct J as [J NK'']. apply name_eq in J; auto. destruct J as [-> _]. now rewrite Nat.eqb_refl.
      * rewrite F by auto. destruct (d =? c) eqn:D; auto. apply Nat.eqb_eq in D; subst d.
        destruct (m c k None) eqn:Z; auto. destruct (K c k NK') as (f & J); [congruence|].
        assert (X : existsb (fun p => str_eqb (snd p) (name c k)) (fmap V y c) = true).
        { apply existsb_exists. exists (k, f). split; auto. cbn. apply str_eqb_eq. apply M in J. tauto. }
        congruence.
    + intros d k NK' N. destruct (d =? c) eqn:D; [congruence|eauto].
Qed.
Lemma inv_steps l : forall y m, inv y m -> Forall plain l -> inv (cexecs V dirof idof y l) (csems V m l).
Proof.
  unfold cexecs, csems. induction l as [|o l IH]; intros y m I P; cbn [fold_left]; auto. inversion P; subst. apply IH; auto. now apply inv_step.
Qed.
Lemma inv0 : inv (no_files V) (empty_map V).
Proof.
  constructor; cbn.
  - intros c key f [].
  - reflexivity.
  - intros c key _ N. unfold empty_map in N. congruence.
Qed.
(** only the files of stored keys exist *)
Definition only (y : cst V) : Prop := forall f, files _ y f <> None -> exists c key, no_slash key /\ f = name c key.
Lemma only_step y m o : inv y m -> only y -> plain o -> only (cexec V dirof idof y o).
Proof.
  intros I O P. destruct o as [c key hash v|c key|c]; cbn [cexec plain] in *.
  - destruct P as [-> NK]. intros f N. unfold store_to_cache, file_of in N. rewrite (file_name y m c key I) in N. cbn [set_fmap files] in N.
    destruct (str_eqb f (name c key)) eqn:Q; [apply str_eqb_eq in Q; eauto|now apply O].
  - unfold register_cache_file. destruct (files V y _); exact O.
  - intros f N. unfold delete_all_files in N. cbn [set_fmap files] in N. destruct (existsb _ _); [congruence|now apply O].
Qed.
Lemma only_steps l : forall y m, inv y m -> only y -> Forall plain l -> only (cexecs V dirof idof y l).
Proof.
  unfold cexecs. induction l as [|o l IH]; intros y m I O P; cbn [fold_left]; auto. inversion P; subst.
  eapply IH; eauto; [apply inv_step; eauto|eapply only_step; eauto].
Qed.
End P.
