(** * C73: the cache is a map per config *)
From Coq Require Import List Bool Arith NArith Lia Ascii String.
From Verif Require Import Base TmpFile Cache SpecCache CacheProofs.
Import ListNotations.
Local Open Scope list_scope.

(** operations without add_type_hash, with keys that are not paths *)
Definition without_hash {V} (o : cop V) : Prop :=
  match o with
  | CStore _ _ key hash _ => hash = None /\ ~ In "/"%char key
  | CRegister _ _ key => ~ In "/"%char key
  | CDeleteAll _ _ => True
  end.
(** Configs in any directories whose ids came from the constructor: after every history of stores, registrations and
    deletions, load_from_cache and cache_file_exists on any config and key see the value last stored there since the last
    deletion, whatever happened to other keys and other configs.  Missing: histories with add_type_hash (refuted below). *)
Theorem C73_keyed_store_partial : forall (V : Type) (dirof : nat -> list ascii) (pidof ctrof : nat -> N) (history : list (cop V)),
  (forall c d, pidof c = pidof d -> ctrof c = ctrof d -> c = d) ->
  Forall without_hash history ->
  forall c key, ~ In "/"%char key ->
  let idof := fun c => default_id (pidof c) (ctrof c) in
  let y := cexecs V dirof idof (no_files V) history in
  load_from_cache V dirof idof y c key None = csems V (empty_map V) history c key None /\
  (cache_file_exists V dirof idof y c key = true <-> csems V (empty_map V) history c key None <> None).
Proof.
  intros V dirof pidof ctrof l ids P c key NK idof y.
  pose proof (inv_steps dirof pidof ctrof ids l _ _ (inv0 dirof pidof ctrof) P) as I.
  subst y idof. unfold load_from_cache, cache_file_exists, file_of. rewrite (file_name dirof pidof ctrof _ _ c key I).
  rewrite (vFile _ _ _ _ _ I c key NK). split; auto. destruct (csems _ _ _ _ _ _); split; congruence.
Qed.
Print Assumptions C73_keyed_store_partial.
(** no file is left behind: a file that exists holds the value of a key that was stored and not deleted since *)
Theorem C73_no_leftover_partial : forall (V : Type) (dirof : nat -> list ascii) (pidof ctrof : nat -> N) (history : list (cop V)),
  (forall c d, pidof c = pidof d -> ctrof c = ctrof d -> c = d) ->
  Forall without_hash history ->
  let idof := fun c => default_id (pidof c) (ctrof c) in
  forall file v, files V (cexecs V dirof idof (no_files V) history) file = Some v ->
  exists c key, csems V (empty_map V) history c key None = Some v.
Proof.
  intros V dirof pidof ctrof l ids P idof f v E. subst idof.
  pose proof (inv_steps dirof pidof ctrof ids l _ _ (inv0 dirof pidof ctrof) P) as I.
  assert (O : only dirof pidof ctrof (cexecs V dirof (fun c => default_id (pidof c) (ctrof c)) (no_files V) l)).
  { eapply only_steps; eauto; [apply inv0|]. intros g N. cbn in N. congruence. }
  destruct (O f) as (c & key & NK & ->); [congruence|]. exists c, key. rewrite <- E. symmetry. now apply (vFile _ _ _ _ _ I).
Qed.
Print Assumptions C73_no_leftover_partial.

Definition key_of (s : string) : list ascii := list_ascii_of_string s.
Definition ex_history : list (cop nat) :=
  [CStore _ 0 (key_of "sa") None 5; CStore _ 1 (key_of "sa") None 6; CStore _ 0 (key_of "bwt") None 7; CRegister _ 0 (key_of "bwt");
   CStore _ 0 (key_of "sa") None 8; CDeleteAll _ 1].
Definition ex_id c := default_id 4711 (N.of_nat c).
Definition ex_end := cexecs nat (fun _ => key_of "/tmp") ex_id (no_files nat) ex_history.
Example C73_meets :
  Forall without_hash ex_history /\
  load_from_cache nat (fun _ => key_of "/tmp") ex_id ex_end 0 (key_of "sa") None = Some 8 /\
  load_from_cache nat (fun _ => key_of "/tmp") ex_id ex_end 0 (key_of "bwt") None = Some 7 /\
  load_from_cache nat (fun _ => key_of "/tmp") ex_id ex_end 1 (key_of "sa") None = None /\
  files nat ex_end (key_of "/tmp/sa_4711_0.sdsl") = Some 8 /\
  (forall c d, 4711%N = 4711%N -> N.of_nat c = N.of_nat d -> c = d).
Proof.
  split; [|repeat split; try (vm_compute; reflexivity); intros; lia].
  repeat (constructor; [cbn; try exact I; try (split; [reflexivity|]); intros H; repeat (destruct H as [H|H]; [discriminate|]); destruct H|]).
  constructor.
Qed.

(** With add_type_hash the file is registered under the key without the hash, so storing another value under the plain key
    overwrites the file of the typed one. *)
Theorem C73_type_hash_refuted : exists (history : list (cop nat)) key hash,
  Forall (fun o => match o with CStore _ _ k h _ => ~ In "/"%char k /\ h <> Some [] | _ => True end) history /\
  csems nat (empty_map nat) history 0 key (Some hash) = Some 1 /\
  load_from_cache nat (fun _ => key_of ".") ex_id (cexecs nat (fun _ => key_of ".") ex_id (no_files nat) history) 0 key (Some hash) = Some 2.
Proof.
  exists [CStore _ 0 (key_of "lcp") (Some (key_of "77")) 1; CStore _ 0 (key_of "lcp") None 2], (key_of "lcp"), (key_of "77").
  split; [|split; vm_compute; reflexivity].
  repeat (constructor; [split; [cbn; intros H; repeat (destruct H as [H|H]; [discriminate|]); destruct H|discriminate]|]). constructor.
Qed.
Print Assumptions C73_type_hash_refuted.
(** and storing two types under a key leaves the file of the first behind when all files are deleted *)
Theorem C73_type_hash_leftover_refuted : exists (history : list (cop nat)) file,
  (forall c key hash, csems nat (empty_map nat) history c key hash = None) /\
  files nat (cexecs nat (fun _ => key_of ".") ex_id (no_files nat) history) file = Some 1.
Proof.
  exists [CStore _ 0 (key_of "lcp") (Some (key_of "77")) 1; CStore _ 0 (key_of "lcp") (Some (key_of "88")) 2; CDeleteAll _ 0], (key_of "./lcp_77_4711_0.sdsl").
  split; [|vm_compute; reflexivity].
  intros c key hash. unfold csems. cbn [fold_left csem]. destruct (c =? 0); reflexivity.
Qed.
Print Assumptions C73_type_hash_leftover_refuted.
