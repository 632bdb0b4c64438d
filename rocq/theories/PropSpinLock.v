(** * C71: code under the spin lock, and memory accounting from several threads *)
From Coq Require Import List Bool Arith ZArith Lia.
From Verif Require Import Base MemMon SpecMemMon MemMonProofs SpinLock SpecSpinLock SpinLockProofs.
Import ListNotations.

(** at no time two threads are between lock and unlock *)
Theorem C71_mutual_exclusion : forall (S L C : Type) (l0 : L) (body : C -> list (S -> L -> S * L)) s0 progs schedule i j t t',
  let y := run S L C l0 body (boot S L C s0 progs) schedule in
  nth_error (ths _ _ _ y) i = Some t -> nth_error (ths _ _ _ y) j = Some t' ->
  inside _ _ _ t = true -> inside _ _ _ t' = true -> i = j.
Proof. intros S L C l0 body s0 ps sched i j t t'. apply run_mutex. Qed.
Print Assumptions C71_mutual_exclusion.

(** the calls take effect as if they were made one after the other, each thread's calls in its order *)
Definition alone {S L C} (l0 : L) (body : C -> list (S -> L -> S * L)) (s : S) (c : C) : S :=
  fst (fold_left (fun x f => f (fst x) (snd x)) (body c) (s, l0)).
Theorem C71_serializable : forall (S L C : Type) (l0 : L) (body : C -> list (S -> L -> S * L)) s0 progs schedule,
  let y := run S L C l0 body (boot S L C s0 progs) schedule in
  forallb (finished S L C) (ths _ _ _ y) = true ->
  exists order, interleaving progs order /\ sh _ _ _ y = fold_left (alone l0 body) order s0.
Proof. intros S L C l0 body s0 ps sched. apply (run_serial l0 body). Qed.
Print Assumptions C71_serializable.

(** no deadlock: however the threads ran so far, they can all finish *)
Theorem C71_no_deadlock : forall (S L C : Type) (l0 : L) (body : C -> list (S -> L -> S * L)) s0 progs schedule,
  exists more, forallb (finished S L C) (ths _ _ _ (run S L C l0 body (boot S L C s0 progs) (schedule ++ more))) = true.
Proof.
  intros S L C l0 body s0 ps sched.
  destruct (finish l0 body s0 ps _ (run S L C l0 body (boot S L C s0 ps) sched) (le_n _)) as (more & M).
  - apply inv_run, inv_boot.
  - exists more. unfold run in *. now rewrite fold_left_app.
Qed.
Print Assumptions C71_no_deadlock.

(** record from several threads, after start at time [t0]: whatever the schedule, when all threads are done the usage is the sum
    of all changes, and the whole monitor is as after recording them one after the other in some interleaving *)
Local Open Scope Z_scope.
Theorem C71_record_threads : forall gran t0 (progs : list (list (Z * Z))) schedule,
  let y := run _ _ _ (0, false) (record_body gran) (boot _ _ _ (start mon0 t0) progs) schedule in
  forallb (finished _ _ _) (ths _ _ _ y) = true ->
  usage (sh _ _ _ y) = sum (map snd (concat progs)) /\
  exists order, interleaving progs order /\
    mexecs gran mon0 (MStart t0 :: map (fun c => MRecord (fst c) (snd c)) order) = Some (sh _ _ _ y).
Proof.
  intros gran t0 ps sched y F. destruct (run_serial (0, false) (record_body gran) (start mon0 t0) ps sched F) as (o & I & E).
  fold y in E. assert (R : ready (start mon0 t0)).
  { split; [reflexivity|]. eexists _, _. split; [reflexivity|]. discriminate. }
  destruct (record_calls gran o _ R) as [X U]. rewrite E. split.
  - rewrite U. rewrite (interleaving_sum snd _ _ I). reflexivity.
  - exists o. split; auto.
Qed.
Print Assumptions C71_record_threads.

(** two threads, three records, a schedule in which the second thread spins while the first is inside *)
Definition sched2 : list nat := [0; 0; 0; 1; 0; 1; 0; 0; 0; 1; 0; 1; 1; 1; 1; 1; 1; 1; 1; 0; 0; 0; 0; 0; 0; 0; 0; 0]%nat.
Example C71_meets :
  let y := run _ _ _ (0, false) (record_body 20) (boot _ _ _ (start mon0 0) [[(5, 100); (90, -30)]; [(50, 7)]]) sched2 in
  (forallb (finished _ _ _) (ths _ _ _ y), usage (sh _ _ _ y), ths _ _ _ y) = (true, 77, [Idle _ _ _ []; Idle _ _ _ []]).
Proof. vm_compute. reflexivity. Qed.
Example C71_mutual_exclusion_meets :
  let y := run _ _ _ (0, false) (record_body 20) (boot _ _ _ (start mon0 0) [[(5, 100); (90, -30)]; [(50, 7)]]) (firstn 5 sched2) in
  map (inside _ _ _) (ths _ _ _ y) = [true; false].
Proof. vm_compute. reflexivity. Qed.
