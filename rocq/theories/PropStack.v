(** * C36: the sorted stacks behave as stacks, for every history *)
From Coq Require Import NArith List Bool Arith Lia.
From Verif Require Import Base SpecStack Stacks StackProofs StackProofs2.
Import ListNotations.

(** sorted_stack_support over [0..n]: after every history of pops and of pushes of values above the
    top, nothing outside the arrays has been accessed and size, empty and top are those of the plain stack *)
Theorem C36_sorted_stack_support : forall n ops, (N.of_nat n + 1 < 2 ^ 63)%N ->
  st_ok (fun l x => above l x /\ x <= n) [] ops ->
  exists s0 s, ss_new n = Some s0 /\ ss_run s0 ops = Some s /\
    ss_cnt s = length (st_run [] ops) /\ (ss_empty s = true <-> st_run [] ops = []) /\
    (forall t r, st_run [] ops = t :: r -> ss_get_top s = t).
Proof. exact ss_history. Qed.
Print Assumptions C36_sorted_stack_support.

(** sorted_int_stack: the same, and values above n (kept in the overflow vector) are allowed *)
Theorem C36_sorted_int_stack : forall n ops, (N.of_nat n + 63 < 2 ^ 63)%N ->
  st_ok (fun l x => above l x /\ (N.of_nat x + 63 < W64)%N) [] ops ->
  exists s0 s, si_new n = Some s0 /\ si_run s0 ops = Some s /\
    si_cnt s = length (st_run [] ops) /\ (si_empty s = true <-> st_run [] ops = []) /\
    (forall t r, st_run [] ops = t :: r -> si_get_top s = t).
Proof. exact si_history. Qed.
Print Assumptions C36_sorted_int_stack.

(** sorted_multi_stack_support: values equal to the top may be pushed as well, and the results of
    push and pop tell whether the set of values changed.  The count has to stay within the
    64*(n/64+1) bits of the duplication stack *)
Theorem C36_sorted_multi_stack_support_partial : forall n ops, (N.of_nat n + 1 < 2 ^ 63)%N ->
  st_ok (fun l x => notbelow l x /\ x <= n /\ length l < 64 * (n / 64 + 1)) [] ops ->
  exists s0 s, sm_new n = Some s0 /\ sm_run s0 ops = Some (s, st_results [] ops) /\
    sm_cnt s = length (st_run [] ops) /\ (sm_empty s = true <-> st_run [] ops = []) /\
    (forall t r, st_run [] ops = t :: r -> sm_get_top s = t).
Proof. exact sm_history. Qed.
Print Assumptions C36_sorted_multi_stack_support_partial.

(** the bound is needed: pushing a value too often accesses memory behind the duplication stack *)
Theorem C36_multi_refuted : exists n ops s0,
  st_ok (fun l x => notbelow l x /\ x <= n) [] ops /\ sm_new n = Some s0 /\ sm_run s0 ops = None.
Proof. exact sm_overflow. Qed.
Print Assumptions C36_multi_refuted.

(** non-vacuity: a history over several blocks, with pointers, overflow values and duplicates *)
Definition demo_ops : list op := [Push 0; Push 3; Push 200; Push 201; Pop; Pop; Push 70; Push 400; Pop; Push 399].
Example C36_hyp : st_ok (fun l x => above l x /\ x <= 400) [] demo_ops /\ st_run [] demo_ops = [399; 70; 3; 0].
Proof. split; [unfold demo_ops; cbn; lia | reflexivity]. Qed.
Example C36_run : (let* s0 := ss_new 400 in let* s := ss_run s0 demo_ops in Some (ss_cnt s, ss_get_top s)) = Some (4, 399) /\
  (let* s0 := si_new 150 in let* s := si_run s0 demo_ops in Some (si_cnt s, si_get_top s)) = Some (4, 399).
Proof. split; vm_compute; reflexivity. Qed.
Example C36_multi_run :
  (let* s0 := sm_new 100 in let* (s, bs) := sm_run s0 [Push 1; Push 1; Push 90; Push 90; Pop; Pop; Pop] in Some (sm_cnt s, sm_get_top s, bs))
  = Some (1, 1, [true; false; true; false; false; true; false]).
Proof. vm_compute. reflexivity. Qed.
