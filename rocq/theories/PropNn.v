(** * C37: nn_dict_dynamic is a predecessor/successor dictionary for every history *)
From Coq Require Import NArith List Bool Arith Lia.
From Verif Require Import Base Bits AbsVec NnDict SpecNn NnDictProofs NnDictProofs2 NnDictProofs3.
Import ListNotations.

(** For every size n > 0 and every history of assignments nn[i] = x (i < n) and set_zero_bits, no access
    leaves the arrays, operator[] gives the last assigned bit, next(i) the smallest set index >= i and
    prev(i) the largest set index <= i (both n if there is none).  next and prev may shift a word by a
    distance outside 0..63 (see the refutation below); the result holds whatever word [ovs d] such a shift gives *)
Theorem C37_history : forall n ops ovs, 0 < n -> (N.of_nat n < W64)%N -> nd_ok n ops -> (forall d, ovs d <> None) ->
  exists t0 t, nn_new n = Some t0 /\ nn_run t0 ops = Some t /\ nn_size t = n /\
    forall i, i < n -> nn_get t i = Some (nd_bits ops i) /\
      (exists r, nn_next ovs t i = Some r /\ is_next (nd_bits ops) n i r) /\
      (exists r, nn_prev ovs t i = Some r /\ is_prev (nd_bits ops) n i r).
Proof. exact nn_history. Qed.
Print Assumptions C37_history.

(** read strictly, the shifts by 64 (next) and by 63-255 (prev) are undefined behaviour, and legal calls reach them *)
Theorem C37_shift_refuted : exists n ops i j t0 t, nd_ok n ops /\ i < n /\ j < n /\ nn_new n = Some t0 /\ nn_run t0 ops = Some t /\
  nn_next (fun _ => None) t i = None /\ nn_prev (fun _ => None) t j = None.
Proof.
  exists (64 * 65), [Assign 5 true], (64 * 63 + 1), 3.
  destruct (nn_new (64 * 65)) as [t0|] eqn:E0; [|vm_compute in E0; discriminate].
  destruct (nn_run t0 [Assign 5 true]) as [t|] eqn:E1; [|vm_compute in E0; injection E0 as <-; vm_compute in E1; discriminate].
  exists t0, t. split. { intros i x [E|[]]. injection E as <- <-. lia. }
  split; [lia|]. split; [lia|]. split; auto. split; auto.
  vm_compute in E0. injection E0 as <-. vm_compute in E1. injection E1 as <-. vm_compute. auto.
Qed.
Print Assumptions C37_shift_refuted.

(** non-vacuity: three levels, bits set and cleared, searches that climb over a node boundary *)
Definition demo_ops : list nn_op := [Assign 7 true; Assign 4100 true; Assign 8000 true; Assign 7 true; Assign 4100 false; Assign 130 true].
Example C37_run :
  (let* t0 := nn_new 8001 in let* t := nn_run t0 demo_ops in
   Some (nn_depth t, nn_next (fun _ => Some 5%N) t 131, nn_next (fun _ => Some 5%N) t 8, nn_prev (fun _ => Some 5%N) t 7999,
     nn_prev (fun _ => Some 5%N) t 6, nn_get t 4100, nn_get t 8000)) =
  Some (2, Some 8000, Some 130, Some 130, Some 8001, Some false, Some true).
Proof. vm_compute. reflexivity. Qed.
