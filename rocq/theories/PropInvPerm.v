(** * C38: inv_perm_support computes the inverse permutation *)
From Coq Require Import NArith List Bool Arith Lia Permutation.
From Verif Require Import Base InvPerm InvPermProofs.
Import ListNotations.

(** for every permutation [v] of 0..n-1 and every t_s >= 1 the constructor succeeds, and operator[]
    maps every value of the permutation to its position, with at most 2*t_s+2 reads of the permutation *)
Theorem C38_inverse : forall t v, 1 <= t -> (N.of_nat (length v) < W64)%N -> Permutation v (seq 0 (length v)) ->
  exists p, ip_make t v = Some p /\ forall k x, nth_error v k = Some x -> ip_get v p (2 * t + 2) x = Some k.
Proof. exact invperm_left. Qed.
Print Assumptions C38_inverse.

(** and it is defined on every index: the other direction of the inverse *)
Theorem C38_total : forall t v, 1 <= t -> (N.of_nat (length v) < W64)%N -> Permutation v (seq 0 (length v)) ->
  exists p, ip_make t v = Some p /\
    forall i, i < length v -> exists j, ip_get v p (2 * t + 2) i = Some j /\ nth_error v j = Some i.
Proof. exact invperm_inverse. Qed.
Print Assumptions C38_total.

(** non-vacuity: a permutation with a long cycle (with back pointers), a cycle of t_s+1 elements and a fixed point *)
Definition demo_perm : list nat := [3; 0; 2; 7; 5; 6; 4; 8; 9; 1].
Example C38_hyp : Permutation demo_perm (seq 0 (length demo_perm)).
Proof.
  apply NoDup_Permutation.
  - unfold demo_perm. repeat constructor; cbn; lia.
  - apply seq_NoDup.
  - intro x. unfold demo_perm. cbn. lia.
Qed.
Example C38_run : option_map (fun p => (ip_marked p, map (ip_get demo_perm p 6) (seq 0 10))) (ip_make 2 demo_perm) =
  Some ([true; false; false; false; false; false; true; true; false; true],
        map Some [1; 9; 2; 0; 6; 4; 5; 3; 7; 8]).
Proof. vm_compute. reflexivity. Qed.
