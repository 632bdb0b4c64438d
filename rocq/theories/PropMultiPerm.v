(** * C64: inv_multi_perm_support computes the inverses of a sequence of permutations *)
From Coq Require Import NArith List Bool Arith Lia Permutation.
From Verif Require Import Base InvPerm MultiPerm MultiPermProofs.
Import ListNotations.

(** the vector is cut into chunks of [cs] elements (the last may be shorter), and every chunk holds a permutation of
    0..(length of the chunk)-1.  For every t_s >= 1 the constructor succeeds, and operator[] maps (start of the chunk of
    i) + v[i] to i, with at most 2*t_s+2 reads of the vector *)
Theorem C64_inverse : forall t cs v, 1 <= t -> 1 <= cs -> (N.of_nat (length v) < W64)%N ->
  (forall k, Permutation (firstn cs (skipn (k * cs) v)) (seq 0 (length (firstn cs (skipn (k * cs) v))))) ->
  exists p, mp_make t cs v = Some p /\
    forall i x, nth_error v i = Some x -> mp_get cs v p (2 * t + 2) (i / cs * cs + x) = Some i.
Proof. exact multiperm_ok. Qed.
Print Assumptions C64_inverse.

(** it is defined on every index, and answers within the chunk of the index *)
Theorem C64_total : forall t cs v, 1 <= t -> 1 <= cs -> (N.of_nat (length v) < W64)%N ->
  (forall k, Permutation (firstn cs (skipn (k * cs) v)) (seq 0 (length (firstn cs (skipn (k * cs) v))))) ->
  exists p, mp_make t cs v = Some p /\
    forall i, i < length v -> exists j, mp_get cs v p (2 * t + 2) i = Some j /\ j / cs = i / cs /\ nth_error v j = Some (i mod cs).
Proof. exact multiperm_total. Qed.
Print Assumptions C64_total.

(** non-vacuity: chunks of seven elements; one long cycle, then a cycle of three, one of two and two fixed points, then a
    short chunk *)
Definition demo_mp : list nat := [3; 0; 1; 6; 2; 4; 5;  1; 2; 0; 3; 5; 4; 6;  2; 0; 1].
Example C64_hyp : forall k, Permutation (firstn 7 (skipn (k * 7) demo_mp)) (seq 0 (length (firstn 7 (skipn (k * 7) demo_mp)))).
Proof.
  assert (G : forall l, NoDup l -> (forall x, In x l <-> In x (seq 0 (length l))) -> Permutation l (seq 0 (length l))).
  { intros l N H. apply NoDup_Permutation; auto. apply seq_NoDup. }
  intro k. destruct k as [|[|[|k]]].
  4: { rewrite (skipn_all2 demo_mp) by (cbn [length demo_mp]; lia). rewrite firstn_nil. constructor. }
  all: apply G; [unfold demo_mp; simpl; repeat (apply NoDup_cons; [simpl; lia|]); apply NoDup_nil | intro x; unfold demo_mp; simpl; lia].
Qed.
Example C64_run : option_map (fun p => (ip_marked p, map (mp_get 7 demo_mp p 6) (seq 0 17))) (mp_make 2 7 demo_mp) =
  Some ([true; true; false; false; true; false; true] ++ [false; false; true; false; false; false; false] ++ [false; true; false],
        map Some ([1; 2; 4; 0; 5; 6; 3] ++ [9; 7; 8; 10; 12; 11; 13] ++ [15; 16; 14])).
Proof. vm_compute. reflexivity. Qed.
