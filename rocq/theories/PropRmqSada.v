(** * C45: rmq_succinct_sada answers every query with the leftmost best element *)
From Coq Require Import NArith List Bool Arith.
From Verif Require Import Base SpecRmq WtBase Bp BpRmq RmqSada RmqSadaProofs PropBpRmq.
Import ListNotations.
Open Scope nat_scope.

(** for every non-empty vector, minimum or maximum, and any block parameters of the two parentheses supports *)
Theorem C45_succinct_sada : forall t_min v g B' deg' B deg, B' mod 8 = 0 -> 0 < B' -> 2 <= deg' -> B mod 8 = 0 -> 0 < B -> 2 <= deg -> v <> [] ->
  exists bp t, sada_build t_min g B' deg' B deg v = Some (bp, t) /\ sada_size bp = length v /\
  forall l r, l <= r < length v -> exists m, sada_query g B deg bp t l r = Some m /\ is_rmq t_min v l r m.
Proof. exact sada_ok. Qed.
Print Assumptions C45_succinct_sada.

Definition demo_sada (t_min : bool) (l r : nat) : option nat :=
  match sada_build t_min (fun _ => true) 8 2 16 2 demo_v with
  | Some (bp, t) => sada_query (fun _ => true) 16 2 bp t l r
  | None => None
  end.
Example demo_sada_min : map (fun q => demo_sada true (fst q) (snd q)) [(0, 45); (0, 19); (2, 45); (21, 45); (28, 45); (32, 44); (6, 6); (1, 3)] =
  [Some 20; Some 5; Some 20; Some 27; Some 31; Some 33; Some 6; Some 1].
Proof. vm_compute. reflexivity. Qed.
Example demo_sada_max : map (fun q => demo_sada false (fst q) (snd q)) [(0, 45); (5, 13); (15, 20); (33, 45)] = [Some 4; Some 12; Some 18; Some 39].
Proof. vm_compute. reflexivity. Qed.
