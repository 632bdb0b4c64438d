(** * What the wavelet tree queries mean for the sequence S *)
From Coq Require Import NArith List Arith Permutation.
Import ListNotations.

(* the number of c in S[0..i-1] *)
Definition occ (S : list N) (c : N) (i : nat) : nat := length (filter (N.eqb c) (firstn i S)).
(* S[i..j-1] *)
Definition slice (S : list N) (i j : nat) : list N := firstn (j - i) (skipn i S).
(* how many symbols of l are smaller / greater than c *)
Definition smaller (c : N) (l : list N) : nat := length (filter (fun x => N.ltb x c) l).
Definition greater (c : N) (l : list N) : nat := length (filter (fun x => N.ltb c x) l).
(* the number of different symbols *)
Definition distinct (S : list N) : nat := length (nodup N.eq_dec S).
(* the points (i, S[i]) with lb <= i <= rb and vlb <= S[i] <= vrb *)
Definition points (S : list N) (lb rb : nat) (vlb vrb : N) : list (nat * N) :=
  filter (fun p => Nat.leb lb (fst p) && Nat.leb (fst p) rb && N.leb vlb (snd p) && N.leb (snd p) vrb)%bool
         (combine (seq 0 (length S)) S).

(* the sequences an integer wavelet tree is built from: not empty, and the symbols fit
   into max_level bits (max_level = 0: chosen by the constructor, at most 63) *)
Definition wt_dom (S : list N) (ml : nat) : Prop :=
  let bits := if Nat.eqb ml 0 then 63 else ml in ml <= 63 /\ Forall (fun x => (x < 2 ^ N.of_nat bits)%N) S.
