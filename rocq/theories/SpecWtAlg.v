(** * What the queries of wt_algorithm.hpp and wm_int mean for the sequence S *)
From Coq Require Import NArith List Arith Sorted.
From Verif Require Import SpecWt.
Import ListNotations.

(* how often x is in l *)
Definition count (x : N) (l : list N) : nat := length (filter (N.eqb x) l).
(* x is the symbol a sort of l puts at index q *)
Definition is_quantile (l : list N) (q : nat) (x : N) : Prop := In x l /\ smaller x l <= q < smaller x l + count x l.
(* (true, x): x is the greatest symbol of S that is <= c; (false, 0): there is none *)
Definition lte_spec (S : list N) (c : N) (r : bool * N) : Prop :=
  match r with
  | (true, x) => In x S /\ (x <= c)%N /\ forall y, In y S -> (y <= c)%N -> (y <= x)%N
  | (false, x) => x = 0%N /\ forall y, In y S -> (c < y)%N
  end.
(* (true, x): x is the least symbol of S that is >= c; (false, 0): there is none *)
Definition gte_spec (S : list N) (c : N) (r : bool * N) : Prop :=
  match r with
  | (true, x) => In x S /\ (c <= x)%N /\ forall y, In y S -> (c <= y)%N -> (x <= y)%N
  | (false, x) => x = 0%N /\ forall y, In y S -> (y < c)%N
  end.
(* how often c is in S[fst r .. snd r - 1]; in how many of the ranges it is; how often it is in all of them *)
Definition rcount (S : list N) (c : N) (r : nat * nat) : nat := count c (slice S (fst r) (snd r)).
Definition hits (S : list N) (rs : list (nat * nat)) (c : N) : nat := length (filter (fun r => 0 <? rcount S c r) rs).
Definition total (S : list N) (rs : list (nat * nat)) (c : N) : nat := list_sum (map (rcount S c) rs).
(* the symbols that are in at least t of the ranges, increasing, each with its total frequency *)
Definition isx_spec (S : list N) (t : nat) (rs : list (nat * nat)) (out : list (N * nat)) : Prop :=
  StronglySorted N.lt (map fst out) /\ forall c n, In (c, n) out <-> t <= hits S rs c /\ n = total S rs c.
(* a half-open range of positions of S *)
Definition rok (S : list N) (r : nat * nat) : Prop := fst r <= snd r <= length S.

(* the sequences a wavelet matrix is built from: the symbols fit into max_level bits
   (max_level = 0: chosen by the constructor, at most 64) *)
Definition wm_dom (S : list N) (ml : nat) : Prop :=
  let bits := if ml =? 0 then 64 else ml in ml <= 64 /\ Forall (fun x => (x < 2 ^ N.of_nat bits)%N) S.
