(** * Specification of the excess and of the range restricted operations on parentheses (true = opening) *)
From Coq Require Import List Arith ZArith.
From Verif Require Import SpecBp.
Import ListNotations.

(** opening minus closing parentheses in the positions 0..i *)
Definition excess_at (bp : list bool) (i : nat) : Z :=
  Z.of_nat (length (filter (fun b => b) (firstn (i + 1) bp))) - Z.of_nat (length (filter negb (firstn (i + 1) bp))).
(** p is the last position of l..r with the smallest excess *)
Definition last_min (bp : list bool) (l r p : nat) : Prop :=
  l <= p <= r /\ (forall k, l <= k <= r -> (excess_at bp p <= excess_at bp k)%Z) /\ (forall k, p < k <= r -> (excess_at bp p < excess_at bp k)%Z).
(** k is the least (largest) index with property P, or d if there is none *)
Definition least_or (P : nat -> Prop) (d k : nat) : Prop := (P k /\ forall k', P k' -> k <= k') \/ ((forall k', ~ P k') /\ k = d).
Definition largest_or (P : nat -> Prop) (d k : nat) : Prop := (P k /\ forall k', P k' -> k' <= k) \/ ((forall k', ~ P k') /\ k = d).
(** an opening parenthesis in [l, r) whose partner is at r or later *)
Definition spans (bp : list bool) (l r k : nat) : Prop := l <= k < r /\ exists m, matches bp k m /\ r <= m.
(** between mi and j, and the pair encloses j *)
Definition rr_spec (bp : list bool) (mi j k : nat) : Prop := mi < k < j /\ around bp k j.
(** the pair encloses both i and j *)
Definition both (bp : list bool) (i j k : nat) : Prop := around bp k i /\ around bp k j.
