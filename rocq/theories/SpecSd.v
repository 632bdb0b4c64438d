(** * Specification of sd_vector: the ways to build one and the bit vector it stands for *)
From Coq Require Import NArith List Bool Arith Sorting.Sorted.
From Verif Require Import Base Bits IntVector SpecIntVector SdVector.
Import ListNotations.

(** strictly increasing *)
Definition ascending (xs : list nat) : Prop := StronglySorted lt xs.
(** membership *)
Definition memb (xs : list nat) (k : nat) : bool := existsb (Nat.eqb k) xs.

(** [sd_from n B d]: [d] was built by one of the constructors from a bit vector of [n] bits with
    bits [B] (false from [n] on) *)
Inductive sd_from : nat -> (nat -> bool) -> sdv -> Prop :=
| from_bv : forall v d, iv_ok v -> N.lt (N.of_nat (iv_size v)) W64 -> sd_of_bv v = Some d -> sd_from (iv_size v) (iv_bit v) d
| from_list : forall xs d, xs <> [] -> ascending xs -> N.lt (N.of_nat (last xs 0 + 1)) W64 -> sd_of_list xs = Some d ->
    sd_from (last xs 0 + 1) (memb xs) d
| from_builder : forall n xs d, N.lt (N.of_nat n) W64 -> ascending xs -> Forall (fun x => x < n) xs ->
    (let* b := sb_new n (length xs) in let* b := sb_sets b xs in sd_of_builder b) = Some d -> sd_from n (memb xs) d.
