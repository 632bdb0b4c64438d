(** * Vocabulary for the statements about enc_vector and vlc_vector. *)
From Coq Require Import NArith List Arith.
From Verif Require Import Base EncVector SpecCoder.
Import ListNotations.
(** the coders of the library; the number is how many readable words decode_prefix_sum needs behind
    the encoded data *)
Inductive sdsl_coder (sh : N -> nat -> option N) : coder -> nat -> Prop :=
| is_gamma : sdsl_coder sh (elias_gamma sh) 1
| is_delta : sdsl_coder sh (elias_delta sh) 1
| is_comma : forall t, 2 <= t <= 30 -> sdsl_coder sh (comma t) 0.
Definition is_comma_code (c : coder) : Prop := exists t, 2 <= t <= 30 /\ c = comma t.
Definition no_equal_neighbours (l : list N) : Prop := forall k, S k < length l -> nth k l 0%N <> nth (S k) l 0%N.
Definition nondecreasing (l : list N) : Prop := forall k, S k < length l -> (nth k l 0 <= nth (S k) l 0)%N.
(** the container's element type holds the values; a 32-bit type also needs increasing values,
    because differences are taken in the element type *)
Definition enc_input (tb : nat) (l : list N) : Prop :=
  (tb = 64 /\ Forall (fun x => (x < 2 ^ 64)%N) l) \/
  (tb = 32 /\ Forall (fun x => (x < 2 ^ 32)%N) l /\ nondecreasing l).
(** the encoded vector fits into the address space: at most 200 bits per element *)
Definition fits_memory (l : list N) : Prop := (200 * N.of_nat (length l) + 2 < 2 ^ 64)%N.
