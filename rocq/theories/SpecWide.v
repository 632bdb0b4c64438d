(** * Specification for the wide integers: plain arithmetic on N. *)
From Coq Require Import NArith List Arith.
From Verif Require Import Base.
Import ListNotations.
Local Open Scope N_scope.

(** the number made of words, least significant first *)
Fixpoint words_val (l : list N) : N := match l with [] => 0 | w :: t => w + 2 ^ 64 * words_val t end.
(** the [n] hexadecimal digits of a number, most significant first *)
Definition hex (n : nat) (v : N) : list N := map (fun j => (v / 16 ^ N.of_nat (n - 1 - j)) mod 16) (seq 0 n).
