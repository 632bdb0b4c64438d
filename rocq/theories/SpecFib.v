(** * Fibonacci numbers and the values the encoder handles. *)
From Coq Require Import NArith List Arith.
Import ListNotations.
(** 1, 2, 3, 5, 8, ... *)
Fixpoint fib_pair (n : nat) : N * N :=
  match n with 0 => (1, 2)%N | S k => let '(a, b) := fib_pair k in (b, a + b)%N end.
Definition fib (n : nat) : N := fst (fib_pair n).
(** the value a codeword stands for: 0 stands for 2^64 *)
Definition fib_value (x : N) : N := if (x =? 0)%N then (2 ^ 64)%N else x.
(** what remains after greedily subtracting the Fibonacci numbers fib 91, fib 90, ..., fib 65 *)
Definition fib_rest (x : N) : N := fold_left (fun r j => if (fib j <=? r)%N then (r - fib j)%N else r) (rev (seq 65 27)) x.
(** encode shifts by a negative distance exactly for the values above 4.4e13 that are sums of those *)
Definition fib_encodable (x : N) : Prop := fib_rest (fib_value x) <> 0%N.
(** the length of the Fibonacci code of [x] is one more than the number of Fibonacci numbers <= x *)
Definition is_fib_len (x : N) (l : nat) : Prop := exists k, l = k + 2 /\ (fib k <= fib_value x < fib (k + 1))%N.
