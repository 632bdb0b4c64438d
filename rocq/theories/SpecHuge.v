(** * Specification for C39: histories of a client of hugepage_allocator

    A live allocation is a pair (data pointer, requested bytes); it owns the words pointer .. pointer + words bytes - 1. *)
From Coq Require Import NArith List Bool Arith.
From Verif Require Import Base Hugepage.
Import ListNotations.

Definition words (n : N) : nat := N.to_nat ((n + 7) / 8).
(** requests considered: below 2^62 bytes and not 1 modulo 8 (memory_manager only asks for multiples of 8) *)
Definition req (n : N) : Prop := (n < 2 ^ 62)%N /\ (n mod 8 <> 1)%N.
(** two allocations do not share a word *)
Definition apart (a b : nat * N) : Prop := fst a + words (snd a) < fst b \/ fst b + words (snd b) < fst a.
(** the contents of allocation a are the same in m and m' *)
Definition same_data (m m' : mem) (a : nat * N) : Prop := forall i, i < words (snd a) -> nth_error m' (fst a + i) = nth_error m (fst a + i).

(** every history: the client allocates, frees, reallocates and writes its own words, in any order.  [strict]: see
    copy_bytes; the exception ENOMEM leaves the state as it is and needs no case. *)
Inductive reach : hp -> list (nat * N) -> Prop :=
| r_init : forall m, (8 * N.of_nat (length m) < 2 ^ 62)%N -> reach (hp_init m) []
| r_alloc : forall h l n p h', reach h l -> req n -> mm_alloc h n = Ok (p, h') -> reach h' ((p, n) :: l)
| r_free : forall h l1 l2 p n h', reach h (l1 ++ (p, n) :: l2) -> mm_free h p = Some h' -> reach h' (l1 ++ l2)
| r_realloc : forall strict g h l1 l2 p n n' p' h', reach h (l1 ++ (p, n) :: l2) -> req n' -> (1 <= n')%N ->
    mm_realloc strict g h (Some p) n' = Ok (Some p', h') -> reach h' ((p', n') :: l1 ++ l2)
| r_write : forall h l p n i v m, reach h l -> In (p, n) l -> i < words n -> st (h_mem h) (p + i) v = Some m -> reach (h_setmem h m) l.
