(** * Specification of suffix arrays (texts are lists of symbols, the last symbol is the only 0) *)
From Coq Require Import List Arith Permutation.
Import ListNotations.

(** lexicographic order; a proper prefix is smaller *)
Fixpoint lex_lt (a b : list nat) : Prop :=
  match a, b with
  | _, [] => False
  | [], _ :: _ => True
  | x :: a', y :: b' => x < y \/ (x = y /\ lex_lt a' b')
  end.

(** a text as the construction expects it: terminated by the only 0 *)
Definition text_ok (T : list nat) : Prop := exists U, T = U ++ [0] /\ ~ In 0 U.

(** [sa] is the suffix array of [T]: the start positions of all suffixes in lexicographic order *)
Definition is_sa (T sa : list nat) : Prop :=
  Permutation sa (seq 0 (length T)) /\
  forall i j, i < j < length T -> lex_lt (skipn (nth i sa 0) T) (skipn (nth j sa 0) T).

(** pattern [P] occurs in [T] at position [p] *)
Definition occurs_at (T P : list nat) (p : nat) : Prop := firstn (length P) (skipn p T) = P.
Definition occurs_dec (T P : list nat) (p : nat) : bool :=
  if list_eq_dec Nat.eq_dec (firstn (length P) (skipn p T)) P then true else false.
(** all occurrences, in text order *)
Definition occs (T P : list nat) : list nat := filter (occurs_dec T P) (seq 0 (length T)).

(** the rows [l, r) of the suffix array are those whose suffixes start with [P] *)
Definition sa_interval (T sa P : list nat) (l r : nat) : Prop :=
  l <= r <= length T /\ forall j, j < length T -> (l <= j < r <-> occurs_at T P (nth j sa 0)).

(** symbols: number of symbols of [t] below [c]; number of distinct ones below [c]; number of distinct ones *)
Definition less (t : list nat) (c : nat) : nat := length (filter (fun x => x <? c) t).
Definition dless (t : list nat) (c : nat) : nat := length (filter (fun x => x <? c) (nodup Nat.eq_dec t)).
Definition dist (t : list nat) : nat := length (nodup Nat.eq_dec t).
