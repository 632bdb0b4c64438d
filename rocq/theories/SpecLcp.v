(** * Longest common prefixes *)
From Coq Require Import List Arith.
Import ListNotations.
Fixpoint lcp (a b : list nat) : nat :=
  match a, b with x :: a', y :: b' => if x =? y then S (lcp a' b') else 0 | _, _ => 0 end.
(** [L] is the LCP array of text [T] with suffix array [sa] *)
Definition is_lcp (T sa L : list nat) : Prop :=
  length L = length T /\ nth 0 L 0 = 0 /\
  forall i, 1 <= i < length T -> nth i L 0 = lcp (skipn (nth (i - 1) sa 0) T) (skipn (nth i sa 0) T).
