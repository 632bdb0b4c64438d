(** * Specification of the word-level operations: plain statements about the bits
    of a word.  Nothing in this file refers to the model. *)
From Coq Require Import NArith List Bool Arith.
From Verif Require Import Base.
Import ListNotations.

(** number of one bits among the 64 bits of a word *)
Definition popcount (x : N) : nat := count_true (bits_of_N 64 x).

(** number of one bits strictly below position [p] *)
Definition ones_below (x : N) (p : nat) : nat := count_true (bits_of_N p x).

(** [p] is the position of the most / least significant one bit *)
Definition is_msb (x : N) (p : nat) : Prop := tb x p = true /\ forall k, p < k -> tb x k = false.
Definition is_lsb (x : N) (p : nat) : Prop := tb x p = true /\ forall k, k < p -> tb x k = false.

(** Greedy left-to-right matching of the pattern 11: [pend] says that the bit
    before is an unmatched one.  Returns the number of matches and whether the
    last bit is an unmatched one. *)
Fixpoint greedy11 (pend : bool) (l : list bool) : nat * bool :=
  match l with
  | [] => (0, pend)
  | b :: t => if b then if pend then let '(n, p) := greedy11 false t in (S n, p)
                        else greedy11 true t
              else greedy11 false t
  end.

(** positions at which a greedy match of 11 ends *)
Fixpoint greedy11_ends (pend : bool) (pos : nat) (l : list bool) : list nat :=
  match l with
  | [] => []
  | b :: t => if b then if pend then pos :: greedy11_ends false (S pos) t
                        else greedy11_ends true (S pos) t
              else greedy11_ends false (S pos) t
  end.

(** number of positions at which the two-bit pattern (first = earlier bit, second =
    later bit) ends, when the list is preceded by the bit [before] *)
Fixpoint count_pat2 (p1 p2 : bool) (before : bool) (l : list bool) : nat :=
  match l with
  | [] => 0
  | b :: t => b2nat (eqb before p1 && eqb b p2) + count_pat2 p1 p2 b t
  end.

(** ascending list of the positions below [n] that satisfy [f] *)
Definition positions (f : nat -> bool) (n : nat) : list nat := filter f (seq 0 n).

(** number of positions below [i] that satisfy [f] *)
Definition rank_of (f : nat -> bool) (i : nat) : nat := length (positions f i).

(** [p] is the [i]-th (1-based) position that satisfies [f] *)
Definition is_select (f : nat -> bool) (i p : nat) : Prop := f p = true /\ rank_of f p + 1 = i.

(** ** Word arrays *)

(** [fits m w off len]: the bits [64w+off, 64w+off+len) and the first word lie in [m] *)
Definition fits (m : mem) (w off len : nat) : Prop :=
  off < 64 /\ len <= 64 /\ w < length m /\ (off + len <= 64 \/ w + 1 < length m).

(** the memory [m] with bits [p, p+len) replaced by the low bits of [x] *)
Definition mem_set (m : mem) (p len : nat) (x : N) (m' : mem) : Prop :=
  length m' = length m /\ words_ok m' /\
  forall q, mbit m' q = if (p <=? q) && (q <? p + len) then tb x (q - p) else mbit m q.

(** first position >= a with [f], last position <= a with [f] *)
Definition first_one_from (f : nat -> bool) (a p : nat) : Prop :=
  a <= p /\ f p = true /\ forall k, a <= k < p -> f k = false.
Definition last_one_upto (f : nat -> bool) (a p : nat) : Prop :=
  p <= a /\ f p = true /\ forall k, p < k <= a -> f k = false.


(** Apply a count-with-carry function to every word of a stream, passing the carry on;
    returns the total and the final carry. *)
Fixpoint stream_count (f : N -> N -> N * N) (c : N) (ws : list N) : N * N :=
  match ws with
  | [] => (0%N, c)
  | w :: t => let '(n, c1) := f w c in let '(m, c2) := stream_count f c1 t in ((n + m)%N, c2)
  end.

(** the bits of a stream of words *)
Definition stream_bits (ws : list N) : list bool := flat_map (bits_of_N 64) ws.
