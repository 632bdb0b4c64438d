(** * Specification of int_vector: a list of numbers below 2^width. *)
From Coq Require Import NArith ZArith List Bool Arith.
From Verif Require Import Base Bits IntVector SpecBits.
Import ListNotations.

(** Valid objects: the width is in 1..64, the allocated words cover all bits, every word is a
    64-bit word.  (Constructors establish this, all operations keep it.) *)
Definition iv_ok (v : ivec) : Prop :=
  words_ok (iv_data v) /\ 1 <= iv_width v <= 64 /\ iv_size v <= 64 * length (iv_data v).

(** [v], observed through size() and operator[], is the sequence [l] *)
Definition reads (v : ivec) (l : list N) : Prop :=
  iv_len v = length l /\ forall i, i < length l -> iv_get v i = Some (nth i l 0%N).

(** the word that contains bit position size() can be accessed *)
Definition padding_ok (v : ivec) : Prop := iv_size v / 64 < length (iv_data v).

(** fresh memory: any contents *)
Definition fresh_ok (g : nat -> N) : Prop := forall i, is_word (g i).

(** ** Histories of operations on a vector of [w]-bit integers *)
Inductive iv_op : Type :=
| OpSet (i : nat) (x : N)     (* v[i] = x *)
| OpInc (i : nat)             (* ++v[i] *)
| OpDec (i : nat)             (* --v[i] *)
| OpAdd (i : nat) (x : N)     (* v[i] += x *)
| OpSub (i : nat) (x : N)     (* v[i] -= x *)
| OpSwap (i j : nat)          (* swap(v[i], v[j]) *)
| OpResize (n : nat).         (* v.resize(n) *)

Definition iv_exec (g : nat -> N) (v : ivec) (op : iv_op) : option ivec :=
  match op with
  | OpSet i x => iv_ref_set v i x
  | OpInc i => iv_ref_inc v i
  | OpDec i => iv_ref_dec v i
  | OpAdd i x => iv_ref_add v i x
  | OpSub i x => iv_ref_sub v i x
  | OpSwap i j => iv_ref_swap v i j
  | OpResize n => iv_resize g v n
  end.
Fixpoint iv_run (g : nat -> N) (v : ivec) (ops : list iv_op) : option ivec :=
  match ops with [] => Some v | op :: t => let* v := iv_exec g v op in iv_run g v t end.

(** arithmetic modulo 2^w *)
Definition zmod (w : nat) (z : Z) : N := Z.to_N (z mod 2 ^ Z.of_nat w).

(** what one operation does to the sequence *)
Definition op_spec (w : nat) (op : iv_op) (l l' : list N) : Prop :=
  let get i := Z.of_N (nth i l 0%N) in
  match op with
  | OpSet i x => i < length l /\ l' = upd l i (zmod w (Z.of_N x))
  | OpInc i => i < length l /\ l' = upd l i (zmod w (get i + 1))
  | OpDec i => i < length l /\ l' = upd l i (zmod w (get i - 1))
  | OpAdd i x => i < length l /\ l' = upd l i (zmod w (get i + Z.of_N x))
  | OpSub i x => i < length l /\ l' = upd l i (zmod w (get i - Z.of_N x))
  | OpSwap i j => i < length l /\ j < length l /\ l' = upd (upd l i (nth j l 0%N)) j (nth i l 0%N)
  | OpResize n => length l' = n /\ forall i, i < n -> i < length l -> nth i l' 0%N = nth i l 0%N
  end.
Inductive ops_spec (w : nat) : list iv_op -> list N -> list N -> Prop :=
| ops_nil : forall l, ops_spec w [] l l
| ops_cons : forall op ops l l1 l2, op_spec w op l l1 -> ops_spec w ops l1 l2 -> ops_spec w (op :: ops) l l2.

(** the operations respect their preconditions: indices below the current size [n],
    operands are 64-bit *)
Fixpoint ops_pre (n : nat) (ops : list iv_op) : Prop :=
  match ops with
  | [] => True
  | OpSet i x :: t => i < n /\ is_word x /\ ops_pre n t
  | OpInc i :: t => i < n /\ ops_pre n t
  | OpDec i :: t => i < n /\ ops_pre n t
  | OpAdd i x :: t => i < n /\ is_word x /\ ops_pre n t
  | OpSub i x :: t => i < n /\ is_word x /\ ops_pre n t
  | OpSwap i j :: t => i < n /\ j < n /\ ops_pre n t
  | OpResize k :: t => ops_pre k t
  end.

(** lexicographic order on sequences *)
Fixpoint lex_lt (l1 l2 : list N) : Prop :=
  match l1, l2 with
  | _, [] => False
  | [], _ :: _ => True
  | a :: t1, b :: t2 => (a < b)%N \/ (a = b /\ lex_lt t1 t2)
  end.

(** iterator [it] of a vector of width [w] designates element [i] *)
Definition designates (w : nat) (it : iter) (i : Z) : Prop :=
  it_len it = w /\ it_off it < 64 /\ (64 * it_word it + Z.of_nat (it_off it) = i * Z.of_nat w)%Z.

(** bits of the vector (bits below size) *)
Definition iv_bits (v : ivec) : list bool := map (mbit (iv_data v)) (seq 0 (iv_size v)).

(** [r] is the first position >= [a] with [f], or [n] if there is none below [n] *)
Definition next_spec (f : nat -> bool) (n a r : nat) : Prop :=
  (r < n /\ first_one_from f a r) \/ (r = n /\ forall k, a <= k < n -> f k = false).
(** [r] is the last position <= [a] with [f], or [n] if there is none *)
Definition prev_spec (f : nat -> bool) (n a r : nat) : Prop :=
  last_one_upto f a r \/ (r = n /\ forall k, k <= a -> f k = false).

(** bit [i] of the vector *)
Definition iv_bit (v : ivec) (i : nat) : bool := nth i (iv_bits v) false.

(** [sr x j] is the outcome of the C++ expression [x >> j] on uint64_t: the defined result below
    64; for a shift by 64 (undefined in C++) some 64-bit word, needed for 64-bit vectors only. *)
Definition sr_ok (sr : N -> nat -> option N) (w : nat) : Prop :=
  (forall x j, j < 64 -> sr x j = Some (shr x j)) /\
  (w = 64 -> forall x, exists y, sr x 64 = Some y /\ is_word y).

(** the bit size is a multiple of the element width (all vectors except those whose size was set
    with bit_resize to something else) *)
Definition whole (v : ivec) : Prop := iv_size v = iv_len v * iv_width v.

(** the unused bits of the last word are 0 *)
Definition tail_clean (v : ivec) : Prop := forall k, iv_size v <= k < 64 * ((iv_size v + 63) / 64) -> mbit (iv_data v) k = false.

(** [w] is a possible width of an int_vector<tw> (tw = 0: any) *)
Definition width_ok (tw w : nat) : Prop := tw = 0 \/ w = tw.
