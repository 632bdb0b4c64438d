(** * What an int_vector_buffer of w-bit integers does: the operations on a growing list *)
From Coq Require Import NArith ZArith List Bool Arith.
From Verif Require Import Base IntVector SpecIntVector IvBuffer.
Import ListNotations.

(** [l] with element [i] set to [x]; missing elements before it are 0 *)
Definition put (l : list N) (i : nat) (x : N) : list N := upd (l ++ repeat 0%N (i + 1 - length l)) i x.

(** the list after an operation, and the values it returns *)
Definition l_step (w : nat) (l : list N) (o : b_op) : list N * list N :=
  let get i := Z.of_N (nth i l 0%N) in
  match o with
  | BRead i => (l, [nth i l 0%N])
  | BWrite i x => (put l i (zmod w (Z.of_N x)), [])
  | BPush x => (l ++ [zmod w (Z.of_N x)], [])
  | BAdd i x => (upd l i (zmod w (get i + Z.of_N x)), [])
  | BSub i x => (upd l i (zmod w (get i - Z.of_N x)), [])
  | BBuffer _ => (l, [])
  | BReset => ([], [])
  end.
Fixpoint l_run (w : nat) (l : list N) (ops : list b_op) : list N * list N :=
  match ops with
  | [] => (l, [])
  | o :: r => let '(l, out) := l_step w l o in let '(l, out') := l_run w l r in (l, out ++ out')
  end.
(** preconditions: reads and updates below the current size, 64-bit operands *)
Definition l_pre (l : list N) (o : b_op) : Prop :=
  match o with
  | BRead i => i < length l
  | BAdd i x | BSub i x => i < length l /\ is_word x
  | BWrite _ x | BPush x => is_word x
  | BBuffer _ | BReset => True
  end.
Fixpoint l_ok (w : nat) (l : list N) (ops : list b_op) : Prop :=
  match ops with [] => True | o :: r => l_pre l o /\ l_ok w (fst (l_step w l o)) r end.

(** plain files: the elements, w/8 little endian bytes each *)
Definition plain_bytes (w : nat) (l : list N) : list N := flat_map (le_bytes (w / 8)) l.
