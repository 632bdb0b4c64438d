(** * What a stack is: a list with its top first, driven by histories of push and pop *)
From Coq Require Import NArith List Bool Arith.
Import ListNotations.

Inductive op := Push (x : nat) | Pop.

(** the plain stack after one operation; pop of an empty stack does nothing *)
Definition st_step (l : list nat) (o : op) : list nat :=
  match o with Push x => x :: l | Pop => tl l end.
Definition st_run (l : list nat) (ops : list op) : list nat := fold_left st_step ops l.

(** every push of the history meets [pre] on the stack as it is when the push happens *)
Fixpoint st_ok (pre : list nat -> nat -> Prop) (l : list nat) (ops : list op) : Prop :=
  match ops with
  | [] => True
  | o :: r => match o with Push x => pre l x | Pop => True end /\ st_ok pre (st_step l o) r
  end.

(** the preconditions: the pushed value is larger than (not smaller than) the top *)
Definition above (l : list nat) (x : nat) : Prop := match l with [] => True | t :: _ => t < x end.
Definition notbelow (l : list nat) (x : nat) : Prop := match l with [] => True | t :: _ => t <= x end.

(** the truth values sorted_multi_stack_support returns: push reports whether the value is new,
    pop whether the last copy of the top value has been removed *)
Definition st_result (l : list nat) (o : op) : bool :=
  match o with
  | Push x => match l with [] => true | t :: _ => negb (t =? x) end
  | Pop => match l with [] => false | [_] => true | t :: u :: _ => negb (t =? u) end
  end.
Fixpoint st_results (l : list nat) (ops : list op) : list bool :=
  match ops with [] => [] | o :: r => st_result l o :: st_results (st_step l o) r end.
