(** * Specification of the memory monitor

    While the monitor is on it knows the memory in use since start, the largest value this had, the names of the open events
    and the ended events with the memory in use when they ended.  Starting and stopping while an event is open is not allowed. *)
From Coq Require Import List Bool Arith ZArith.
From Verif Require Import Base MemMon.
Import ListNotations.
Local Open Scope Z_scope.

Record smon := mksmon { on : bool; cur : Z; mx : Z; opened : list nat; ended : list (nat * Z) }.
Definition msem (s : smon) (o : mop) : option smon :=
  match o with
  | MStart _ => match opened s with [] => Some (mksmon true 0 0 [] []) | _ => None end
  | MStop => match opened s with [] => Some (mksmon false (cur s) (mx s) [] (ended s)) | _ => None end
  | MRecord _ d => if on s then Some (mksmon true (cur s + d) (Z.max (mx s) (cur s + d)) (opened s) (ended s)) else Some s
  | MOpen _ name => Some (mksmon (on s) (cur s) (mx s) (name :: opened s) (ended s))
  | MClose _ => match opened s with
                | [] => None
                | name :: l => Some (mksmon (on s) (cur s) (mx s) l (if on s then ended s ++ [(name, cur s)] else ended s))
                end
  end.
Fixpoint msems (s : smon) (l : list mop) : option smon :=
  match l with
  | [] => Some s
  | o :: l => let* s := msem s o in msems s l
  end.
Definition smon0 : smon := mksmon false 0 0 [] [].
(** every change of the memory comes later than the granularity after the previous one *)
Fixpoint spaced (gran : Z) (on : bool) (last : Z) (l : list mop) : Prop :=
  match l with
  | [] => True
  | MStart t :: l => spaced gran true t l
  | MStop :: l => spaced gran false last l
  | MRecord t _ :: l => if on then last + gran < t /\ spaced gran on t l else spaced gran on last l
  | _ :: l => spaced gran on last l
  end.
