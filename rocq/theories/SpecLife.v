(** * Specification of object histories: objects are values

    The state says for each object name whether the object lives and, if so, which value it has; a moved-from object lives
    but its value is unspecified ([Unspec]) until it is assigned or swapped.  A history which uses an object which does not
    live, or constructs one which already lives, is not a program ([None]). *)
From Coq Require Import List Bool Arith.
From Verif Require Import Base Life.
Import ListNotations.

Section SpecLife.
Variable V : Type.
Inductive status := Dead | Unspec | Val (v : nat -> V).
Definition env := nat -> status.
Definition put (e : env) (n : nat) (s : status) : env := fun x => if x =? n then s else e x.
Definition dead (e : env) (n : nat) : bool := match e n with Dead => true | _ => false end.

Definition sem (e : env) (o : op V) : option env :=
  match o with
  | New _ n v => if dead e n then Some (put e n (Val v)) else None
  | CopyC _ n m => if dead e n && negb (dead e m) then Some (put e n (e m)) else None
  | MoveC _ n m => if dead e n && negb (dead e m) then Some (put (put e m Unspec) n (e m)) else None
  | CopyA _ n m => if negb (dead e n) && negb (dead e m) then Some (put e n (e m)) else None
  | MoveA _ n m => if negb (dead e n) && negb (dead e m) then Some (put (put e m Unspec) n (e m)) else None
  | Swap _ n m => if negb (dead e n) && negb (dead e m) then Some (put (put e m (e n)) n (e m)) else None
  | Del _ n => if dead e n then None else Some (put e n Dead)
  end.
Fixpoint sems (e : env) (l : list (op V)) : option env :=
  match l with
  | [] => Some e
  | o :: l => let* e := sem e o in sems e l
  end.
Definition no_objects : env := fun _ => Dead.
End SpecLife.
