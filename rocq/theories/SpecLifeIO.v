(** * Specification of histories with files: a file is a queue of values

    Saving appends the value of the object to the file, loading takes the next value off the file and gives it to the object,
    whatever the object was before (it may be moved-from).  Saving an object with an unspecified value and loading from a file
    with nothing left in it are not programs. *)
From Coq Require Import List Bool Arith.
From Verif Require Import Base Life SpecLife LifeIO.
Import ListNotations.

Section SpecLifeIO.
Variable V : Type.
Definition archive := nat -> list (nat -> V).
Definition keep (ar : archive) (k : nat) (l : list (nat -> V)) : archive := fun x => if x =? k then l else ar x.
Definition sem_io (st : env V * archive) (o : iop V) : option (env V * archive) :=
  let (e, ar) := st in
  match o with
  | Op _ o => let* e := sem V e o in Some (e, ar)
  | Save _ n k => match e n with Val _ v => Some (e, keep ar k (ar k ++ [v])) | _ => None end
  | Load _ n k => if dead V e n then None else match ar k with v :: l => Some (put V e n (Val V v), keep ar k l) | [] => None end
  end.
Fixpoint sems_io (st : env V * archive) (l : list (iop V)) : option (env V * archive) :=
  match l with
  | [] => Some st
  | o :: l => let* st := sem_io st o in sems_io st l
  end.
Definition no_archive : archive := fun _ => [].
End SpecLifeIO.
