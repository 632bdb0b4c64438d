(** * Specification of int_vector histories: vectors are values

    A vector is its size in bits, its width and its words.  A moved-from vector, and one that was resized, lives with an
    unspecified value (the effect of resize on the entries is C05). *)
From Coq Require Import List Bool Arith.
From Verif Require Import Base IvMem.
Import ListNotations.

Section SpecIvMem.
Variable W : Type.
Inductive vstatus := VDead | VUnspec | VVal (size width : nat) (ws : list W).
Definition venv := nat -> vstatus.
Definition vput (e : venv) n s : venv := fun x => if x =? n then s else e x.
Definition vdead (e : venv) n : bool := match e n with VDead => true | _ => false end.
Definition vsem (e : venv) (o : vop W) : option venv :=
  match o with
  | Fill _ n size width ws => if vdead e n && (length ws =? words size) then Some (vput e n (VVal size width ws)) else None
  | CopyC _ n m => if vdead e n && negb (vdead e m) then Some (vput e n (e m)) else None
  | MoveC _ n m => if vdead e n && negb (vdead e m) then Some (vput (vput e m VUnspec) n (e m)) else None
  | CopyA _ n m => if negb (vdead e n) && negb (vdead e m) then Some (vput e n (e m)) else None
  | MoveA _ n m => if negb (vdead e n) && negb (vdead e m) then Some (vput (vput e m VUnspec) n (e m)) else None
  | Swap _ n m => if negb (vdead e n) && negb (vdead e m) then Some (vput (vput e m (e n)) n (e m)) else None
  | Resize _ n _ => if vdead e n then None else Some (vput e n VUnspec)
  | Write _ n i w => match e n with
                     | VVal size width ws => if i <? length ws then Some (vput e n (VVal size width (firstn i ws ++ w :: skipn (S i) ws))) else None
                     | _ => None
                     end
  | Del _ n => if vdead e n then None else Some (vput e n VDead)
  end.
Fixpoint vsems (e : venv) (l : list (vop W)) : option venv :=
  match l with
  | [] => Some e
  | o :: l => let* e := vsem e o in vsems e l
  end.
Definition no_vecs : venv := fun _ => VDead.
End SpecIvMem.
