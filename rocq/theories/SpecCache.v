(** * Specification of the cache: every config has its own map from keys and types to the value last stored *)
From Coq Require Import List Bool Arith Ascii.
From Verif Require Import Base Cache.
Import ListNotations.

Section SpecCache.
Variable V : Type.
Definition smap := nat -> list ascii -> option (list ascii) -> option V.
Definition same_key (a b : option (list ascii)) : bool :=
  match a, b with None, None => true | Some x, Some y => if list_eq_dec ascii_dec x y then true else false | _, _ => false end.
Definition csem (m : smap) (o : cop V) : smap :=
  match o with
  | CStore _ c key hash v => fun d k h =>
      if (d =? c) && (if list_eq_dec ascii_dec k key then true else false) && same_key h hash then Some v else m d k h
  | CRegister _ _ _ => m
  | CDeleteAll _ c => fun d k h => if d =? c then None else m d k h
  end.
Definition csems (m : smap) (l : list (cop V)) : smap := fold_left csem l m.
Definition empty_map : smap := fun _ _ _ => None.
End SpecCache.
