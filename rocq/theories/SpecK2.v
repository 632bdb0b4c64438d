(** * Binary relations as edge sets or matrices *)
From Coq Require Import List Arith Bool.
Import ListNotations.

(** the entry [matrix[x][y]] is 1 *)
Definition matrix_rel (M : list (list nat)) (x y : nat) : bool :=
  match nth_error M x with Some row => match nth_error row y with Some v => v =? 1 | None => false end | None => false end.
Definition square (M : list (list nat)) : Prop := forall row, In row M -> length row = length M.
(** there is an edge from [x] to [y] *)
Definition edge_rel (E : list (nat * nat)) (x y : nat) : bool := existsb (fun e => (fst e =? x) && (snd e =? y)) E.
