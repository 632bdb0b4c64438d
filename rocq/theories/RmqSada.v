(** * Model of rmq_succinct_sada (include/sdsl/rmq_succinct_sada.hpp) *)
From Coq Require Import NArith ZArith List Bool Arith.
From Verif Require Import Base SpecBits SpecRank AbsVec WtBase Bp BpRmq.
Import ListNotations.

(** rank_support_v<10,2>::rank and select_support_mcl<10,2>::select by their proved specification (C12, C15) *)
Definition p_rank (p : pat) (bp : list bool) (i : nat) : option nat :=
  if i <=? length bp then Some (rank_of (occ p (t_bit bp)) i) else None.
Definition p_select (p : pat) (bp : list bool) (i : nat) : option nat :=
  if i =? 0 then None else nth_error (positions (occ p (t_bit bp)) (length bp)) (i - 1).

(** struct state, lines 92-98: l, r, m, visit *)
Record state := mkst { s_l : nat; s_r : nat; s_m : nat; s_visit : nat }.
(** the loop of construct_bp_of_extended_cartesian_tree, lines 112-130; [h] is rmq_helper *)
Fixpoint ect_run (fuel : nat) (h : nat -> nat -> option nat) (stack : list state) (bp : list bool) (cnt : nat) : option (list bool) :=
  match fuel with
  | O => None
  | S fuel =>
    match stack with
    | [] => Some bp
    | s :: stack =>
      if s_visit s =? 1 then
        let* bp := aset bp cnt true in
        let stack := mkst (s_l s) (s_r s) (s_m s) 2 :: stack in
        let* stack := (if s_l s <? s_m s then let* m := h (s_l s) (s_m s - 1) in Some (mkst (s_l s) (s_m s - 1) m 1 :: stack) else Some stack) in
        ect_run fuel h stack bp (cnt + 1)
      else if s_visit s =? 2 then
        let* bp := aset bp cnt true in
        let* bp := aset bp (cnt + 1) false in
        let stack := mkst (s_l s) (s_r s) (s_m s) 3 :: stack in
        let* stack := (if s_m s <? s_r s then let* m := h (s_m s + 1) (s_r s) in Some (mkst (s_m s + 1) (s_r s) m 1 :: stack) else Some stack) in
        ect_run fuel h stack bp (cnt + 2)
      else if s_visit s =? 3 then
        let* bp := aset bp cnt false in
        ect_run fuel h stack bp (cnt + 1)
      else ect_run fuel h stack bp cnt
    end
  end.
(** construct_bp_of_extended_cartesian_tree, lines 104-133 (every one of the 4n bits is written, so the value of the fresh bits is immaterial) *)
Definition ect_bp (h : nat -> nat -> option nat) (n : nat) : option (list bool) :=
  let bp := repeat false (4 * n) in
  if 0 <? n then
    let* m := h 0 (n - 1) in
    ect_run (3 * n + 1) h [mkst 0 (n - 1) m 1] bp 0
  else Some bp.
(** the constructor, lines 150-160; the helper is an rmq_succinct_sct whose bp_support_sada has the block parameters B', deg' *)
Definition sada_build (t_min : bool) (g : padding) (B' deg' B deg : nat) (v : list N) : option (list bool * bps) :=
  let* hb := sct_bp t_min v in
  let* ht := bp_make B' deg' hb in
  let* bp := ect_bp (sct_query g B' deg' hb ht) (length v) in
  let* t := bp_make B deg bp in
  Some (bp, t).
(** operator(), lines 216-225; f is an unsigned expression, so a value below 0 is an error here *)
Definition sada_query (g : padding) (B deg : nat) (bp : list bool) (t : bps) (l r : nat) : option nat :=
  if l =? r then Some l
  else
    let* x := p_select P10 bp (l + 1) in
    let* y := p_select P10 bp (r + 1) in
    let* z := bp_rmq g B deg bp t x y in
    let* b := t_get bp z in
    let* f := (if b then csub (z + 1) 2 else Some (z + 1)) in
    let* f := csub f 1 in
    p_rank P10 bp f.
(** size(), lines 227-229 *)
Definition sada_size (bp : list bool) : nat := length bp / 4.
