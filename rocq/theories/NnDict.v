(** * Model of nn_dict_dynamic

    64-bit integers that count or index are [nat]; node words are [N]; m_offset and m_tree
    (int_vector<64>) are lists.  An access outside a list and a subtraction below zero (which would
    wrap and then index outside) are [None]. *)
From Coq Require Import NArith List Bool Arith.
From Verif Require Import Base Bits AbsVec.
Import ListNotations.

Definition sub_c (a b : nat) : option nat := if b <=? a then Some (a - b) else None.

Record nnd := mknn { nn_size : nat; nn_depth : nat; nn_vbl : nat; nn_off : list nat; nn_tree : list N }.

(** nn_dict_dynamic.hpp:95-101: while (level) *)
Fixpoint nn_levels (level tmp : nat) (off : list nat) (nodes : nat) : option (list nat * nat) :=
  match level with
  | 0 => Some (off, nodes)
  | S l =>
    let tmp := (tmp + 63) / 64 in
    let* d := sub_c (64 ^ level) tmp in
    let* off := aset off (level + 1) d in
    nn_levels l tmp off (nodes + tmp)
  end.
(** nn_dict_dynamic.hpp:104-106: [k] iterations from [level] *)
Fixpoint nn_prefix (k level : nat) (off : list nat) : option (list nat) :=
  match k with
  | 0 => Some off
  | S k =>
    let* a := nth_error off level in
    let* b := nth_error off (level - 1) in
    let* off := aset off level (a + b) in
    nn_prefix k (level + 1) off
  end.
(** nn_dict_dynamic.hpp:78-110, for n > 0 *)
Definition nn_new (n : nat) : option nnd :=
  let depth := N.to_nat (hi (N.of_nat n)) / 6 in
  let* (off, nodes) := nn_levels depth n (repeat 0 (depth + 2)) 1 in
  let* off := nn_prefix depth 1 off in
  Some (mknn n depth (64 ^ depth / 63) off (repeat 0%N nodes)).

(** m_tree[v_node_position - m_offset[dep]]: the real position of a node, and its word *)
Definition nn_pos (t : nnd) (dep vp : nat) : option nat := let* o := nth_error (nn_off t) dep in sub_c vp o.
Definition nn_word (t : nnd) (dep vp : nat) : option N := let* r := nn_pos t dep vp in nth_error (nn_tree t) r.

(** operator[] const, nn_dict_dynamic.hpp:166-170, and the cast of a reference, lines 359-363 *)
Definition nn_get (t : nnd) (i : nat) : option bool :=
  let* w := nn_word t (nn_depth t) (nn_vbl t + i / 64) in Some (tb w (i mod 64)).

(** The shifts of next and prev by 64 and by 63-255: undefined behaviour in C++.  [ovs dep] is what
    they give at depth [dep]: the strict reading is [None], compiled code gives some word *)
Definition nn_shr (ovs : nat -> option N) (dep : nat) (w : N) (off : nat) : option N := if off <? 64 then Some (shr w off) else ovs dep.
Definition nn_shl (ovs : nat -> option N) (dep : nat) (w : N) (off : nat) : option N := if off <? 64 then Some (shl w (63 - off)) else ovs dep.

(** nn_dict_dynamic.hpp:196-207: go up; [None] inside says that the search ended at the root *)
Fixpoint nn_up_next (ovs : nat -> option N) (t : nnd) (fuel vp dep off : nat) (node : N) : option (option (nat * nat * nat * N)) :=
  match fuel with
  | 0 => None
  | S fuel =>
    if (node =? 0)%N || (off =? 64) then
      if vp =? 0 then Some None
      else
        let* dep := sub_c dep 1 in
        let vp := vp - 1 in
        let off := vp mod 64 + 1 in
        let vp := vp / 64 in
        let* w := nn_word t dep vp in
        let* node := nn_shr ovs dep w off in
        nn_up_next ovs t fuel vp dep off node
    else Some (Some (vp, dep, off, node))
  end.
(** nn_dict_dynamic.hpp:212-219 and 260-267: go down; [f] is bits::lo or bits::hi *)
Fixpoint nn_down (f : N -> N) (t : nnd) (fuel vp dep position : nat) : option nat :=
  match fuel with
  | 0 => None
  | S fuel =>
    if vp <? nn_vbl t then
      let dep := dep + 1 in
      let vp := vp * 64 + 1 + position in
      let* node := nn_word t dep vp in
      nn_down f t fuel vp dep (N.to_nat (f node))
    else Some ((vp - nn_vbl t) * 64 + position)
  end.
(** next, nn_dict_dynamic.hpp:184-221; both loops run at most depth+1 times *)
Definition nn_next (ovs : nat -> option N) (t : nnd) (i : nat) : option nat :=
  let vp := nn_vbl t + i / 64 in
  let off := i mod 64 in
  let* w := nn_word t (nn_depth t) vp in
  let* r := nn_up_next ovs t (nn_depth t + 1) vp (nn_depth t) off (shr w off) in
  match r with
  | None => Some (nn_size t)
  | Some (vp, dep, off, node) => nn_down lo t (nn_depth t + 1) vp dep (N.to_nat (lo node) + off)
  end.
(** nn_dict_dynamic.hpp:241-255; (uint8_t)-1 is 255 *)
Fixpoint nn_up_prev (ovs : nat -> option N) (t : nnd) (fuel vp dep off : nat) (node : N) : option (option (nat * nat * nat * N)) :=
  match fuel with
  | 0 => None
  | S fuel =>
    if (node =? 0)%N || (off =? 255) then
      if vp =? 0 then Some None
      else
        let* dep := sub_c dep 1 in
        let vp := vp - 1 in
        let off := (vp mod 64 + 255) mod 256 in
        let vp := vp / 64 in
        let* w := nn_word t dep vp in
        let* node := nn_shl ovs dep w off in
        nn_up_prev ovs t fuel vp dep off node
    else Some (Some (vp, dep, off, node))
  end.
(** prev, nn_dict_dynamic.hpp:229-269 *)
Definition nn_prev (ovs : nat -> option N) (t : nnd) (i : nat) : option nat :=
  let vp := nn_vbl t + i / 64 in
  let off := i mod 64 in
  let* w := nn_word t (nn_depth t) vp in
  let* r := nn_up_prev ovs t (nn_depth t + 1) vp (nn_depth t) off (shl w (63 - off)) in
  match r with
  | None => Some (nn_size t)
  | Some (vp, dep, off, node) =>
    let* position := sub_c (N.to_nat (hi node)) (63 - off) in
    nn_down hi t (nn_depth t + 1) vp dep position
  end.

Definition with_tree (t : nnd) (tree : list N) : nnd := mknn (nn_size t) (nn_depth t) (nn_vbl t) (nn_off t) tree.
(** reference::operator=(true), nn_dict_dynamic.hpp:316-331 *)
Fixpoint nn_set1 (t : nnd) (fuel vp dep off : nat) : option nnd :=
  match fuel with
  | 0 => None
  | S fuel =>
    let* r := nn_pos t dep vp in
    let* w := nth_error (nn_tree t) r in
    if tb w off then Some t
    else
      let* tree := aset (nn_tree t) r (N.lor w (2 ^ N.of_nat off)) in
      let t := with_tree t tree in
      if (w =? 0)%N && negb (dep =? 0) then nn_set1 t fuel ((vp - 1) / 64) (dep - 1) ((vp - 1) mod 64)
      else Some t
  end.
(** reference::operator=(false), nn_dict_dynamic.hpp:333-348 *)
Fixpoint nn_set0 (t : nnd) (fuel vp dep off : nat) : option nnd :=
  match fuel with
  | 0 => None
  | S fuel =>
    let* r := nn_pos t dep vp in
    let* w := nth_error (nn_tree t) r in
    if negb (tb w off) then Some t
    else
      let w := N.ldiff w (2 ^ N.of_nat off) in
      let* tree := aset (nn_tree t) r w in
      let t := with_tree t tree in
      if (w =? 0)%N && negb (dep =? 0) then nn_set0 t fuel ((vp - 1) / 64) (dep - 1) ((vp - 1) mod 64)
      else Some t
  end.
(** nn[i] = x, nn_dict_dynamic.hpp:307-351 *)
Definition nn_assign (t : nnd) (i : nat) (x : bool) : option nnd :=
  if x then nn_set1 t (nn_depth t + 1) (nn_vbl t + i / 64) (nn_depth t) (i mod 64)
  else nn_set0 t (nn_depth t + 1) (nn_vbl t + i / 64) (nn_depth t) (i mod 64).
(** util::set_zero_bits, lib/nn_dict_dynamic.cpp:8-11 *)
Definition nn_zero (t : nnd) : nnd := with_tree t (repeat 0%N (length (nn_tree t))).

(** histories *)
Inductive nn_op := Assign (i : nat) (x : bool) | Zero.
Definition nn_step (t : nnd) (o : nn_op) : option nnd := match o with Assign i x => nn_assign t i x | Zero => Some (nn_zero t) end.
Fixpoint nn_run (t : nnd) (ops : list nn_op) : option nnd :=
  match ops with [] => Some t | o :: r => let* t := nn_step t o in nn_run t r end.
