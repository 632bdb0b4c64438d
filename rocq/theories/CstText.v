(** * Model of the operations of cst_sct3 that read the text: child, edge, suffix links, Weiner links (include/sdsl/cst_sct3.hpp)

    The suffix array [x] is a CSA of Csa.v, [c] is the tree of Cst.v.  [dens] is sa_sample_dens + isa_sample_dens. *)
From Coq Require Import NArith List Bool Arith.
From Verif Require Import Base AbsVec WtBase SpecCsa Alphabet Csa Bp Cst.
Import ListNotations.
Open Scope nat_scope.

(** get_char_pos, suffix_tree_helper.hpp:294-307 *)
Definition get_char_pos (x : csa) (dens i d : nat) : option nat :=
  if d =? 0 then Some i
  else if 2 * d + 2 <? dens then walk (c_psi x) d i
  else let* s := Csa.c_sa x i in c_isa x (s + d).

Section TextOps.
Variable g : padding.
Variables B deg : nat.
Variable c : cst.
Variable x : csa.
Variable dens : nat.

(** child, the binary search of lines 788-811; the fuel bounds the number of rounds *)
Fixpoint child_loop (fuel : nat) (v : node) (d lo hi l r : nat) : option node :=
  match fuel with
  | O => None
  | S fuel =>
    if l <? r then
      let mid := (l + r) / 2 in
      let* m1 := csub mid 1 in
      let* q := select_l_index g B deg c v m1 in
      let '(k, kp, ck) := q in
      let* p := get_char_pos x dens k d in
      if p <? lo then child_loop fuel v d lo hi (mid + 1) r
      else if hi <=? p then child_loop fuel v d lo hi l mid
      else
        let* ck1 := csub ck 1 in
        let* o := fopen g B deg c ck1 in
        let* k2 := idx c o in
        let* j := csub k2 1 in
        let* s1 := csub (csize c) 1 in
        let* jp := (if j <? s1 then bsel c (k2 + 1) else Some (bsize c)) in
        Some (mknd k j kp ck jp)
    else root c
  end.
(** child, lines 756-813; the reference char_pos is not modelled *)
Definition child (v : node) (ch : nat) : option node :=
  if is_leaf v then root c
  else
    let* cc := al_c2c (c_al x) ch in
    if (cc =? 0) && negb (ch =? 0) then root c
    else
      let* hi := nth_error (al_C (c_al x)) (1 + cc) in
      let* lo := nth_error (al_C (c_al x)) cc in
      let* d := depth_ g B deg c v in
      let d := N.to_nat d in
      let* p := get_char_pos x dens (n_i v) d in
      if hi <=? p then root c
      else if lo <=? p then select_child g B deg c v 1
      else
        let* cnt := degree g c v in
        let* p := get_char_pos x dens (n_j v) d in
        if p <? lo then root c
        else if p <? hi then select_child g B deg c v cnt
        else child_loop (S cnt) v d lo hi 2 cnt.

(** edge, lines 831-846; the loop 837-844 *)
Fixpoint edge_loop (fuel order b e : nat) : option nat :=
  match fuel with
  | O => None
  | S fuel =>
    if b <? e then
      let mid := (b + e) / 2 in
      let* y := nth_error (al_C (c_al x)) mid in
      if y <=? order then edge_loop fuel order (mid + 1) e else edge_loop fuel order b mid
    else Some b
  end.
Definition edge (v : node) (d : nat) : option nat :=
  let* d1 := csub d 1 in
  let* order := get_char_pos x dens (n_i v) d1 in
  let* b := edge_loop (S (al_sigma (c_al x) + 1)) order 1 (al_sigma (c_al x) + 1) in
  let* k := csub b 1 in
  al_c2ch (c_al x) k.

(** sl, lines 932-960 *)
Definition sl (v : node) : option node :=
  let* r := root c in
  if node_eqb v r then root c
  else
    let* i := c_psi x (n_i v) in
    if is_leaf v then if (n_i v =? 0) && (n_j v =? 0) then root c else select_leaf g B deg c (i + 1)
    else
      let* j := c_psi x (n_j v) in
      around_min g B deg c (i + 1) j.

(** wl, lines 972-993 *)
Definition wl (v : node) (ch : nat) : option node :=
  let* p := c_rank x (n_i v) ch in
  let* q := c_rank x (n_j v + 1) ch in
  if p =? q then root c
  else
    let* b := c_begin (c_al x) ch in
    if p + 1 =? q then select_leaf g B deg c (b + p + 1)
    else
      let* r := csub (b + q) 1 in
      let* ip := bsel c (b + p + 1) in
      let* s1 := csub (csize c) 1 in
      let* jp := (if r <? s1 then bsel c (r + 2) else Some (bsize c)) in
      let* cp := fclose g B deg c ip in
      Some (mknd (b + p) r ip cp jp).
End TextOps.
