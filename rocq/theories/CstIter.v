(** * Model of the suffix tree iterators (include/sdsl/cst_iterators.hpp) over cst_sct3

    An iterator is its members; the pointer to the tree is the argument [c].  m_stack_size is a uint32_t (N, modulo 2^32);
    it is not initialised unless the iterator is begin().  Simplification: value semantics; the class has no copy constructor,
    a copy of begin() shares the cache array with the original. *)
From Coq Require Import NArith List Bool Arith.
From Verif Require Import Base AbsVec WtBase Bp BpRmq Cst.
Import ListNotations.

Section Iter.
Variable g : padding.
Variables B deg : nat.
Variable c : cst.

(** ** cst_dfs_const_forward_iterator, lines 46-176 *)
(** m_v, m_visited, m_valid, m_stack_cache, m_stack_size; lines 56-61 *)
Record dfs := mkdfs { d_v : node; d_vis : bool; d_val : bool; d_cache : option (list node); d_size : N }.
(** the default template argument, line 46 *)
Definition cache_size : N := 128.
(** parent(), lines 64-70 *)
Definition dfs_parent (it : dfs) : option (node * N) :=
  let sz := ((d_size it + 2 ^ 32 - 1) mod 2 ^ 32)%N in
  let* w := (match d_cache it with
             | Some a => if N.ltb sz cache_size then nth_error a (N.to_nat sz) else parent g B deg c (d_v it)
             | None => parent g B deg c (d_v it)
             end) in
  Some (w, sz).
(** first_child(), lines 72-77 *)
Definition dfs_first (it : dfs) : option (node * option (list node) * N) :=
  let* a := (match d_cache it with
             | Some a => if N.ltb (d_size it) cache_size then let* a := aset a (N.to_nat (d_size it)) (d_v it) in Some (Some a) else Some (Some a)
             | None => Some None
             end) in
  let* w := select_child g B deg c (d_v it) 1 in
  Some (w, a, ((d_size it + 1) mod 2 ^ 32)%N).
(** the constructor, lines 85-95; [junk] is the uninitialised m_stack_size; new node_type[cache_size] value-initialises the nodes *)
Definition dfs_make (v : node) (visited valid : bool) (junk : N) : option dfs :=
  let* r := root c in
  if node_eqb v r && negb visited && valid then Some (mkdfs v visited valid (Some (repeat (mknd 0 0 0 0 0) (N.to_nat cache_size))) 0)
  else Some (mkdfs v visited valid None junk).
(** skip_subtree, lines 113-119 *)
Definition dfs_skip (it : dfs) : dfs :=
  if d_val it then if negb (d_vis it) then mkdfs (d_v it) true (d_val it) (d_cache it) (d_size it) else it else it.
(** operator++, lines 127-156 *)
Definition dfs_next (it : dfs) : option dfs :=
  if negb (d_val it) then Some it
  else
    let* r := root c in
    if node_eqb (d_v it) r && d_vis it then Some (mkdfs (d_v it) (d_vis it) false (d_cache it) (d_size it))
    else if negb (d_vis it) then
      if is_leaf (d_v it) then
        let* w := sibling g B deg c (d_v it) in
        let* r := root c in
        if node_eqb w r then let* q := dfs_parent it in Some (mkdfs (fst q) true true (d_cache it) (snd q))
        else Some (mkdfs w false true (d_cache it) (d_size it))
      else let* q := dfs_first it in let '(w, a, sz) := q in Some (mkdfs w false true a sz)
    else
      let* w := sibling g B deg c (d_v it) in
      let* r := root c in
      if node_eqb w r then let* q := dfs_parent it in Some (mkdfs (fst q) true true (d_cache it) (snd q))
      else Some (mkdfs w false true (d_cache it) (d_size it)).
(** operator==, lines 164-169, for iterators of the same tree *)
Definition dfs_eqb (x y : dfs) : bool := eqb (d_vis x) (d_vis y) && eqb (d_val x) (d_val y) && node_eqb (d_v x) (d_v y).
(** begin() and end() of the tree and of a subtree, cst_sct3.hpp:420-450; the tree is not empty *)
Definition dfs_begin (v : node) (junk : N) : option dfs := dfs_make v false true junk.
Definition dfs_end (v : node) (junk : N) : option dfs :=
  let* r := root c in
  if node_eqb r v then dfs_make r true false junk else let* it := dfs_make v true true junk in dfs_next it.
(** the loop for (it = first; it != last; ++it): what *it and visit() show; visit() = 2 is true *)
Fixpoint dfs_collect (fuel : nat) (it last : dfs) : option (list (nat * nat * bool)) :=
  match fuel with
  | O => None
  | S fuel =>
    if dfs_eqb it last then Some []
    else let* it' := dfs_next it in let* l := dfs_collect fuel it' last in Some ((lb (d_v it), rb (d_v it), d_vis it) :: l)
  end.

(** a client: true is skip_subtree(), false is ++ *)
Fixpoint dfs_run (ops : list bool) (it : dfs) : option dfs :=
  match ops with
  | [] => Some it
  | o :: ops => let* it' := (if o then Some (dfs_skip it) else dfs_next it) in dfs_run ops it'
  end.

(** ** cst_bottom_up_const_forward_iterator, lines 179-245 *)
Record bup := mkbup { b_v : node; b_val : bool }.
(** operator++, lines 210-224 *)
Definition bup_next (it : bup) : option bup :=
  if negb (b_val it) then Some it
  else
    let* r := root c in
    if node_eqb (b_v it) r then Some (mkbup (b_v it) false)
    else
      let* w := sibling g B deg c (b_v it) in
      let* r := root c in
      if node_eqb w r then let* p := parent g B deg c (b_v it) in Some (mkbup p true)
      else let* l := leftmost_leaf g B deg c w in Some (mkbup l true).
(** operator==, lines 234-238 *)
Definition bup_eqb (x y : bup) : bool := eqb (b_val x) (b_val y) && node_eqb (b_v x) (b_v y).
(** begin_bottom_up() and end_bottom_up(), cst_sct3.hpp:453-464 *)
Definition bup_begin : option bup := let* r := root c in let* l := leftmost_leaf g B deg c r in Some (mkbup l true).
Definition bup_end : option bup := let* r := root c in Some (mkbup r false).
Fixpoint bup_collect (fuel : nat) (it last : bup) : option (list (nat * nat)) :=
  match fuel with
  | O => None
  | S fuel =>
    if bup_eqb it last then Some []
    else let* it' := bup_next it in let* l := bup_collect fuel it' last in Some ((lb (b_v it), rb (b_v it)) :: l)
  end.

(** ** cst_bfs_iterator, lines 253-338 *)
Record bfs := mkbfs { q_l : list node; q_val : bool }.
(** the loop in lines 305-308: append the siblings *)
Fixpoint bfs_push (fuel : nat) (child : node) (q : list node) : option (list node) :=
  match fuel with
  | O => None
  | S fuel =>
    let* r := root c in
    if node_eqb r child then Some q
    else let* s := sibling g B deg c child in bfs_push fuel s (q ++ [child])
  end.
(** operator++, lines 295-310 *)
Definition bfs_next (it : bfs) : option bfs :=
  if negb (q_val it) then Some it
  else
    match q_l it with
    | [] => Some (mkbfs [] false)
    | v :: q =>
      let* child := select_child g B deg c v 1 in
      let* q := bfs_push (S (csize c)) child q in
      Some (mkbfs q true)
    end.
(** operator==, lines 320-331 *)
Definition bfs_eqb (x y : bfs) : bool :=
  if negb (length (q_l x) =? length (q_l y)) then false
  else match q_l x, q_l y with
       | v :: q, w :: r => eqb (q_val x) (q_val y) && node_eqb v w && node_eqb (last q v) (last r w)
       | _, _ => eqb (q_val x) (q_val y)
       end.
(** the constructor, lines 276-282: cst_bfs_iterator(&cst, v) and cst_bfs_iterator(&cst, v, true, true) *)
Definition bfs_begin (v : node) : bfs := mkbfs [v] true.
Definition bfs_end : bfs := mkbfs [] true.
Fixpoint bfs_collect (fuel : nat) (it last : bfs) : option (list (nat * nat)) :=
  match fuel with
  | O => None
  | S fuel =>
    if bfs_eqb it last then Some []
    else
      let* v := nth_error (q_l it) 0 in
      let* it' := bfs_next it in
      let* l := bfs_collect fuel it' last in
      Some ((lb v, rb v) :: l)
  end.
End Iter.
