(** * k2_treap<k> (include/sdsl/k2_treap.hpp, k2_treap_helper.hpp, k2_treap_algorithm.hpp)

    Coordinates, weights and indices are [nat].  bp is a list of bits with its rank support (C12); m_maxval is the list of
    its values (dac_vector: C29), the int_vectors m_coord[l] and m_level_idx are lists of their values (a coordinate is
    below k^(l+1), so it fits the width hi(k^(l+1))+1).  The temporary files are lists (C35).  std::partition is a
    parameter [part]: the theorems hold for every function that splits a list by the predicate, in any order.  Every
    access outside a vector is undefined behaviour ([None]); so is the computation of a power of k that exceeds 64 bits. *)
From Coq Require Import List Arith Bool NArith.
From Verif Require Import Base AbsVec WtBase.
Import ListNotations.

Definition pt := (nat * nat * nat)%type. (* x, y, weight *)
Definition ptx (p : pt) : nat := fst (fst p).
Definition pty (p : pt) : nat := snd (fst p).
Definition ptw (p : pt) : nat := snd p.
(* the comparison passed to max_element, k2_treap.hpp:284-290; node_type::operator<, k2_treap_helper.hpp:170-179 *)
Definition plt (a b : pt) : bool :=
  if negb (ptw a =? ptw b) then ptw a <? ptw b
  else if negb (ptx a =? ptx b) then ptx b <? ptx a
  else pty b <? pty a.
Definition pteqb (a b : pt) : bool := (ptx a =? ptx b) && (pty a =? pty b) && (ptw a =? ptw b).

Section Treap.
Variable k : nat.
Variable part : (pt -> bool) -> list pt -> list pt * list pt.

(* get_t, k2_treap.hpp:81-100: the least t with max coordinate < k^t; uint64_t powers *)
Definition tupmax (p : pt) : nat := Nat.max (ptx p) (pty p).
Fixpoint find_t (fuel res x : nat) : option nat :=
  match fuel with
  | 0 => None
  | S f => if (2 ^ 64 <=? N.of_nat k ^ N.of_nat res)%N then None else if k ^ res <=? x then find_t f (res + 1) x else Some res
  end.
Definition get_t (v : list pt) : option nat :=
  match v with [] => Some 0 | _ => find_t 65 0 (fold_right Nat.max 0 (map tupmax v)) end.

(* std::max_element: the position of the first maximum *)
Fixpoint max_idx (best : pt) (bi i : nat) (l : list pt) : nat :=
  match l with [] => bi | e :: l' => if plt best e then max_idx e i (S i) l' else max_idx best bi (S i) l' end.
(* 284-301: the maximum of a group, and the group without it: its place is taken by the last element *)
Definition take_max (g : list pt) : option (pt * list pt) :=
  match g with
  | [] => None
  | e :: g' =>
    let m := max_idx e 0 1 g' in
    let* mx := nth_error g m in
    let* la := nth_error g (length g - 1) in
    Some (mx, firstn (length g - 1) (upd g m la))
  end.
(* the two nested loops over partition, 305-325: [c] parts from digit [j] on *)
Fixpoint split_cells (dig : pt -> nat) (j c : nat) (rem : list pt) : list (list pt) :=
  match c with
  | 0 => []
  | S c' => if j + 1 <? k then let ab := part (fun e => dig e <=? j) rem in fst ab :: split_cells dig (j + 1) c' (snd ab)
            else rem :: split_cells dig (j + 1) c' []
  end.
Definition digx (l : nat) (p : pt) : nat := ptx p / k ^ (l - 1) mod k.
Definition digy (l : nat) (p : pt) : nat := pty p / k ^ (l - 1) mod k.
Definition cells (l : nat) (g : list pt) : list (list pt) := flat_map (split_cells (digy l) 0 k) (split_cells (digx l) 0 k g).
Definition nonempty {A} (l : list A) : bool := negb (length l =? 0).
(* find_if, 276-283 *)
Definition same_cell (l : nat) (a b : pt) : bool := (ptx a / k ^ l =? ptx b / k ^ l) && (pty a / k ^ l =? pty b / k ^ l).
Fixpoint span {A} (f : A -> bool) (v : list A) : list A * list A :=
  match v with [] => ([], []) | e :: v' => if f e then let r := span f v' in (e :: fst r, snd r) else ([], v) end.
(* the loop over the groups of a level, 275-328; MM marks the removed points *)
Record lst := mklst { l_coord : list nat; l_vals : list nat; l_bits : list bool; l_v : list pt }.
Fixpoint level (fuel l : nat) (MM : pt) (cc : nat) (v : list pt) (s : lst) : option lst :=
  match v with
  | [] => Some s
  | e :: _ =>
    match fuel with
    | 0 => None
    | S f =>
      let gr := span (same_cell l e) v in
      let* mr := take_max (fst gr) in
      let '(mx, rest) := mr in
      if l =? 0 then level f l MM cc (snd gr) (mklst (l_coord s) (l_vals s ++ [ptw mx]) (l_bits s) (l_v s ++ rest ++ [MM]))
      else
        let* c1 := aset (l_coord s) (2 * cc) (ptx mx mod k ^ l) in
        let* c2 := aset c1 (2 * cc + 1) (pty mx mod k ^ l) in
        let cs := cells l rest in
        level f l MM (cc + 1) (snd gr) (mklst c2 (l_vals s ++ [ptw mx]) (l_bits s ++ map nonempty cs) (l_v s ++ concat cs ++ [MM]))
    end
  end.
(* the loop over the levels, 266-333; [l] counts down *)
Record bst := mkbst { b_lidx : list nat; b_coord : list (list nat); b_vals : list nat; b_bits : list bool; b_v : list pt; b_last : nat }.
Definition ones (b : list bool) : nat := length (filter (fun x => x) b).
Definition one_level (l : nat) (MM : pt) (s : bst) : option bst :=
  let* ini := (if l =? 0 then Some (b_lidx s, b_coord s, [])
               else let* a := nth_error (b_lidx s) l in
                    let* li := aset (b_lidx s) (l - 1) (a + b_last s) in
                    Some (li, b_coord s, repeat 0 (2 * b_last s))) in
  let '(li, co, c0) := ini in
  let* r := level (length (b_v s)) l MM 0 (b_v s) (mklst c0 [] [] []) in
  let* co := (if l =? 0 then Some co else aset co (l - 1) (l_coord r)) in
  Some (mkbst li co (b_vals s ++ l_vals r) (b_bits s ++ l_bits r) (filter (fun e => negb (pteqb e MM)) (l_v r)) (ones (l_bits r))).
Fixpoint all_levels (l : nat) (MM : pt) (s : bst) : option bst :=
  let* s := one_level l MM s in match l with 0 => Some s | S l' => all_levels l' MM s end.
(* the values become differences to the parent, 336-350: read and written through two buffers on the same file, the value
   read is not modified before it is read *)
Fixpoint diff_inner (c b r rw : nat) (bp : list bool) (vals : list nat) : option (nat * nat * list nat) :=
  match c with
  | 0 => Some (b, rw, vals)
  | S c' =>
    let* b := csub b 1 in
    let* x := nth_error bp b in
    if x then
      let* rw := csub rw 1 in
      let* p := nth_error vals r in
      let* q := nth_error vals rw in
      let* d := csub p q in
      let* vals := aset vals rw d in
      diff_inner c' b r rw bp vals
    else diff_inner c' b r rw bp vals
  end.
Fixpoint diff_loop (fuel b r rw : nat) (bp : list bool) (vals : list nat) : option (list nat) :=
  if b =? 0 then Some vals
  else
    match fuel with
    | 0 => None
    | S f =>
      let* r := csub r 1 in
      let* s := diff_inner (k * k) b r rw bp vals in
      let '(b, rw, vals) := s in
      diff_loop f b r rw bp vals
    end.
Record treap := mktreap { t_t : nat; t_bp : list bool; t_max : list nat; t_coord : list (list nat); t_lidx : list nat }.
(* construct, 236-367; the constructor (227-233) leaves an empty input default-constructed.  The coordinates are of an
   unsigned type of [wx] bits, the weights of [ww] bits: MM is t_e(M,M,M) *)
Definition k2_treap_make (wx ww : nat) (v : list pt) : option treap :=
  match v with
  | [] => Some (mktreap 0 [] [] [] [])
  | _ =>
    let* t := get_t v in
    let M := k ^ t in
    let MM : pt := (if (N.of_nat M <? 2 ^ N.of_nat wx)%N then M else N.to_nat (N.of_nat M mod 2 ^ N.of_nat wx),
                    if (N.of_nat M <? 2 ^ N.of_nat wx)%N then M else N.to_nat (N.of_nat M mod 2 ^ N.of_nat wx),
                    if (N.of_nat M <? 2 ^ N.of_nat ww)%N then M else N.to_nat (N.of_nat M mod 2 ^ N.of_nat ww)) in
    let* s := all_levels t MM (mkbst (repeat 0 (1 + t)) (repeat [] t) [] [] v 1) in
    let* r := nth_error (b_lidx s) 0 in
    let* vals := diff_loop (length (b_bits s)) (length (b_bits s)) r (length (b_vals s)) (b_bits s) (b_vals s) in
    Some (mktreap t (b_bits s) vals (b_coord s) (b_lidx s))
  end.

(** ** Nodes *)
Record node := mknode { n_t : nat; n_x : nat; n_y : nat; n_idx : nat; n_max : pt }. (* max_p and max_v together *)
(* size, 140-144 *)
Definition tsize (T : treap) : nat := length (t_max T).
(* root, 397-402 *)
Definition troot (T : treap) : option node :=
  let* l := csub (t_t T) 1 in
  let* v := nth_error (t_max T) 0 in
  let* c := nth_error (t_coord T) l in
  let* x := nth_error c 0 in
  let* y := nth_error c 1 in
  Some (mknode (t_t T) 0 0 0 (x, y, v)).
(* children, 408-443; the two nested loops over i, j run over it = k*i+j *)
Fixpoint kids_loop (T : treap) (v : node) (its : list nat) (rank : nat) : option (list node) :=
  match its with
  | [] => Some []
  | it :: its' =>
    let* b := nth_error (t_bp T) (n_idx v + it) in
    if b then
      let rank := rank + 1 in
      let* l1 := csub (n_t v) 1 in
      let x := n_x v + it / k * k ^ l1 in
      let y := n_y v + it mod k * k ^ l1 in
      let* d := nth_error (t_max T) rank in
      let* mv := csub (ptw (n_max v)) d in
      let* mp := (if 1 <? n_t v then
                    let* a := nth_error (t_lidx T) l1 in
                    let* c := csub rank a in
                    let* co := nth_error (t_coord T) (n_t v - 2) in
                    let* px := nth_error co (2 * c) in
                    let* py := nth_error co (2 * c + 1) in
                    Some (x + px, y + py)
                  else Some (x, y)) in
      let* r := kids_loop T v its' rank in
      Some (mknode l1 x y (rank * (k * k)) (mp, mv) :: r)
    else kids_loop T v its' rank
  end.
Definition tkids (T : treap) (v : node) : option (list node) :=
  if length (t_bp T) <=? n_idx v then Some []
  else let* r := WtBase.t_rank (t_bp T) (n_idx v) in kids_loop T v (seq 0 (k * k)) r.

(** ** Queries, k2_treap_algorithm.hpp; the rectangle is (x1,y1),(x2,y2) *)
Record rect := mkrect { q_x1 : nat; q_y1 : nat; q_x2 : nat; q_y2 : nat }.
(* contained(p, p1, p2), 49-54 *)
Definition p_in (q : rect) (p : pt) : bool := (q_x1 q <=? ptx p) && (ptx p <=? q_x2 q) && (q_y1 q <=? pty p) && (pty p <=? q_y2 q).
(* contained<k>(p1, p2, v), 57-66 *)
Definition n_in (q : rect) (v : node) : bool :=
  let d := k ^ n_t v - 1 in
  (q_x1 q <=? n_x v) && (n_x v + d <=? q_x2 q) && (q_y1 q <=? n_y v) && (n_y v + d <=? q_y2 q).
(* overlap, 69-77 *)
Definition n_over (q : rect) (v : node) : bool :=
  let d := k ^ n_t v - 1 in
  (q_x1 q <=? n_x v + d) && (n_x v <=? q_x2 q) && (q_y1 q <=? n_y v + d) && (n_y v <=? q_y2 q).
Fixpoint osum {A} (f : A -> option nat) (l : list A) : option nat :=
  match l with [] => Some 0 | a :: l' => let* x := f a in let* y := osum f l' in Some (x + y) end.
(* __count, 369-379 *)
Fixpoint count_all (fuel : nat) (T : treap) (v : node) : option nat :=
  match fuel with
  | 0 => None
  | S f => let* cs := tkids T v in let* s := osum (count_all f T) cs in Some (1 + s)
  end.
(* _count, 346-366 *)
Fixpoint count_in (fuel : nat) (T : treap) (q : rect) (v : node) : option nat :=
  match fuel with
  | 0 => None
  | S f =>
    if n_in q v then count_all (S f) T v
    else if n_over q v then
      let* cs := tkids T v in
      let* s := osum (count_in f T q) cs in
      Some ((if p_in q (n_max v) then 1 else 0) + s)
    else Some 0
  end.
(* count, 332-343 *)
Definition tcount (T : treap) (q : rect) : option nat :=
  if 0 <? tsize T then let* r := troot T in count_in (t_t T + 1) T q r else Some 0.

(* std::priority_queue<pair<node_type,bool>>: a list, top is an element that is not smaller than any other one *)
Definition pq_lt (a b : node * bool) : bool :=
  plt (n_max (fst a)) (n_max (fst b)) || (negb (plt (n_max (fst b)) (n_max (fst a))) && negb (snd a) && snd b).
Fixpoint pq_top (best : node * bool) (l : list (node * bool)) : (node * bool) * list (node * bool) :=
  match l with
  | [] => (best, [])
  | a :: l' => if pq_lt best a then let r := pq_top a l' in (fst r, best :: snd r) else let r := pq_top best l' in (fst r, a :: snd r)
  end.
(* range_iterator::operator++, 192-223, and (with rng = None) top_k_iterator::operator++, 110-138: the next point and the
   queue, or None when the queue runs empty *)
Definition lo_ok (rng : option (nat * nat)) (v : node) : bool := match rng with None => true | Some (a, _) => a <=? ptw (n_max v) end.
Definition hi_ok (rng : option (nat * nat)) (v : node) : bool := match rng with None => true | Some (_, b) => ptw (n_max v) <=? b end.
Fixpoint it_next (fuel : nat) (T : treap) (q : rect) (rng : option (nat * nat)) (pq : list (node * bool)) : option (option (pt * list (node * bool))) :=
  match pq with
  | [] => Some None
  | a :: pq' =>
    match fuel with
    | 0 => None
    | S f =>
      let '((v, c), pq) := pq_top a pq' in
      if c then
        let* cs := tkids T v in
        let pq := pq ++ map (fun c => (c, true)) (filter (lo_ok rng) cs) in
        if hi_ok rng v then Some (Some (n_max v, pq)) else it_next f T q rng pq
      else if n_in q v then it_next f T q rng (pq ++ [(v, true)])
      else if n_over q v then
        let* cs := tkids T v in
        let pq := pq ++ map (fun c => (c, false)) (filter (lo_ok rng) cs) in
        if p_in q (n_max v) && hi_ok rng v then Some (Some (n_max v, pq)) else it_next f T q rng pq
      else it_next f T q rng pq
    end
  end.
(* all points reported by an iterator, from its constructor (98-105, 178-187) until it becomes invalid *)
Fixpoint it_all (fuel : nat) (T : treap) (q : rect) (rng : option (nat * nat)) (pq : list (node * bool)) : option (list pt) :=
  match fuel with
  | 0 => None
  | S f =>
    let* r := it_next (S (2 * tsize T)) T q rng pq in
    match r with
    | None => Some []
    | Some (p, pq) => let* l := it_all f T q rng pq in Some (p :: l)
    end
  end.
Definition it_start (T : treap) (q : rect) (rng : option (nat * nat)) : option (list pt) :=
  if 0 <? tsize T then
    let* r := troot T in
    it_all (S (tsize T)) T q rng (if lo_ok rng r then [(r, false)] else [])
  else Some [].
Definition top_k (T : treap) (q : rect) : option (list pt) := it_start T q None.
Definition range_3d (T : treap) (q : rect) (w1 w2 : nat) : option (list pt) := it_start T q (Some (w1, w2)).
End Treap.
