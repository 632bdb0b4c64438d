(** * k2_tree<k> (include/sdsl/k2_tree.hpp, k2_tree_helper.hpp)

    k_t and k_l are lists of bits (t_bv is a bit vector with its rank support: C12); indices are [nat].  The quotients
    that the code computes in double precision, floor(i/(double)n), and std::pow are exact integer operations here (they
    are for values below 2^53).  The height, ceil(log(size)/log(k)) in the code, is an argument: the theorems ask for
    size <= k^height.  Every access outside a vector is undefined behaviour ([None]). *)
From Coq Require Import List Arith Bool NArith.
From Verif Require Import Base AbsVec WtBase SpecK2.
Import ListNotations.

Record k2 := mkk2 { kt : list bool; kl : list bool; kk : nat; kh : nat }.

(** ** Construction from a matrix *)
(* acc[l].push_back(b): the blocks of a level are kept concatenated *)
Definition acc_push (acc : list (list bool)) (l : nat) (b : list bool) : option (list (list bool)) :=
  let* x := nth_error acc l in aset acc l (x ++ b).
(* the leaf test, k2_tree_helper.hpp:49-55 *)
Definition leaf_bit (M : list (list nat)) (x y : nat) : option bool :=
  if (x <? length M) && (y <? length M) then
    let* row := nth_error M x in let* v := nth_error row y in Some (v =? 1)
  else Some false.
(* the bits of one block in order, for a function that may also change acc *)
Fixpoint blk {S : Type} (f : nat -> S -> option (bool * S)) (its : list nat) (s : S) : option (list bool * S) :=
  match its with
  | [] => Some ([], s)
  | it :: its' => let* r := f it s in let* q := blk f its' (snd r) in Some (fst r :: fst q, snd q)
  end.
(* _build_from_matrix, k2_tree_helper.hpp:38-72; [d] = height - l *)
Fixpoint bfm (d : nat) (M : list (list nat)) (k n l p q : nat) (acc : list (list bool)) : option (bool * list (list bool)) :=
  let* r := (match d with
             | 0 => blk (fun it acc => let* b := leaf_bit M (p + it / k) (q + it mod k) in Some (b, acc)) (seq 0 (k * k)) acc
             | S d' => blk (fun it acc => bfm d' M k (n / k) (l + 1) (p + it / k * (n / k)) (q + it mod k * (n / k)) acc) (seq 0 (k * k)) acc
             end) in
  let '(b, acc) := r in
  if existsb (fun x => x) b then let* acc := acc_push acc l b in Some (true, acc) else Some (false, acc).
(* k2_tree(matrix), k2_tree.hpp:276-292 and build_from_matrix, 66-104: [None] for the thrown logic_error of an empty
   matrix; int simulated_size must not overflow *)
Definition k2_from_matrix (k h : nat) (M : list (list nat)) : option k2 :=
  if length M <? 1 then None
  else if (2 ^ 31 <=? N.of_nat k ^ N.of_nat h)%N then None
  else
    let* d := csub h 1 in
    let* r := bfm d M k (k ^ h) 1 0 0 (repeat [] (h + 1)) in
    let acc := snd r in
    let* l := nth_error acc h in
    Some (mkk2 (concat (firstn (h - 1) (skipn 1 acc))) l k h).

(** ** Construction from edges *)
(* get_chunk_idx, k2_tree_helper.hpp:86-90 *)
Definition chunk_idx (v u c0 r0 l k : nat) : option nat :=
  if l =? 0 then None else let* a := csub v r0 in let* b := csub u c0 in Some (a / l * k + b / l).
Definition ent := (nat * nat * nat * nat * nat)%type. (* i, j, l, r_0, c_0 *)
Section Edges.
Variables k : nat.
(* the sizes of the chunks, 191-194 *)
Fixpoint amounts (E : list (nat * nat)) (its : list nat) (l r0 c0 : nat) (a : list nat) : option (list nat) :=
  match its with
  | [] => Some a
  | it :: its' =>
    let* e := nth_error E it in
    let* c := chunk_idx (fst e) (snd e) c0 r0 l k in
    let* x := nth_error a c in
    let* a := aset a c (x + 1) in
    amounts E its' l r0 c0 a
  end.
(* the starting positions of the chunks 0 .. k_2-1, 213-216 *)
Fixpoint starts (a : list nat) (i : nat) : list nat := match a with [] => [] | x :: a' => i :: starts a' (i + x) end.
(* the bits of one node, 219-232 (and 204-206 in the last level, without the queue) *)
Fixpoint put_bits (a : list nat) (t : nat) (bv : list bool) : option (list bool * nat) :=
  match a with
  | [] => Some (bv, t)
  | x :: a' => let* bv := (if negb (x =? 0) then aset bv t true else Some bv) in put_bits a' (t + 1) bv
  end.
Fixpoint pushes (a st : list nat) (its : list nat) (j l r0 c0 : nat) : option (list ent) :=
  match its with
  | [] => Some []
  | it :: its' =>
    let* x := nth_error a it in
    let* r := pushes a st its' j l r0 c0 in
    if negb (x =? 0) then
      let* b := nth_error st it in
      let* e := nth_error (st ++ [j]) (it + 1) in
      Some ((b, e, l / k, r0 + it / k * l, c0 + it mod k * l) :: r)
    else Some r
  end.
(* the inner loop of the sort, 238-250 *)
Fixpoint sort_loop (fuel : nat) (l r0 c0 lim it : nat) (pos : list nat) (E : list (nat * nat)) : option (list nat * list (nat * nat)) :=
  match fuel with
  | 0 => None
  | S fuel' =>
    if it <? lim then
      let* e := nth_error E it in
      let* c := chunk_idx (fst e) (snd e) c0 r0 l k in
      let* p := nth_error pos c in
      let* pos := aset pos c (p + 1) in
      if negb (p =? it) then
        let* f := nth_error E p in
        let* E := aset E it f in
        let* E := aset E p e in
        sort_loop fuel' l r0 c0 lim it pos E
      else sort_loop fuel' l r0 c0 lim (it + 1) pos E
    else Some (pos, E)
  end.
(* the loop over the chunks, 236-251 *)
Fixpoint sort_chunks (chs : list nat) (a : list nat) (i l r0 c0 : nat) (pos : list nat) (E : list (nat * nat)) : option (list (nat * nat)) :=
  match chs with
  | [] => Some E
  | ch :: chs' =>
    let* be := (if ch =? 0 then Some i else nth_error pos (ch - 1)) in
    let* x := nth_error a ch in
    let* it := nth_error pos ch in
    let* r := sort_loop (S (length E)) l r0 c0 (be + x) it pos E in
    sort_chunks chs' a i l r0 c0 (fst r) (snd r)
  end.
Record est := mkest { s_E : list (nat * nat); s_t : nat; s_last : bool; s_kt : list bool; s_kl : list bool }.
(* bit_vector::resize(n): the kept prefix, then zeros *)
Definition bresize (bv : list bool) (n : nat) : list bool := firstn n bv ++ repeat false (n - length bv).
(* the while loop, 186-252 *)
Fixpoint bfs (fuel : nat) (q : list ent) (s : est) : option est :=
  match q with
  | [] => Some s
  | (i, j, l, r0, c0) :: q' =>
    match fuel with
    | 0 => None
    | S fuel' =>
      let* a := amounts (s_E s) (seq i (j - i)) l r0 c0 (repeat 0 (k * k)) in
      if l =? 1 then
        let s := if s_last s then s
                 else mkest (s_E s) 0 true (bresize (s_kt s) (s_t s)) (repeat false (length (s_kt s) - s_t s)) in
        let* r := put_bits a (s_t s) (s_kl s) in
        bfs fuel' q' (mkest (s_E s) (snd r) (s_last s) (s_kt s) (fst r))
      else
        let st := starts a i in
        let* r := put_bits a (s_t s) (s_kt s) in
        let* ch := pushes a st (seq 0 (k * k)) j l r0 c0 in
        let* E := sort_chunks (seq 0 (k * k)) a i l r0 c0 st (s_E s) in
        bfs fuel' (q' ++ ch) (mkest E (snd r) (s_last s) (fst r) (s_kl s))
    end
  end.
(* build_from_edges, 159-258 *)
Definition k2_from_edges (h : nat) (E : list (nat * nat)) : option k2 :=
  let* h1 := csub h 1 in
  let* s := bfs (S (length E * h)) [(0, length E, k ^ h1, 0, 0)] (mkest E 0 false (repeat false (k * k * h * length E)) []) in
  Some (mkk2 (s_kt s) (bresize (s_kl s) (s_t s)) k h).
End Edges.

(** ** Queries *)
Definition kt_rank (t : k2) (i : nat) : option nat := t_rank (kt t) i.
Definition divc (a b : nat) : option nat := if b =? 0 then None else Some (a / b).
(* adj, k2_tree.hpp:443-471; [fuel] bounds the loop *)
Fixpoint adj_loop (fuel : nat) (t : k2) (n i j level : nat) : option bool :=
  if level <? length (kt t) then
    match fuel with
    | 0 => None
    | S f =>
      let* b := t_get (kt t) level in
      if negb b then Some false
      else
        let* row := divc i n in
        let* col := divc j n in
        let* r := kt_rank t (level + 1) in
        adj_loop f t (n / kk t) (i mod n) (j mod n) (r * (kk t * kk t) + kk t * row + col)
    end
  else t_get (kl t) (level - length (kt t)).
Definition k2_adj (t : k2) (i j : nat) : option bool :=
  if (length (kt t) =? 0) && (length (kl t) =? 0) then Some false
  else
    let* h1 := csub (kh t) 1 in
    let n := kk t ^ h1 in
    let* row := divc i n in
    let* col := divc j n in
    adj_loop (kh t) t (n / kk t) (i mod n) (j mod n) (kk t * row + col).

(* _neigh, 117-135 *)
Fixpoint cat_opt {A} (f : nat -> option (list A)) (js : list nat) : option (list A) :=
  match js with [] => Some [] | j :: js' => let* a := f j in let* b := cat_opt f js' in Some (a ++ b) end.
Fixpoint neigh_rec (fuel : nat) (t : k2) (n row col level : nat) : option (list nat) :=
  if length (kt t) <=? level then
    let* b := t_get (kl t) (level - length (kt t)) in Some (if b then [col] else [])
  else
    match fuel with
    | 0 => None
    | S f =>
      let* b := t_get (kt t) level in
      if b then
        let* r := kt_rank t (level + 1) in
        let* x := divc row n in
        let y := r * (kk t * kk t) + kk t * x in
        cat_opt (fun j => neigh_rec f t (n / kk t) (row mod n) (col + n * j) (y + j)) (seq 0 (kk t))
      else Some []
    end.
(* neigh, 478-495 *)
Definition k2_neigh (t : k2) (i : nat) : option (list nat) :=
  if (length (kl t) =? 0) && (length (kt t) =? 0) then Some []
  else
    let n := kk t ^ kh t / kk t in
    let* x := divc i n in
    cat_opt (fun j => neigh_rec (kh t) t (n / kk t) (i mod n) (n * j) (kk t * x + j)) (seq 0 (kk t)).
(* _reverse_neigh, 148-167; reverse_neigh, 502-516 *)
Fixpoint rneigh_rec (fuel : nat) (t : k2) (n row col level : nat) : option (list nat) :=
  if length (kt t) <=? level then
    let* b := t_get (kl t) (level - length (kt t)) in Some (if b then [row] else [])
  else
    match fuel with
    | 0 => None
    | S f =>
      let* b := t_get (kt t) level in
      if b then
        let* r := kt_rank t (level + 1) in
        let* x := divc col n in
        let y := r * (kk t * kk t) + x in
        cat_opt (fun j => rneigh_rec f t (n / kk t) (row + n * j) (col mod n) (y + j * kk t)) (seq 0 (kk t))
      else Some []
    end.
Definition k2_reverse_neigh (t : k2) (i : nat) : option (list nat) :=
  if (length (kl t) =? 0) && (length (kt t) =? 0) then Some []
  else
    let n := kk t ^ kh t / kk t in
    let* x := divc i n in
    cat_opt (fun j => rneigh_rec (kh t) t (n / kk t) (n * j) (i mod n) (x + j * kk t)) (seq 0 (kk t)).

(* range, 518-569.  A state is (n, row1, row2, col1, col2, dr, dc, z); z = None is numeric_limits::max(), for which
   k_t_rank(z+1) is k_t_rank(0).  The vector of states is a list with the last state in front. *)
Record rst := mkrst { r_n : nat; r_r1 : nat; r_r2 : nat; r_c1 : nat; r_c2 : nat; r_dr : nat; r_dc : nat; r_z : option nat }.
Definition rng_push (k y : nat) (s : rst) (i1 i2 j1 j2 : nat) : list rst :=
  flat_map (fun i => map (fun j =>
    mkrst (r_n s / k) (if i =? i1 then r_r1 s mod r_n s else 0) (if i =? i2 then r_r2 s mod r_n s else r_n s - 1)
          (if j =? j1 then r_c1 s mod r_n s else 0) (if j =? j2 then r_c2 s mod r_n s else r_n s - 1)
          (r_dr s + r_n s * i) (r_dc s + r_n s * j) (Some (y + k * i + j))) (seq j1 (j2 + 1 - j1))) (seq i1 (i2 + 1 - i1)).
Fixpoint rng_loop (fuel : nat) (t : k2) (st : list rst) (res : list (nat * nat)) : option (list (nat * nat)) :=
  match st with
  | [] => Some res
  | s :: st' =>
    match fuel with
    | 0 => None
    | S f =>
      let inner := fun y =>
        let* i1 := divc (r_r1 s) (r_n s) in let* i2 := divc (r_r2 s) (r_n s) in
        let* j1 := divc (r_c1 s) (r_n s) in let* j2 := divc (r_c2 s) (r_n s) in
        rng_loop f t (rev (rng_push (kk t) y s i1 i2 j1 j2) ++ st') res in
      match r_z s with
      | None => inner 0
      | Some z =>
        if length (kt t) <=? z then
          let* b := t_get (kl t) (z - length (kt t)) in
          rng_loop f t st' (if b then res ++ [(r_dr s, r_dc s)] else res)
        else
          let* b := t_get (kt t) z in
          if b then let* r := kt_rank t (z + 1) in inner (r * (kk t * kk t)) else rng_loop f t st' res
      end
    end
  end.
(* the number of states is at most this *)
Fixpoint rng_fuel (k h : nat) : nat := match h with 0 => 1 | S h' => 1 + k * k * rng_fuel k h' end.
Definition k2_range (t : k2) (row1 row2 col1 col2 : nat) : option (list (nat * nat)) :=
  let n := kk t ^ kh t / kk t in
  rng_loop (rng_fuel (kk t) (kh t)) t [mkrst n row1 row2 col1 col2 0 0 None] [].
