(** * wt_pc: wavelet trees shaped by a prefix code (include/sdsl/wt_pc.hpp, wt_helper.hpp, wt_huff.hpp, wt_blcd.hpp)

    Symbols of the text are [N]; positions, frequencies and node numbers are [nat]; the packed paths are 64-bit words.
    pc_node::undef / t_tree_strat::undef is [None].  An index that is out of range (or undef) is undefined behaviour
    ([None]).  The tree bit vector is the list of its bits with the rank and select answers of WtBase.v. *)
From Coq Require Import NArith List Arith Bool Lia.
From Verif Require Import Base SpecBits AbsVec WtBase.
Import ListNotations.

(* pc_node, wt_helper.hpp:59-71 *)
Record pcn := mkpcn { p_freq : nat; p_sym : nat; p_par : option nat; p_c0 : option nat; p_c1 : option nat }.
(* _node, wt_helper.hpp:73-90: bv_pos, bv_pos_rank, parent, child[0], child[1] *)
Record node := mknd { d_pos : nat; d_rank : nat; d_par : option nat; d_c0 : option nat; d_c1 : option nat }.
(* _node::operator=(const pc_node&), 103-110 *)
Definition of_pc (v : pcn) : node := mknd (p_freq v) (p_sym v) (p_par v) (p_c0 v) (p_c1 v).

(** ** Counting: calculate_character_occurences 37-50, calculate_effective_alphabet_size 53-59 *)
Fixpoint occ_loop (C : list nat) (t : list N) : option (list nat) :=
  match t with
  | [] => Some C
  | c :: t' =>
    let c := N.to_nat c in
    let C := if length C <=? c then C ++ repeat 0 (c + 1 - length C) else C in
    let* x := nth_error C c in
    let* C := aset C c (x + 1) in
    occ_loop C t'
  end.
Definition eff_sigma (C : list nat) : nat := length (filter (fun x => 0 <? x) C).

(** ** Huffman shape (wt_huff.hpp:85-124) *)
(* std::priority_queue with std::greater on (frequency, node): the sorted list, top first *)
Definition pair_le (a b : nat * nat) : bool := (fst a <? fst b) || ((fst a =? fst b) && (snd a <=? snd b)).
Fixpoint pq_push (a : nat * nat) (q : list (nat * nat)) : list (nat * nat) :=
  match q with [] => [a] | b :: q' => if pair_le a b then a :: q else b :: pq_push a q' end.
(* the leaves, 99-109; [i] is the current symbol *)
Fixpoint huff_leaves (C : list nat) (i : nat) (pq : list (nat * nat)) (tn : list pcn) : list (nat * nat) * list pcn :=
  match C with
  | [] => (pq, tn)
  | f :: C' =>
    if 0 <? f then huff_leaves C' (S i) (pq_push (f, length tn) pq) (tn ++ [mkpcn f i None None None])
    else huff_leaves C' (S i) pq tn
  end.
Definition set_par (tn : list pcn) (i p : nat) : option (list pcn) :=
  let* v := nth_error tn i in aset tn i (mkpcn (p_freq v) (p_sym v) (Some p) (p_c0 v) (p_c1 v)).
(* the merge loop, 110-121 *)
Fixpoint huff_loop (fuel : nat) (pq : list (nat * nat)) (tn : list pcn) : option (list pcn) :=
  match fuel with
  | 0 => None
  | S fuel' =>
    match pq with
    | v1 :: v2 :: pq' =>
      let m := length tn in
      let* tn := set_par tn (snd v1) m in
      let* tn := set_par tn (snd v2) m in
      let frq := fst v1 + fst v2 in
      huff_loop fuel' (pq_push (frq, m) pq') (tn ++ [mkpcn frq 0 None (Some (snd v1)) (Some (snd v2))])
    | _ => Some tn
    end
  end.
Definition huff_tree (C : list nat) : option (list pcn) :=
  let '(pq, tn) := huff_leaves C 0 [] [] in huff_loop (S (length pq)) pq tn.

(** ** Balanced shape (wt_blcd.hpp:73-127) *)
Fixpoint symbols_of (C : list nat) (c : nat) : list nat :=
  match C with [] => [] | f :: C' => if 0 <? f then c :: symbols_of C' (S c) else symbols_of C' (S c) end.
(* _construct_tree, 100-124: returns frequency, node and the vector *)
Fixpoint bal_rec (fuel : nat) (parent : option nat) (sy : list nat) (lb sigma : nat) (C : list nat) (tn : list pcn) : option (nat * nat * list pcn) :=
  match fuel with
  | 0 => None
  | S fuel' =>
    if sigma =? 1 then
      let* s := nth_error sy lb in
      let* f := nth_error C s in
      Some (f, length tn, tn ++ [mkpcn f s parent None None])
    else
      let id := length tn in
      let tn := tn ++ [mkpcn 0 0 parent None None] in
      let ls := (sigma + 1) / 2 in
      let* a := bal_rec fuel' (Some id) sy lb ls C tn in
      let '(f0, n0, tn) := a in
      let* rs := csub sigma ls in
      let* b := bal_rec fuel' (Some id) sy (lb + ls) rs C tn in
      let '(f1, n1, tn) := b in
      let* v := nth_error tn id in
      let* tn := aset tn id (mkpcn (f0 + f1) (p_sym v) (p_par v) (Some n0) (Some n1)) in
      Some (f0 + f1, id, tn)
  end.
Definition dec1 (o : option nat) : option nat := match o with Some x => Some (x - 1) | None => None end.
(* construct_tree, 83-97: the root goes to the end, the other nodes one place to the front; the loop reads element i and
   writes element i-1, so it is the map over the tail.  An undef parent would not survive the modulo: [None] *)
Fixpoint rot_rest (m : nat) (l : list pcn) : option (list pcn) :=
  match l with
  | [] => Some []
  | v :: l' =>
    let* p := p_par v in
    let* r := rot_rest m l' in
    Some (mkpcn (p_freq v) (p_sym v) (Some ((p + m - 1) mod m)) (dec1 (p_c0 v)) (dec1 (p_c1 v)) :: r)
  end.
Definition bal_tree (C : list nat) : option (list pcn) :=
  let sy := symbols_of C 0 in
  let sigma := length sy in
  if 0 <? sigma then
    let* a := bal_rec (S sigma) None sy 0 sigma C [] in
    let tn := snd a in
    match tn with
    | [] => None
    | root :: rest =>
      let* r := rot_rest (length tn) rest in
      Some (r ++ [mkpcn (p_freq root) (p_sym root) (p_par root) (dec1 (p_c0 root)) (dec1 (p_c1 root))])
    end
  else Some [].

(** ** The tree strategies: _byte_tree 155-228, _int_tree 401-474 of wt_helper.hpp *)
Definition upd_nd (ns : list node) (i : nat) (f : node -> node) : option (list node) := let* v := nth_error ns i in aset ns i (f v).
Definition w_pos (x : nat) (v : node) : node := mknd x (d_rank v) (d_par v) (d_c0 v) (d_c1 v).
Definition w_rnk (x : nat) (v : node) : node := mknd (d_pos v) x (d_par v) (d_c0 v) (d_c1 v).
Definition w_par (x : option nat) (v : node) : node := mknd (d_pos v) (d_rank v) x (d_c0 v) (d_c1 v).
Definition w_c0 (x : option nat) (v : node) : node := mknd (d_pos v) (d_rank v) (d_par v) x (d_c1 v).
Definition w_c1 (x : option nat) (v : node) : node := mknd (d_pos v) (d_rank v) (d_par v) (d_c0 v) x.
Definition onat_eqb (a b : option nat) : bool :=
  match a, b with Some x, Some y => x =? y | None, None => true | _, _ => false end.
Definition is_some {A} (o : option A) : bool := match o with Some _ => true | None => false end.

(* one of the two rounds of 194-199: child k of [idx] is copied to slot [cnt] *)
Definition add_child (tn : list pcn) (k : bool) (idx cnt : nat) (ns : list node) : option (list node) :=
  let* v := nth_error ns idx in
  let* c := (if k then d_c1 v else d_c0 v) in
  let* t := nth_error tn c in
  let* ns := aset ns cnt (of_pc t) in
  let* ns := upd_nd ns cnt (w_par (Some idx)) in
  upd_nd ns idx (if k then w_c1 (Some cnt) else w_c0 (Some cnt)).
(* the loop over the queue, 165-201 *)
Record lst := mkls { l_ns : list node; l_bv : nat; l_cnt : nat; l_last : option nat }.
(* the body for the popped node; the result also lists the nodes to push *)
Definition lay_body (tn : list pcn) (idx : nat) (s : lst) : option (lst * list nat) :=
  let* v := nth_error (l_ns s) idx in
  let frq := d_pos v in
  let* ns := upd_nd (l_ns s) idx (w_pos (l_bv s)) in
  let bv := if is_some (d_c0 v) then l_bv s + frq else l_bv s in
  let* r := (if 0 <? idx then
               let* p := d_par v in
               let* ns := upd_nd ns p (if negb (onat_eqb (l_last s) (Some p)) then w_c0 (Some idx) else w_c1 (Some idx)) in
               Some (ns, Some p)
             else Some (ns, l_last s)) in
  let '(ns, last) := r in
  let* v := nth_error ns idx in
  if is_some (d_c0 v) then
    let c := l_cnt s in
    let* ns := add_child tn false idx c ns in
    let* ns := add_child tn true idx (c + 1) ns in
    Some (mkls ns bv (c + 2) last, [c; c + 1])
  else Some (mkls ns bv (l_cnt s) last, []).
Fixpoint lay_loop (fuel : nat) (dfs : bool) (tn : list pcn) (q : list nat) (s : lst) : option lst :=
  match q with
  | [] => Some s
  | h :: t =>
    match fuel with
    | 0 => None
    | S fuel' =>
      let idx := if dfs then last q 0 else h in
      let q' := if dfs then removelast q else t in
      let* r := lay_body tn idx s in
      lay_loop fuel' dfs tn (q' ++ snd r) (fst r)
    end
  end.
(* m_nodes and bv_size *)
Definition lay_out (dfs : bool) (tn : list pcn) : option (list node * nat) :=
  match tn with
  | [] => None
  | t0 :: _ =>
    let root := last tn t0 in
    let* ns := aset (repeat (mknd 0 0 None None None) (length tn)) 0 (of_pc root) in
    let* s := lay_loop (S (length tn)) dfs tn [0] (mkls ns 0 1 None) in
    Some (l_ns s, l_bv s)
  end.

(* m_c_to_leaf[sym] = v for the leaves, 206-209 / 453-460; the byte tree truncates the symbol to uint8_t *)
Fixpoint leaf_loop (byte : bool) (ns : list node) (v : nat) (cl : list (option nat)) : option (list (option nat)) :=
  match ns with
  | [] => Some cl
  | d :: ns' =>
    if is_some (d_c0 d) then leaf_loop byte ns' (S v) cl
    else let* cl := aset cl (if byte then d_rank d mod 256 else d_rank d) (Some v) in leaf_loop byte ns' (S v) cl
  end.
(* max_c of _int_tree: over the leaves, 425-427 *)
Fixpoint max_sym (ns : list node) : nat :=
  match ns with [] => 0 | d :: ns' => if is_some (d_c0 d) then max_sym ns' else Nat.max (d_rank d) (max_sym ns') end.
Definition c_to_leaf_of (byte : bool) (ns : list node) : option (list (option nat)) :=
  leaf_loop byte ns 0 (repeat None (if byte then 256 else max_sym ns + 1)).

(* going up from a leaf, 218-226: path word and length *)
Fixpoint up_loop (fuel : nat) (ns : list node) (v : nat) (pw : N) (pl : nat) : option (N * nat) :=
  match fuel with
  | 0 => None
  | S fuel' =>
    if v =? 0 then Some (pw, pl)
    else
      let* d := nth_error ns v in
      let* p := d_par d in
      let* dp := nth_error ns p in
      let pw := shl pw 1 in
      let pw := if onat_eqb (d_c1 dp) (Some v) then N.lor pw 1 else pw in
      up_loop fuel' ns p pw (pl + 1)
  end.
(* the constructor throws for codes longer than 56 bits *)
Inductive res (A : Type) : Type := Throw | Ok (x : A).
Arguments Throw {A}. Arguments Ok {A} x.
(* m_path, 215-236 / 468-489: all symbols in order *)
Fixpoint path_loop (ns : list node) (cl : list (option nat)) (c prev : nat) : option (res (list N)) :=
  match cl with
  | [] => Some (Ok [])
  | Some v :: cl' =>
    let* w := up_loop (S (length ns)) ns v 0%N 0 in
    if 56 <? snd w then Some Throw
    else
      let* r := path_loop ns cl' (S c) c in
      Some (match r with Throw => Throw | Ok l => Ok (N.lor (fst w) (shl (N.of_nat (snd w)) 56) :: l) end)
  | None :: cl' =>
    let* r := path_loop ns cl' (S c) prev in
    Some (match r with Throw => Throw | Ok l => Ok (N.of_nat prev :: l) end)
  end.

(** ** wt_pc *)
Record wtpc := mkwp { w_byte : bool; w_n : nat; w_sigma : nat; w_bv : list bool; w_ns : list node; w_cl : list (option nat); w_path : list N }.

(* m_tree.bit_path(c): wt_helper.hpp:327-329 (byte), 579-584 (int) *)
Definition bit_path (byte : bool) (path : list N) (c : N) : option N :=
  if negb byte && (length path <=? N.to_nat c) then Some (wsub (N.of_nat (length path)) 1) else nth_error path (N.to_nat c).
(* m_tree.c_to_leaf(c): 293-295 (byte), 547-552 (int); the inner option is undef *)
Definition c_to_leaf (byte : bool) (cl : list (option nat)) (c : N) : option (option nat) :=
  if negb byte && (length cl <=? N.to_nat c) then Some None else nth_error cl (N.to_nat c).
Definition child (ns : list node) (v : nat) (b : bool) : option nat := let* d := nth_error ns v in if b then d_c1 d else d_c0 d.

(* bv.set_int(pos, 0xFF..FF, times) on the bit vector: C04 *)
Definition set_ones (bv : list bool) (p times : nat) : option (list bool) :=
  if (p + times <=? length bv) && (times <=? 64) then Some (firstn p bv ++ repeat true times ++ skipn (p + times) bv) else None.
(* insert_char, wt_pc.hpp:110-124; [k] steps of the path left *)
Fixpoint ins_loop (ns : list node) (k : nat) (p : N) (v times : nat) (pos : list nat) (bv : list bool) : option (list nat * list bool) :=
  match k with
  | 0 => Some (pos, bv)
  | S k' =>
    let* x := nth_error pos v in
    let* bv := (if N.odd p then set_ones bv x times else Some bv) in
    let* pos := aset pos v (x + times) in
    let* v' := child ns v (N.odd p) in
    ins_loop ns k' (shr p 1) v' times pos bv
  end.
Definition insert_char (byte : bool) (ns : list node) (path : list N) (c : N) (times : nat) (pos : list nat) (bv : list bool) : option (list nat * list bool) :=
  let* p := bit_path byte path c in ins_loop ns (N.to_nat (shr p 56)) p 0 times pos bv.
(* the loop over the text, wt_pc.hpp:229-250 *)
Fixpoint text_loop (byte : bool) (ns : list node) (path : list N) (t : list N) (old : N) (times : nat) (pos : list nat) (bv : list bool) : option (list bool) :=
  match t with
  | [] => if 0 <? times then let* r := insert_char byte ns path old times pos bv in Some (snd r) else Some bv
  | c :: t' =>
    if negb (N.eqb c old) then
      let* r := insert_char byte ns path old times pos bv in text_loop byte ns path t' c 1 (fst r) (snd r)
    else if times + 1 =? 64 then
      let* r := insert_char byte ns path old (times + 1) pos bv in text_loop byte ns path t' old 0 (fst r) (snd r)
    else text_loop byte ns path t' old (times + 1) pos bv
  end.
(* init_node_ranks, wt_helper.hpp:239-245 *)
Fixpoint init_ranks (bv : list bool) (ns : list node) : option (list node) :=
  match ns with
  | [] => Some []
  | d :: ns' =>
    let* d' := (if is_some (d_c0 d) then let* r := t_rank bv (d_pos d) in Some (w_rnk r d) else Some d) in
    let* r := init_ranks bv ns' in Some (d' :: r)
  end.

Inductive shape := Huff | Balanced.
Definition construct_shape (sh : shape) (C : list nat) : option (list pcn) := match sh with Huff => huff_tree C | Balanced => bal_tree C end.
(* wt_pc::wt_pc(input_buf, size), wt_pc.hpp:194-258, for a non-empty sequence *)
Definition wp_make (sh : shape) (byte dfs : bool) (t : list N) : option (res wtpc) :=
  match t with
  | [] => None
  | c0 :: _ =>
    let* C := occ_loop [] t in
    let sigma := eff_sigma C in
    let* tn := construct_shape sh C in
    let* l := lay_out dfs tn in
    let '(ns, size) := l in
    let* cl := c_to_leaf_of byte ns in
    let* pr := path_loop ns cl 0 0 in
    match pr with
    | Throw => Some Throw
    | Ok path =>
      let* bv := text_loop byte ns path t c0 0 (map d_pos ns) (repeat false size) in
      let* ns := init_ranks bv ns in
      Some (Ok (mkwp byte (length t) sigma bv ns cl path))
    end
  end.

(* m_bv_rank(bv_pos(v) + i) - bv_pos_rank(v) *)
Definition rnk1 (w : wtpc) (v i : nat) : option nat :=
  let* d := nth_error (w_ns w) v in
  let* r := t_rank (w_bv w) (d_pos d + i) in csub r (d_rank d).
Definition is_leaf (w : wtpc) (v : nat) : option bool := let* d := nth_error (w_ns w) v in Some (negb (is_some (d_c0 d))).
Definition leaf_sym (w : wtpc) (v : nat) : option N := let* d := nth_error (w_ns w) v in Some (N.of_nat (d_rank d)).

(* inverse_select, wt_pc.hpp:395-413; operator[] (328-347) is the same walk *)
Fixpoint isel_loop (fuel : nat) (w : wtpc) (v i : nat) : option (nat * N) :=
  match fuel with
  | 0 => None
  | S f =>
    let* d := nth_error (w_ns w) v in
    if negb (is_some (d_c0 d)) then Some (i, N.of_nat (d_rank d))
    else
      let* b := t_get (w_bv w) (d_pos d + i) in
      let* r := rnk1 w v i in
      if b then let* v' := child (w_ns w) v true in isel_loop f w v' r
      else let* i' := csub i r in let* v' := child (w_ns w) v false in isel_loop f w v' i'
  end.
Definition wp_inverse_select (w : wtpc) (i : nat) : option (nat * N) := isel_loop (S (length (w_ns w))) w 0 i.
Definition wp_access (w : wtpc) (i : nat) : option N := let* r := wp_inverse_select w i in Some (snd r).

(* rank, wt_pc.hpp:361-384 *)
Fixpoint rank_loop (k : nat) (w : wtpc) (p : N) (v r : nat) : option nat :=
  match k with
  | 0 => Some r
  | S k' =>
    if r =? 0 then Some r
    else
      let* x := rnk1 w v r in
      let* r' := (if N.odd p then Some x else csub r x) in
      let* v' := child (w_ns w) v (N.odd p) in
      rank_loop k' w (shr p 1) v' r'
  end.
Definition wp_rank (w : wtpc) (i : nat) (c : N) : option nat :=
  let* l := c_to_leaf (w_byte w) (w_cl w) c in
  if negb (is_some l) then Some 0
  else if w_sigma w =? 1 then Some i
  else let* p := bit_path (w_byte w) (w_path w) c in rank_loop (N.to_nat (shr p 56)) w p 0 i.

(* select, wt_pc.hpp:427-456; [p] is shifted so that the next bit is bit 63 *)
Fixpoint sel_loop (k : nat) (w : wtpc) (p : N) (v r : nat) : option nat :=
  match k with
  | 0 => Some r
  | S k' =>
    let* d := nth_error (w_ns w) v in
    let* v' := d_par d in
    let* d' := nth_error (w_ns w) v' in
    let* r' := (if negb (tb p 63)
                then let* o := csub (d_pos d') (d_rank d') in let* q := t_sel0 (w_bv w) (o + r + 1) in csub q (d_pos d')
                else let* q := t_sel1 (w_bv w) (d_rank d' + r + 1) in csub q (d_pos d')) in
    sel_loop k' w (shl p 1) v' r'
  end.
Definition wp_select (w : wtpc) (i : nat) (c : N) : option nat :=
  let* l := c_to_leaf (w_byte w) (w_cl w) c in
  match l with
  | None => Some (w_n w)
  | Some v =>
    let* r := csub i 1 in
    if w_sigma w =? 1 then Some (Nat.min r (w_n w))
    else
      let* p := bit_path (w_byte w) (w_path w) c in
      let k := N.to_nat (shr p 56) in
      if k =? 0 then None (* shift by 64 *)
      else sel_loop k w (shl p (64 - k)) v r
  end.

(* _interval_symbols, wt_pc.hpp:147-183: the entries written to cs, rank_c_i, rank_c_j, in order *)
Fixpoint is_loop (fuel : nat) (w : wtpc) (i j v : nat) : option (list (N * nat * nat)) :=
  match fuel with
  | 0 => None
  | S f =>
    let* i1 := rnk1 w v i in
    let* j1 := rnk1 w v j in
    let* i0 := csub i i1 in
    let* j0 := csub j j1 in
    let go := fun b i j =>
      if i =? j then Some []
      else
        let* v' := child (w_ns w) v b in
        let* l := is_leaf w v' in
        if negb l then is_loop f w i j v' else let* c := leaf_sym w v' in Some [(c, i, j)] in
    let* a := go false i0 j0 in
    let* b := go true i1 j1 in
    Some (a ++ b)
  end.
(* interval_symbols, wt_pc.hpp:482-522 *)
Definition wp_interval_symbols (lex : bool) (w : wtpc) (i j : nat) : option (list (N * nat * nat)) :=
  if i =? j then Some []
  else if w_sigma w =? 1 then let* c := leaf_sym w 0 in Some [(c, Nat.min i (w_n w), Nat.min j (w_n w))]
  else
    let* d := csub j i in
    if d =? 1 then let* rc := wp_inverse_select w i in Some [(snd rc, fst rc, fst rc + 1)]
    else if d =? 2 then
      let* a := wp_inverse_select w i in
      let* b := wp_inverse_select w (i + 1) in
      if N.eqb (snd a) (snd b) then Some [(snd a, fst a, fst a + 2)]
      else
        let '(a, b) := if lex && (snd b <? snd a)%N then (b, a) else (a, b) in
        Some [(snd a, fst a, fst a + 1); (snd b, fst b, fst b + 1)]
    else is_loop (S (length (w_ns w))) w i j 0.

(* lex_count, wt_pc.hpp:541-592; the loop 571-590.  j - r1_2 - i + r1_1 is computed modulo 2^64 *)
Fixpoint lc_loop (k : nat) (w : wtpc) (p : N) (v i j sm gr : nat) : option (nat * nat * nat) :=
  match k with
  | 0 => Some (i, sm, gr)
  | S k' =>
    let* a := rnk1 w v i in
    let* b := rnk1 w v j in
    let* v' := child (w_ns w) v (N.odd p) in
    if N.odd p then
      let* x := csub j b in let* x := csub (x + a) i in
      lc_loop k' w (shr p 1) v' a b (sm + x) gr
    else
      let* x := csub b a in
      let* i' := csub i a in let* j' := csub j b in
      lc_loop k' w (shr p 1) v' i' j' sm (gr + x)
  end.
Definition cast_sym (byte : bool) (p : N) : N := if byte then (p mod 256)%N else p.
Fixpoint wp_lex_count (fuel : nat) (w : wtpc) (i j : nat) (c : N) : option (nat * nat * nat) :=
  match fuel with
  | 0 => None
  | S f =>
    if w_sigma w =? 1 then
      let* s := leaf_sym w 0 in
      let* d := csub j i in
      Some (if N.eqb c s then (i, 0, 0) else if (c <? s)%N then (0, 0, d) else (0, d, 0))
    else if i =? j then let* r := wp_rank w i c in Some (r, 0, 0)
    else
      let* p := bit_path (w_byte w) (w_path w) c in
      let k := N.to_nat (shr p 56) in
      if k =? 0 then
        let c' := cast_sym (w_byte w) p in
        let* d := csub j i in
        if N.eqb c c' then Some (0, 0, d)
        else
          let* r := wp_lex_count f w i j c' in
          let* x := csub d (snd r) in Some (0, x, snd r)
      else lc_loop k w p 0 i j 0 0
  end.
(* lex_smaller_count, wt_pc.hpp:608-650 *)
Fixpoint ls_loop (k : nat) (w : wtpc) (p : N) (v all r : nat) : option (nat * nat) :=
  match k with
  | 0 => Some (all, r)
  | S k' =>
    if all =? 0 then Some (all, r)
    else
      let* ones := rnk1 w v all in
      let* v' := child (w_ns w) v (N.odd p) in
      let* z := csub all ones in
      if N.odd p then ls_loop k' w (shr p 1) v' ones (r + z) else ls_loop k' w (shr p 1) v' z r
  end.
Fixpoint wp_lex_smaller (fuel : nat) (w : wtpc) (i : nat) (c : N) : option (nat * nat) :=
  match fuel with
  | 0 => None
  | S f =>
    if w_sigma w =? 1 then
      let* s := leaf_sym w 0 in
      Some (if N.eqb c s then (i, 0) else if (c <? s)%N then (0, 0) else (0, i))
    else
      let* p := bit_path (w_byte w) (w_path w) c in
      let k := N.to_nat (shr p 56) in
      if k =? 0 then
        let c' := cast_sym (w_byte w) p in
        if N.eqb c c' then Some (0, 0)
        else let* r := wp_lex_smaller f w i c' in Some (0, fst r + snd r)
      else ls_loop k w p 0 i 0
  end.
