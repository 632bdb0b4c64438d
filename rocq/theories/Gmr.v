(** * Model of the wavelet tree replacement wt_gmr_rs (include/sdsl/wt_gmr.hpp:290-617)

    Symbols, positions and counters are [nat].  The bit vector B is the list of its bits with the select answers proved for the
    supports (C14-C18); E is the list of its elements (C05-C11, or C27/C28 for the compressed containers).  The int_vectors
    tmp, symbols and positions of the constructor have the width the code gives them: what is stored is taken modulo
    2^width.  std::lower_bound and std::binary_search are their contract: defined on sorted ranges only.
    Simplification: iterator arithmetic on m_e.begin() is arithmetic on indices.  [None] is undefined behaviour. *)
From Coq Require Import List Bool Arith.
From Verif Require Import Base SpecBits AbsVec WtBase.
Import ListNotations.

(** m_size, m_block_size, m_blocks, m_sigma, m_bv_blocks, m_e; lines 320-327 *)
Record gmr := mkgmr { g_n : nat; g_bs : nat; g_bl : nat; g_sigma : nat; g_b : list bool; g_e : list nat }.

(** a value stored in an int_vector of width [w] (int_vector.hpp, C05) *)
Definition wr (w x : nat) : nat := x mod 2 ^ w.
(** lines 344-346: the largest symbol *)
Fixpoint max_loop (s : list nat) (m : nat) : nat := match s with [] => m | x :: s => max_loop s (if m <? x then x else m) end.
(** lines 356-362: occurrences of each symbol in each block *)
Fixpoint tmp_loop (bs bl w : nat) (s : list nat) (off j : nat) (tmp : list nat) : option (list nat) :=
  match s with
  | [] => Some tmp
  | x :: s =>
    let '(off, j) := if j =? bs then (off + 1, 0) else (off, j) in
    let* y := nth_error tmp (x * bl + off) in
    let* tmp := aset tmp (x * bl + off) (wr w (y + 1)) in
    tmp_loop bs bl w s off (j + 1) tmp
  end.
(** lines 365-367: one symbol, [k] blocks from index [j] *)
Fixpoint sum_loop (w : nat) (tmp : list nat) (k j acc : nat) : option nat :=
  match k with
  | 0 => Some acc
  | S k => let* y := nth_error tmp j in sum_loop w tmp k (j + 1) (wr w (acc + y))
  end.
(** lines 364-368; symbols[i] is final when i has been processed, so the array is built from left to right *)
Fixpoint sym_loop (w bl : nat) (tmp : list nat) (k i : nat) : option (list nat) :=
  match k with
  | 0 => Some []
  | S k => let* y := sum_loop w tmp bl (bl * i) 0 in let* l := sym_loop w bl tmp k (i + 1) in Some (y :: l)
  end.
(** lines 371-372 *)
Fixpoint ones_loop (k l : nat) (b : list bool) : option (list bool) :=
  match k with
  | 0 => Some b
  | S k => let* b := aset b l true in ones_loop k (l + 1) b
  end.
(** lines 370-373 *)
Fixpoint bits_loop (tmp : list nat) (l : nat) (b : list bool) : option (list bool) :=
  match tmp with
  | [] => Some b
  | t :: tmp => let* b := ones_loop t l b in bits_loop tmp (l + t + 1) b
  end.
(** lines 376-389, over the bits from index 1 *)
Fixpoint sigma_loop (bl : nat) (bits : list bool) (write : bool) (blocks sigma : nat) : nat :=
  match bits with
  | [] => sigma
  | x :: bits =>
    let '(blocks, write) := if blocks =? bl then (0, true) else (blocks, write) in
    if x then if write then sigma_loop bl bits false blocks (sigma + 1) else sigma_loop bl bits write blocks sigma
    else sigma_loop bl bits write (blocks + 1) sigma
  end.
(** lines 396-400 *)
Fixpoint start_loop (w : nat) (sy : list nat) (sum : nat) : list nat :=
  match sy with [] => [] | y :: sy => wr w sum :: start_loop w sy (sum + y) end.
(** lines 401-405; the two nested loops as one loop, j goes back to 0 after a full block *)
Fixpoint pos_loop (bs ws wp : nat) (s : list nat) (j : nat) (sy e : list nat) : option (list nat) :=
  match s with
  | [] => Some e
  | x :: s =>
    let j := if j =? bs then 0 else j in
    let* y := nth_error sy x in
    let* sy := aset sy x (wr ws (y + 1)) in
    let* e := aset e y (wr wp j) in
    pos_loop bs ws wp s (j + 1) sy e
  end.
(** the constructor, lines 341-410, for the whole sequence; bits::hi is the binary logarithm *)
Definition gmr_make (s : list nat) : option gmr :=
  let n := length s in
  let bs := max_loop s 0 + 1 in
  let bl := (n + bs - 1) / bs in
  let wb := Nat.log2 bs + 1 in
  let wn := Nat.log2 n + 1 in
  let* tmp := tmp_loop bs bl wb s 0 0 (repeat 0 (bs * bl)) in
  let* sy := sym_loop wn bl tmp bs 0 in
  let* b := bits_loop tmp 1 (repeat false (n + bs * bl + 1)) in
  let sigma := sigma_loop bl (tl b) true 0 0 in
  let* e := pos_loop bs wn wb s 0 (start_loop wn sy 0) (repeat 0 n) in
  Some (mkgmr n bs bl sigma b e).

(** lines 487, 515-516, 558: the range [m_e.begin()+a, m_e.begin()+b) *)
Definition slice (e : list nat) (a b : nat) : option (list nat) :=
  if (a <=? b) && (b <=? length e) then Some (firstn (b - a) (skipn a e)) else None.
(** line 520: std::find_if - begin: index of the first element with [p], the length if there is none *)
Fixpoint find_idx (p : nat -> bool) (l : list nat) : nat := match l with [] => 0 | x :: l => if p x then 0 else S (find_idx p l) end.
(** the precondition of std::lower_bound and std::binary_search *)
Fixpoint sortedb (l : list nat) : bool :=
  match l with [] => true | x :: l => match l with [] => true | y :: _ => (x <=? y) && sortedb l end end.
(** std::lower_bound - begin (lines 522, 558), std::binary_search (line 487) *)
Definition lower_bound (l : list nat) (v : nat) : option nat := if sortedb l then Some (find_idx (fun x => v <=? x) l) else None.
Definition binary_search (l : list nat) (v : nat) : option bool := if sortedb l then Some (existsb (Nat.eqb v) l) else None.

(** m_bv_blocks_select0(q+1)-q (lines 513, 551, 562, 584): the ones in front of cell q *)
Definition g_ones (w : gmr) (q : nat) : option nat := let* p := t_sel0 (g_b w) (q + 1) in csub p q.
(** the while loops in lines 480-485 and 548-556: index of [val] in E[a..a+k-1] *)
Fixpoint scan (e : list nat) (val k a : nat) : option (option nat) :=
  match k with
  | 0 => Some None
  | S k =>
    let* x := nth_error e a in
    if x <=? val then if x =? val then Some (Some a) else scan e val k (a + 1) else Some None
  end.
(** operator[], lines 470-494 *)
Fixpoint get_loop (fuel : nat) (w : gmr) (block val : nat) : option nat :=
  match fuel with
  | 0 => None
  | S fuel =>
    let* p := t_sel0 (g_b w) block in
    let j := p + 1 in
    let* a := csub j block in
    let* x := t_get (g_b w) j in
    let* hit := (if x then
                   let* p' := t_sel0 (g_b w) (block + 1) in
                   let* b := csub p' block in
                   let* len := csub b a in
                   if len <? 50 then let* r := scan (g_e w) val len a in Some (match r with Some _ => true | None => false end)
                   else let* l := slice (g_e w) a b in binary_search l val
                 else Some false) in
    if hit then Some ((block - 1) / g_bl w) else get_loop fuel w (block + g_bl w) val
  end.
(** lines 473-474; [fuel]: one round per symbol *)
Definition gmr_get (w : gmr) (i : nat) : option nat := get_loop (g_bs w) w (i / g_bs w + 1) (i mod g_bs w).
(** rank, lines 506-525 *)
Definition gmr_rank (w : gmr) (i c : nat) : option nat :=
  if (i =? 0) || (g_bs w - 1 <? c) then Some 0
  else
    let* before := g_ones w (c * g_bl w) in
    let q := c * g_bl w + (i - 1) / g_bs w in
    let* p := t_sel0 (g_b w) (q + 1) in
    let* a := csub (p + 1) (q + 1) in
    let* p' := t_sel0 (g_b w) (q + 2) in
    let* b := csub p' (q + 1) in
    let val := (i - 1) mod g_bs w in
    let* l := slice (g_e w) a b in
    let* o := (if b - a <? 50 then Some (find_idx (fun x => val <? x) l) else lower_bound l (val + 1)) in
    csub (a + o) before.
(** inverse_select, lines 537-571 *)
Fixpoint isel_loop (fuel : nat) (w : gmr) (block val : nat) : option (nat * nat) :=
  match fuel with
  | 0 => None
  | S fuel =>
    let* p := t_sel0 (g_b w) block in
    let j := p + 1 in
    let* a := csub j block in
    let* x := t_get (g_b w) j in
    let* hit := (if x then
                   let* p' := t_sel0 (g_b w) (block + 1) in
                   let* b := csub p' block in
                   let* len := csub b a in
                   if len <? 50 then scan (g_e w) val len a
                   else
                     let* l := slice (g_e w) a b in
                     let* o := lower_bound l val in
                     if a + o <? b then let* y := nth_error (g_e w) (a + o) in Some (if y =? val then Some (a + o) else None)
                     else Some None
                 else Some None) in
    match hit with
    | Some y =>
      let c := (block - 1) / g_bl w in
      let* before := g_ones w (c * g_bl w) in
      let* r := csub y before in
      Some (r, c)
    | None => isel_loop fuel w (block + g_bl w) val
    end
  end.
(** the start of the loop, lines 540-541 *)
Definition gmr_isel (w : gmr) (i : nat) : option (nat * nat) := isel_loop (g_bs w) w (i / g_bs w + 1) (i mod g_bs w).
(** select, lines 582-586 *)
Definition gmr_select (w : gmr) (i c : nat) : option nat :=
  let* before := g_ones w (c * g_bl w) in
  let k := before + i in
  let* p := t_sel1 (g_b w) k in
  let* q := csub p k in
  let* k' := csub k 1 in
  let* x := nth_error (g_e w) k' in
  csub (q * g_bs w + x) (c * g_bl w * g_bs w).
