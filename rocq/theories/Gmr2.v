(** * Model of the wavelet tree replacement wt_gmr (include/sdsl/wt_gmr.hpp:643-1000)

    Conventions as in Gmr.v: symbols, positions and counters are [nat]; the bit vectors B and X are the lists of their bits
    with the select answers proved for the supports (C14-C18); the permutation is the list of its elements (C05-C11, or
    C27/C28 for the compressed containers); int_vectors of the constructor have the width the code gives them.  The inverse
    permutations are those of MultiPerm.v (t_inverse_support = inv_multi_perm_support<ts>).  [None] is undefined
    behaviour. *)
From Coq Require Import List Bool Arith.
From Verif Require Import Base SpecBits AbsVec WtBase InvPerm MultiPerm Gmr.
Import ListNotations.

(** m_size, m_max_symbol, m_chunksize, m_chunks, m_sigma, m_bv_blocks, m_bv_chunks, m_perm, m_ips; lines 656-670 *)
Record gmr2 := mkgmr2 { q_n : nat; q_ms : nat; q_cs : nat; q_ch : nat; q_sigma : nat; q_b : list bool; q_x : list bool; q_perm : list nat; q_ips : invperm }.

(** lines 728-730: count the symbols of a chunk *)
Fixpoint cnt_loop (w : nat) (ch sy : list nat) : option (list nat) :=
  match ch with
  | [] => Some sy
  | x :: ch => let* y := nth_error sy x in let* sy := aset sy x (wr w (y + 1)) in cnt_loop w ch sy
  end.
(** lines 733-734 *)
Fixpoint x_ones (k xp : nat) (x : list bool) : option (nat * list bool) :=
  match k with
  | 0 => Some (xp, x)
  | S k => let* x := aset x (xp + 1) true in x_ones k (xp + 1) x
  end.
(** lines 732-734 *)
Fixpoint x_loop (sy : list nat) (xp : nat) (x : list bool) : option (nat * list bool) :=
  match sy with
  | [] => Some (xp, x)
  | t :: sy => let* (xp, x) := x_ones t xp x in x_loop sy (xp + 1) x
  end.
(** lines 743-745 *)
Fixpoint perm_loop (ws wp base : nat) (ch : list nat) (k : nat) (sy perm : list nat) : option (list nat) :=
  match ch with
  | [] => Some perm
  | x :: ch =>
    let* y := nth_error sy x in
    let* sy := aset sy x (wr ws (y + 1)) in
    let* perm := aset perm (base + y) (wr wp k) in
    perm_loop ws wp base ch (k + 1) sy perm
  end.
(** lines 724-746: [k] chunks from chunk [i].  Simplification: the symbols input[j] with i*chunksize <= j < (i+1)*chunksize
    and j < m_size are one list *)
Fixpoint chunk_loop (s : list nat) (cs ms w k i xp : nat) (x : list bool) (perm : list nat) : option (list bool * list nat) :=
  match k with
  | 0 => Some (x, perm)
  | S k =>
    let ch := firstn cs (skipn (i * cs) s) in
    let* sy := cnt_loop (w + 2) ch (repeat 0 ms) in
    let* (xp, x) := x_loop sy xp x in
    let* perm := perm_loop (w + 2) (w + 1) (i * cs) ch 0 (start_loop (w + 2) sy 0) perm in
    chunk_loop s cs ms w k (i + 1) xp x perm
  end.
(** the constructor, lines 680-755; [w] is bits::hi(m_max_symbol-1), and 1ULL << (w+1) is undefined for w+1 = 64.  The
    loops for B (lines 692-718) are those of wt_gmr_rs *)
Definition gm_make (ts : nat) (s : list nat) : option gmr2 :=
  let n := length s in
  let ms := max_loop s 0 + 1 in
  let w := Nat.log2 (ms - 1) in
  if w + 1 <? 64 then
    let cs := 2 ^ (w + 1) in
    let bl := (n + cs - 1) / cs in
    let* tmp := tmp_loop cs bl (w + 2) s 0 0 (repeat 0 (ms * bl)) in
    let* b := bits_loop tmp 1 (repeat false (n + ms * bl + 1)) in
    let sigma := sigma_loop bl (tl b) true 0 0 in
    let* (x, perm) := chunk_loop s cs ms w bl 0 0 (repeat false (n + bl * ms + 1)) (repeat 0 n) in
    let* ips := mp_make ts cs perm in
    Some (mkgmr2 n ms cs bl sigma b x perm ips)
  else None.

(** m_ips[i]; the inverse is found within 2*ts+2 reads (C64), which is the fuel *)
Definition gm_ips (ts : nat) (w : gmr2) (i : nat) : option nat := mp_get (q_cs w) (q_perm w) (q_ips w) (2 * ts + 2) i.
(** operator[], lines 839-845 *)
Definition gm_get (ts : nat) (w : gmr2) (i : nat) : option nat :=
  let chunk := i / q_cs w in
  let* x := gm_ips ts w i in
  let* p := t_sel1 (q_x w) (x + 1) in
  csub p (x + chunk * q_ms w + 1).
(** select0(q)-q+1, with the subtraction of the code taken last: the ones in front of the q-th zero *)
Definition z_ones (b : list bool) (q : nat) : option nat := let* p := t_sel0 b q in csub (p + 1) q.
(** rank, lines 857-880 *)
Definition gm_rank (w : gmr2) (i c : nat) : option nat :=
  if (i =? 0) || (q_ms w - 1 <? c) then Some 0
  else
    let chunk := (i - 1) / q_cs w in
    let* before := z_ones (q_b w) (c * q_ch w + 1) in
    let* a := z_ones (q_b w) (c * q_ch w + chunk + 1) in
    let* cb := csub a before in
    let* b := z_ones (q_x w) (chunk * q_ms w + 1 + c) in
    let* e := z_ones (q_x w) (chunk * q_ms w + 2 + c) in
    let val := (i - 1) mod q_cs w in
    let* l := slice (q_perm w) b e in
    let* o := (if e - b <? 50 then Some (find_idx (fun x => val <? x) l) else lower_bound l (val + 1)) in
    Some (cb + o).
(** inverse_select, lines 891-903 *)
Definition gm_isel (ts : nat) (w : gmr2) (i : nat) : option (nat * nat) :=
  let chunk := i / q_cs w in
  let* x := gm_ips ts w i in
  let* tmp := t_sel1 (q_x w) (x + 1) in
  let* c := csub tmp (x + chunk * q_ms w + 1) in
  let* before := z_ones (q_b w) (c * q_ch w + 1) in
  let* a := z_ones (q_b w) (c * q_ch w + chunk + 1) in
  let* cb := csub a before in
  let* z := t_sel0 (q_x w) (c + 1 + chunk * q_ms w) in
  let* ci := csub tmp (z + 1) in
  Some (cb + ci, c).
(** select, lines 914-924 *)
Definition gm_select (w : gmr2) (i c : nat) : option nat :=
  let* p0 := t_sel0 (q_b w) (c * q_ch w + 1) in
  let* before := csub p0 (c * q_ch w) in
  let* p1 := t_sel1 (q_b w) (before + i) in
  let* chunk := csub (p1 + 1) (before + (c * q_ch w + 1) + i) in
  let* p2 := t_sel0 (q_b w) (c * q_ch w + chunk + 1) in
  let* cb := csub p2 (c * q_ch w + chunk + before) in
  let* z := t_sel0 (q_x w) (chunk * q_ms w + c + 1) in
  let* d := csub i cb in
  let* pi := csub (z + d) (chunk * q_ms w + c + 1) in
  let* x := nth_error (q_perm w) pi in
  Some (x + chunk * q_cs w).
