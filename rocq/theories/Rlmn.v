(** * Model of the run-length wavelet tree wt_rlmn (include/sdsl/wt_rlmn.hpp)

    Symbols, positions and counters are [nat].  The bit vectors bl and bf are lists of bits with the rank and select answers
    proved for their supports (C12-C18), the wavelet tree of the run heads is the sequence it stores with the rank, select and
    inverse_select answers proved for wavelet trees (C30-C34), see Csa.v.  The temporary file holds what is written to it
    (C35).  Simplification: m_C and m_C_bf_rank are arrays of nat; for integer alphabets the code gives them
    bits::hi(size)+1 bits, which hold every value up to size.  [None] is undefined behaviour. *)
From Coq Require Import List Bool Arith.
From Verif Require Import Base SpecBits AbsVec WtBase Csa.
Import ListNotations.

(** m_size, m_bl, m_bf, m_wt, m_C, m_C_bf_rank; lines 131-145 *)
Record rlmn := mkrl { r_n : nat; r_bl : list bool; r_bf : list bool; r_wt : list nat; r_C : list nat; r_Cbf : list nat }.

(** size of the counter array, wt_rlmn_trait::init_C, lines 51-54 and 71-73: largest symbol + 1, or 256 for bytes *)
Definition rl_slots (byte : bool) (s : list nat) : nat := if byte then 256 else S (list_max s).
(** lines 187-197: (bl, condensed sequence, C) *)
Fixpoint runs_loop (s : list nat) (i last : nat) (bl : list bool) (cd C : list nat) : option (list bool * list nat * list nat) :=
  match s with
  | [] => Some (bl, cd, C)
  | c :: s =>
    let* q := (if negb (last =? c) || (i =? 0) then let* bl := aset bl i true in Some (bl, cd ++ [c]) else Some (bl, cd)) in
    let* y := nth_error C c in
    let* C := aset C c (y + 1) in
    runs_loop s (i + 1) c (fst q) (snd q) C
  end.
(** lines 201-204 *)
Fixpoint psums (C : list nat) (sum : nat) : list nat := match C with [] => [] | y :: C => sum :: psums C (sum + y) end.
(** lines 209-215 *)
Fixpoint bf_loop (s : list nat) (i : nat) (bl : list bool) (lf : list nat) (bf : list bool) : option (list bool) :=
  match s with
  | [] => Some bf
  | c :: s =>
    let* b := t_get bl i in
    let* p := nth_error lf c in
    let* bf := (if b then aset bf p true else Some bf) in
    let* lf := aset lf c (p + 1) in
    bf_loop s (i + 1) bl lf bf
  end.
(** lines 231-233 *)
Fixpoint ranks_of (bf : list bool) (C : list nat) : option (list nat) :=
  match C with
  | [] => Some []
  | y :: C => let* r := t_rank bf y in let* l := ranks_of bf C in Some (r :: l)
  end.
(** the constructor, lines 176-234, for the whole sequence *)
Definition rl_make (byte : bool) (s : list nat) : option rlmn :=
  let n := length s in
  if n =? 0 then Some (mkrl 0 [] [] [] [] [])
  else
    let* q := runs_loop s 0 0 (repeat false n) [] (repeat 0 (rl_slots byte s)) in
    let '(bl, cd, C) := q in
    let mC := psums C 0 in
    let* bf := aset (repeat false (n + 1)) n true in
    let* bf := bf_loop s 0 bl mC bf in
    let* Cbf := ranks_of bf mC in
    Some (mkrl n bl bf cd mC Cbf).

(** operator[], lines 319-322 *)
Definition rl_get (w : rlmn) (i : nat) : option nat :=
  let* r := t_rank (r_bl w) (i + 1) in let* k := csub r 1 in nth_error (r_wt w) k.
(** m_bf_select(...) - m_C[c] *)
Definition rl_before (w : rlmn) (c k : nat) : option nat :=
  let* b := nth_error (r_Cbf w) c in
  let* p := t_sel1 (r_bf w) (b + k) in
  let* y := nth_error (r_C w) c in
  csub p y.
(** rank, lines 333-347 *)
Definition rl_rank (w : rlmn) (i c : nat) : option nat :=
  if i =? 0 then Some 0
  else
    let* e := t_rank (r_bl w) i in
    let* runs := w_rank (r_wt w) e c in
    if runs =? 0 then Some 0
    else
      let* e1 := csub e 1 in
      let* h := nth_error (r_wt w) e1 in
      if h =? c then
        let* b := t_sel1 (r_bl w) e in
        let* o := rl_before w c runs in
        csub (o + i) b
      else rl_before w c (runs + 1).
(** inverse_select, lines 356-374 *)
Definition rl_isel (w : rlmn) (i : nat) : option (nat * nat) :=
  if i =? 0 then let* c := nth_error (r_wt w) 0 in Some (0, c)
  else
    let* e := t_rank (r_bl w) (i + 1) in
    let* e1 := csub e 1 in
    let* rc := w_isel (r_wt w) e1 in
    let runs := fst rc + 1 in
    let c := snd rc in
    if runs =? 0 then Some (0, c)
    else
      let* h := nth_error (r_wt w) e1 in
      if h =? c then
        let* b := t_sel1 (r_bl w) e in
        let* o := rl_before w c runs in
        let* r := csub (o + i) b in Some (r, c)
      else let* r := rl_before w c (runs + 1) in Some (r, c).
(** select, lines 384-390 *)
Definition rl_select (w : rlmn) (i c : nat) : option nat :=
  let* y := nth_error (r_C w) c in
  let* b := nth_error (r_Cbf w) c in
  let* r := t_rank (r_bf w) (y + i) in
  let* runs := csub r b in
  let* p := t_sel1 (r_bf w) (runs + b) in
  let* off := csub (y + i - 1) p in
  let* k := w_select (r_wt w) runs c in
  let* q := t_sel1 (r_bl w) (k + 1) in
  Some (q + off).
