(** * Model of serialize() and load() of the composite structures

    serialize writes the members one after the other to a stream; load reads them in the order it was written for, into an
    object which already has some content, and attaches each support to the vector of that object.  The stream is a list of
    records, one for each member written.  Reading a record which was written for another member is undefined ([None]), and so
    is reading past the end.

    Simplifications: the bytes of one member are one record with the content of the member (for the vectors the bytes are
    proved in C06; for a member which is itself a composite structure this file applies to that structure); the
    structure tree and the returned byte count are left out. *)
From Coq Require Import List Bool Arith.
From Verif Require Import Base Life.
Import ListNotations.

(** the statements of serialize and of load *)
Inductive wstmt :=
| W (f : nat)             (* m_f.serialize(out), write_member(m_f, out) *)
| WS (s : nat).           (* m_s.serialize(out) for a support *)
Inductive rstmt :=
| R (f : nat)             (* m_f.load(in), read_member(m_f, in) *)
| RS (s : nat)            (* m_s.load(in): the pointer is the default argument nullptr *)
| RSv (s f : nat)         (* m_s.load(in, &m_f) *)
| RSet (s f : nat).       (* m_s.set_vector(&m_f) *)

Section LifeIO.
Variable V : Type.
Inductive rec := RV (f : nat) (x : V) | RSup (s : nat) (x : V).
Notation obj := (obj V).

Definition write (o : obj) (w : wstmt) : rec :=
  match w with W f => RV f (o_val V o f) | WS s => RSup s (s_built V (o_sup V o s)) end.
Definition wval (o : obj) f x : obj := mkobj V (fupd (o_val V o) f x) (o_sup V o).
Definition wsup (o : obj) s x : obj := mkobj V (o_val V o) (fupd (o_sup V o) s x).
Definition read_rec (r : rstmt) (a : addr) (o : obj) (t : list rec) : option (obj * list rec) :=
  match r with
  | R f => match t with RV g x :: t => if f =? g then Some (wval o f x, t) else None | _ => None end
  | RS s => match t with RSup g x :: t => if s =? g then Some (wsup o s (mksup V x None), t) else None | _ => None end
  | RSv s f => match t with RSup g x :: t => if s =? g then Some (wsup o s (mksup V x (Some (a, f))), t) else None | _ => None end
  | RSet s f => Some (wsup o s (mksup V (s_built V (o_sup V o s)) (Some (a, f))), t)
  end.
Fixpoint read_recs (l : list rstmt) (a : addr) (o : obj) (t : list rec) : option (obj * list rec) :=
  match l with
  | [] => Some (o, t)
  | r :: l => let* p := read_rec r a o t in read_recs l a (fst p) (snd p)
  end.

(** serialize and load of a class; the members are numbered as in Life.v *)
Record io := mkio { ser : list wstmt; ld : list rstmt }.

(** what a user does: the operations of Life.v, appending an object to a file and reading the next object of a file *)
Inductive iop := Op (o : op V) | Save (n k : nat) | Load (n k : nat).
Definition files := nat -> list rec.
Definition exec_io (c : class V) (i : io) (st : heap V * files) (o : iop) : option (heap V * files) :=
  let (h, fs) := st in
  match o with
  | Op o => let* h := exec V c h o in Some (h, fs)
  | Save n k => let* x := h (U n) in Some (h, fupd fs k (fs k ++ map (write x) (ser i)))
  | Load n k =>
    let* x := h (U n) in
    let* p := read_recs (ld i) (U n) x (fs k) in
    Some (upd V h (U n) (Some (fst p)), fupd fs k (snd p))
  end.
Fixpoint execs_io (c : class V) (i : io) (st : heap V * files) (l : list iop) : option (heap V * files) :=
  match l with
  | [] => Some st
  | o :: l => let* st := exec_io c i st o in execs_io c i st l
  end.
Definition no_files : files := fun _ => [].
End LifeIO.

(** wt_int.hpp:693-716 *)
Definition io_wt_int := mkio [W 0; W 1; W 2; WS 0; WS 1; WS 2; W 3] [R 0; R 1; R 2; RSv 0 2; RSv 1 2; RSv 2 2; R 3].
(** wt_pc.hpp:656-683 *)
Definition io_wt_pc := mkio [W 0; W 1; W 2; WS 0; WS 1; WS 2; W 3] [R 0; R 1; R 2; RSv 0 2; RSv 1 2; RSv 2 2; R 3].
(** wm_int.hpp:522-551 *)
Definition io_wm_int := mkio
  [W 0; W 1; W 2; WS 0; WS 1; WS 2; W 3; W 4; W 5] [R 0; R 1; R 2; RSv 0 2; RSv 1 2; RSv 2 2; R 3; R 4; R 5].
(** wt_rlmn.hpp:402-434 *)
Definition io_wt_rlmn := mkio
  [W 0; W 1; W 2; W 3; WS 0; WS 1; WS 2; WS 3; W 4; W 5] [R 0; R 1; R 2; R 3; RSv 0 1; RSv 1 2; RSv 2 1; RSv 3 2; R 4; R 5].
(** sd_vector.hpp:404-427 *)
Definition io_sd_vector := mkio [W 0; W 1; W 2; W 3; WS 0; WS 1] [R 0; R 1; R 2; R 3; RSv 0 3; RSv 1 3].
(** dac_vector.hpp:479-486, 642-656 *)
Definition io_dac_vector := mkio [W 0; W 1; WS 0; W 2; W 3] [R 0; R 1; RSv 0 1; R 2; R 3].
(** csa_alphabet_strategy.hpp:356-379, 582-605 *)
Definition io_alphabet := mkio [W 0; WS 0; WS 1; W 1; W 2] [R 0; RS 0; RSet 0 0; RS 1; RSet 1 0; R 1; R 2].
(** csa_sampling_strategy.hpp:218-235, 576-593 *)
Definition io_text_order := mkio [W 0; W 1; WS 0] [R 0; R 1; RS 0; RSet 0 1].
(** csa_sampling_strategy.hpp:408-430 *)
Definition io_fuzzy_sa := mkio [W 0; WS 0; W 1; WS 1; W 2] [R 0; RS 0; RSet 0 0; R 1; RS 1; RSet 1 1; R 2].
(** rmq_succinct_sada.hpp:230-247 *)
Definition io_rmq_sada := mkio [W 0; WS 0; WS 1; WS 2] [R 0; RSv 0 0; RSv 1 0; RSv 2 0].
(** rmq_succinct_sct.hpp:162-175 *)
Definition io_rmq_sct := mkio [W 0; WS 0] [R 0; RSv 0 0].
(** nearest_neighbour_dictionary.hpp:239-263 *)
Definition io_nnd := mkio [W 0; W 1; W 2; W 3; W 4; WS 0] [R 0; R 1; R 2; R 3; R 4; RSv 0 4].
(** cst_sada.hpp:390-415; load_lcp, lcp.hpp:183-212, passes the address of the csa (or of the cst, whose csa it is) *)
Definition io_cst_sada := mkio [W 0; WS 0; W 1; WS 1; WS 2; WS 3] [R 0; RSv 0 0; R 1; RSv 1 1; RSv 2 1; RSv 3 1].
(** cst_sct3.hpp:1175-1203 *)
Definition io_cst_sct3 := mkio
  [W 0; WS 0; W 1; WS 1; W 2; WS 2; WS 3; W 3] [R 0; RSv 0 0; R 1; RSv 1 1; R 2; RSv 2 2; RSv 3 2; R 3].
(** cst_fully.hpp:279-310 *)
Definition io_cst_fully := mkio
  [W 0; W 1; W 2; W 3; WS 0; W 4; WS 1; WS 2; W 5] [R 0; R 1; R 2; R 3; RSv 0 3; R 4; RSv 1 4; RSv 2 4; R 5].
(** wt_gmr.hpp:587-616 (wt_gmr_rs): select0 is support 1, select1 is support 0 *)
Definition io_wt_gmr_rs := mkio [W 2; W 3; W 4; W 5; W 1; W 0; WS 1; WS 0] [R 2; R 3; R 4; R 5; R 1; R 0; RSv 1 0; RSv 0 0].
(** wt_gmr.hpp:925-964 *)
Definition io_wt_gmr := mkio
  [W 3; W 4; W 5; W 6; W 7; W 0; WS 3; WS 1; W 1; WS 4; WS 2; W 2; WS 0]
  [R 3; R 4; R 5; R 6; R 7; R 0; RSv 3 0; RSv 1 0; R 1; RSv 4 1; RSv 2 1; R 2; RSv 0 2].
(** csa_wt.hpp:374-393, csa_sada.hpp:461-480; the load of the inverse samples, csa_sampling_strategy.hpp:781-786, 924-928,
    ends with set_vector *)
Definition io_csa := mkio [W 0; W 1; WS 0; W 2] [R 0; R 1; RSv 0 1; R 2].
(** the same with isa_sampling, csa_sampling_strategy.hpp:667-670 *)
Definition io_csa_isa := mkio [W 0; W 1; W 3; W 2] [R 0; R 1; R 3; R 2].
(** inv_perm_support.hpp:198-214 *)
Definition io_inv_perm := mkio [W 0; W 1; WS 0] [R 0; R 1; RSv 0 1].
(** wt_gmr.hpp:243-263 (inv_multi_perm_support) *)
Definition io_inv_multi_perm := mkio [W 0; W 1; W 2; WS 0] [R 0; R 1; R 2; RSv 0 2].
(** bp_support_g.hpp:601-642; the two supports of the sequence itself, which the owner attaches, are member 7 *)
Definition io_bp_g := mkio
  [W 7; W 0; W 1; WS 0; W 2; W 3; W 4; WS 1; W 5; W 6] [R 7; R 0; R 1; RSv 0 1; R 2; R 3; R 4; RSv 1 3; R 5; R 6].
(** wt_ap.hpp:379-412; m_offset, whose length load computes from m_class_cnt and m_singleton_class_cnt, is one member *)
Definition io_wt_ap := mkio [W 0; W 1; W 2; W 3; W 4; W 5; W 6] [R 0; R 1; R 2; R 3; R 4; R 5; R 6].
