(** * Model of the special members (constructors, assignments, swap) of the composite structures

    A composite structure keeps data members (vectors, counters) and support members; a support owns the data it was built
    with and a raw pointer to the data member it supports, which is a member of the same object.  Copying or moving a support
    copies the pointer (rank_support_v.hpp, select_support_mcl.hpp, wt_gmr.hpp:144-183), so each special member has to call
    set_vector afterwards.  The model keeps the pointers: an object is found at an address, a support pointer is an address
    with a data member, and reading through the pointer of a destroyed object is [None].

    Simplifications: the content of a data member is one value of an arbitrary type [V], copied by operator= and moved by
    std::move; for a member which is itself a composite structure this is what this file proves about that structure.  Of a
    support only the content it was built for and the pointer are kept; a support without data of its own (rank_support_sd)
    is the special case in which the former is not used. *)
From Coq Require Import List Bool Arith.
From Verif Require Import Base.
Import ListNotations.

(** addresses: the objects of the user, and the temporary of a copy-and-swap assignment *)
Inductive addr := U (n : nat) | T.
Definition aeq (a b : addr) : bool :=
  match a, b with U n, U m => n =? m | T, T => true | _, _ => false end.

Section Life.
Variable V : Type.
Variable d : V.              (* the content of a default constructed member *)
Variable left : V -> V.      (* what std::move leaves behind *)
Variable pswap : bool.       (* whether the supports' swap exchanges the pointers too: not in rank_support_v.hpp:154-158 *)

Record sup := mksup { s_built : V; s_ptr : option (addr * nat) }.
Record obj := mkobj { o_val : nat -> V; o_sup : nat -> sup }.
Definition heap := addr -> option obj.

Definition upd (h : heap) (a : addr) (o : option obj) : heap := fun x => if aeq x a then o else h x.
Definition fupd {A} (g : nat -> A) (f : nat) (x : A) : nat -> A := fun k => if k =? f then x else g k.
Definition getv (h : heap) (a : addr) (f : nat) : option V := let* o := h a in Some (o_val o f).
Definition setv (h : heap) (a : addr) (f : nat) (x : V) : option heap :=
  let* o := h a in Some (upd h a (Some (mkobj (fupd (o_val o) f x) (o_sup o)))).
Definition gets (h : heap) (a : addr) (s : nat) : option sup := let* o := h a in Some (o_sup o s).
Definition sets (h : heap) (a : addr) (s : nat) (x : sup) : option heap :=
  let* o := h a in Some (upd h a (Some (mkobj (o_val o) (fupd (o_sup o) s x)))).

(** the statements of the special members, with [*this] at [a] and the other object at [b] *)
Inductive stmt :=
| Cp (f : nat)            (* m_f = o.m_f *)
| Mv (f : nat)            (* m_f = std::move(o.m_f) *)
| Sw (f : nat)            (* m_f.swap(o.m_f), std::swap(m_f, o.m_f) *)
| SCp (s : nat)           (* m_s = o.m_s for a support *)
| SMv (s : nat)           (* m_s = std::move(o.m_s) *)
| SSw (s : nat)           (* m_s.swap(o.m_s) *)
| Set_ (s f : nat)        (* m_s.set_vector(&m_f) *)
| SetO (s f : nat).       (* o.m_s.set_vector(&o.m_f) *)

Definition do (i : stmt) (h : heap) (a b : addr) : option heap :=
  match i with
  | Cp f => let* x := getv h b f in setv h a f x
  | Mv f => let* x := getv h b f in let* h := setv h a f x in setv h b f (left x)
  | Sw f => let* x := getv h a f in let* y := getv h b f in let* h := setv h a f y in setv h b f x
  | SCp s => let* x := gets h b s in sets h a s x
  | SMv s => let* x := gets h b s in let* h := sets h a s x in sets h b s (mksup (left (s_built x)) (s_ptr x))
  | SSw s =>
    let* x := gets h a s in let* y := gets h b s in
    let* h := sets h a s (mksup (s_built y) (if pswap then s_ptr y else s_ptr x)) in
    sets h b s (mksup (s_built x) (if pswap then s_ptr x else s_ptr y))
  | Set_ s f => let* x := gets h a s in sets h a s (mksup (s_built x) (Some (a, f)))
  | SetO s f => let* x := gets h b s in sets h b s (mksup (s_built x) (Some (b, f)))
  end.
Fixpoint run (l : list stmt) (h : heap) (a b : addr) : option heap :=
  match l with
  | [] => Some h
  | i :: l => let* h := do i h a b in run l h a b
  end.
(** util::swap_support(m_s, o.m_s, &m_f, &(o.m_f)), util.hpp:303-309 *)
Definition swap_support (s f : nat) : list stmt := [SSw s; Set_ s f; SetO s f].

Definition body := heap -> addr -> addr -> option heap.
(** if (this != &o) \{ ... \} *)
Definition guarded (b : body) : body := fun h x y => if aeq x y then Some h else b h x y.
Definition blank : obj := mkobj (fun _ => d) (fun _ => mksup d None).
(** a constructor: the members are default constructed first *)
Definition ctor (b : body) : body := fun h x y => b (upd h x (Some blank)) x y.
(** T tmp(o); tmp.swap( *this); with tmp destroyed at the end *)
Definition copy_swap (cc sw : body) : body :=
  fun h x y => let* h := cc h T y in let* h := sw h T x in Some (upd h T None).
(** operator=(T tmp) \{ this->swap(tmp); \} with the parameter constructed from o *)
Definition by_value (cc sw : body) : body :=
  fun h x y => let* h := cc h T y in let* h := sw h x T in Some (upd h T None).

(** number of data members, the data member of each support, and the five special members *)
Record class := mkclass { nf : nat; over : list nat; k_cc : body; k_ca : body; k_mc : body; k_ma : body; k_sw : body }.

(** the common shape: copy(o), the move assignment and swap; the constructors are those of default construction followed by
    copy(o) or *this = std::move(o), the assignments are guarded by this != &o *)
Definition std_class (nf : nat) (over : list nat) (cp mv sw : list stmt) : class :=
  mkclass nf over (ctor (run cp)) (guarded (run cp)) (ctor (guarded (run mv))) (guarded (run mv)) (guarded (run sw)).
(** the same with a swap which is not guarded *)
Definition std_class_u (nf : nat) (over : list nat) (cp mv sw : list stmt) : class :=
  mkclass nf over (ctor (run cp)) (guarded (run cp)) (ctor (guarded (run mv))) (guarded (run mv)) (run sw).

(** wt_int.hpp:92-103, 259-305: m_size 0, m_sigma 1, m_tree 2, m_max_level 3; rank, select1, select0 over m_tree *)
Definition c_wt_int := std_class 4 [2; 2; 2]
  [Cp 0; Cp 1; Cp 2; SCp 0; Set_ 0 2; SCp 1; Set_ 1 2; SCp 2; Set_ 2 2; Cp 3]
  [Cp 0; Cp 1; Mv 2; SMv 0; Set_ 0 2; SMv 1; Set_ 1 2; SMv 2; Set_ 2 2; Mv 3]
  ([Sw 0; Sw 1; Sw 2] ++ swap_support 0 2 ++ swap_support 1 2 ++ swap_support 2 2 ++ [Sw 3]).
(** wt_pc.hpp:95-107, 253-308: m_size, m_sigma, m_bv, m_tree *)
Definition c_wt_pc := std_class 4 [2; 2; 2]
  [Cp 0; Cp 1; Cp 2; SCp 0; Set_ 0 2; SCp 1; Set_ 1 2; SCp 2; Set_ 2 2; Cp 3]
  [Cp 0; Cp 1; Mv 2; SMv 0; Set_ 0 2; SMv 1; Set_ 1 2; SMv 2; Set_ 2 2; Mv 3]
  ([Sw 0; Sw 1; Sw 2] ++ swap_support 0 2 ++ swap_support 1 2 ++ swap_support 2 2 ++ [Sw 3]).
(** wm_int.hpp:99-113, 223-279: m_size, m_sigma, m_tree, m_max_level, m_zero_cnt, m_rank_level *)
Definition c_wm_int := std_class 6 [2; 2; 2]
  [Cp 0; Cp 1; Cp 2; SCp 0; Set_ 0 2; SCp 1; Set_ 1 2; SCp 2; Set_ 2 2; Cp 3; Cp 4; Cp 5]
  [Cp 0; Cp 1; Mv 2; SMv 0; Set_ 0 2; SMv 1; Set_ 1 2; SMv 2; Set_ 2 2; Mv 3; Mv 4; Mv 5]
  ([Sw 0; Sw 1; Sw 2] ++ swap_support 0 2 ++ swap_support 1 2 ++ swap_support 2 2 ++ [Sw 3; Sw 4; Sw 5]).
(** wt_rlmn.hpp:147-162, 237-301: m_size, m_bl, m_bf, m_wt, m_C, m_C_bf_rank; bl_rank, bf_rank, bl_select, bf_select *)
Definition c_wt_rlmn := std_class 6 [1; 2; 1; 2]
  [Cp 0; Cp 1; Cp 2; Cp 3; SCp 0; Set_ 0 1; SCp 1; Set_ 1 2; SCp 2; Set_ 2 1; SCp 3; Set_ 3 2; Cp 4; Cp 5]
  [Mv 0; Mv 1; Mv 2; Mv 3; SMv 0; Set_ 0 1; SMv 1; Set_ 1 2; SMv 2; Set_ 2 1; SMv 3; Set_ 3 2; Mv 4; Mv 5]
  [Sw 0; Sw 1; Sw 2; Sw 3; SSw 0; Set_ 0 1; SetO 0 1; SSw 1; Set_ 1 2; SetO 1 2; SSw 2; Set_ 2 1; SetO 2 1;
   SSw 3; Set_ 3 2; SetO 3 2; Sw 4; Sw 5].
(** sd_vector.hpp:161-171, 182-190, 362-401: m_size, m_wl, m_low, m_high; high_1_select, high_0_select *)
Definition c_sd_vector := std_class 4 [3; 3]
  [Cp 0; Cp 1; Cp 2; Cp 3; SCp 0; Set_ 0 3; SCp 1; Set_ 1 3]
  [Cp 0; Cp 1; Mv 2; Mv 3; SMv 0; Set_ 0 3; SMv 1; Set_ 1 3]
  ([Sw 0; Sw 1; Sw 2; Sw 3] ++ swap_support 0 3 ++ swap_support 1 3).
(** dac_vector.hpp:359-440: m_data, m_overflow, m_level_pointer_and_rank, m_max_level; overflow_rank *)
Definition c_dac_vector := std_class_u 4 [1]
  [Cp 0; Cp 1; SCp 0; Set_ 0 1; Cp 2; Cp 3]
  [Mv 0; Mv 1; SMv 0; Set_ 0 1; Mv 2; Mv 3]
  ([Sw 0; Sw 1] ++ swap_support 0 1 ++ [Sw 2; Sw 3]).
(** dac_vector.hpp:129-158 (dac_vector_dp): m_size, m_overflow, m_data, m_offsets; the move constructor swaps with a default
    constructed object, operator= takes its argument by value *)
Definition dp_cc : body := ctor (run [Cp 0; Cp 1; SCp 0; Cp 2; Cp 3; Set_ 0 1]).
Definition dp_sw : body := run ([Sw 0; Sw 1] ++ swap_support 0 1 ++ [Sw 2; Sw 3]).
Definition dp_mc : body := ctor dp_sw.
Definition c_dac_vector_dp := mkclass 4 [1] dp_cc (by_value dp_cc dp_sw) dp_mc (by_value dp_mc dp_sw) dp_sw.
(** csa_alphabet_strategy.hpp:249-258, 312-353 (succinct_byte_alphabet) and 459-468, 538-579 (int_alphabet): m_char, m_C,
    m_sigma; char_rank, char_select *)
Definition c_alphabet := std_class_u 3 [0; 0]
  [Cp 0; SCp 0; Set_ 0 0; SCp 1; Set_ 1 0; Cp 1; Cp 2]
  [Mv 0; SMv 0; Set_ 0 0; SMv 1; Set_ 1 0; Mv 1; Mv 2]
  ([Sw 0] ++ swap_support 0 0 ++ swap_support 1 0 ++ [Sw 1; Sw 2]).
(** csa_sampling_strategy.hpp:173-216 (_text_order_sampling) and 537-574 (_bwt_sampling): the base int_vector, m_marked;
    rank_marked.  There are no move members: std::move copies *)
Definition c_text_order :=
  let cp := [Cp 0; Cp 1; SCp 0; Set_ 0 1] in
  mkclass 2 [1] (ctor (run cp)) (guarded (run cp)) (ctor (run cp)) (guarded (run cp)) (run ([Sw 0; Sw 1] ++ swap_support 0 1)).
(** csa_sampling_strategy.hpp:349-406 (_fuzzy_sa_sampling): m_marked_sa, m_marked_isa, m_inv_perm; rank_marked_sa,
    select_marked_isa *)
Definition c_fuzzy_sa :=
  let cp := [Cp 0; SCp 0; Set_ 0 0; Cp 1; SCp 1; Set_ 1 1; Cp 2] in
  mkclass 3 [0; 1] (ctor (run cp)) (guarded (run cp)) (ctor (run cp)) (guarded (run cp))
    (run ([Sw 0] ++ swap_support 0 0 ++ [Sw 1] ++ swap_support 1 1 ++ [Sw 2])).
(** rmq_succinct_sada.hpp:135-203: m_ect_bp; bp_support, rank10, select10.  The move constructor copies (line 172) *)
Definition c_rmq_sada :=
  let cp := [Cp 0; SCp 0; Set_ 0 0; SCp 1; Set_ 1 0; SCp 2; Set_ 2 0] in
  let mv := [Mv 0; SMv 0; Set_ 0 0; SMv 1; Set_ 1 0; SMv 2; Set_ 2 0] in
  mkclass 1 [0; 0; 0] (ctor (guarded (run cp))) (guarded (run cp)) (ctor (guarded (run cp))) (guarded (run mv))
    (run ([Sw 0] ++ swap_support 0 0 ++ swap_support 1 0 ++ swap_support 2 0)).
(** rmq_succinct_sct.hpp:95-127: m_sct_bp; sct_bp_support *)
Definition c_rmq_sct :=
  let cp := [Cp 0; SCp 0; Set_ 0 0] in
  let mv := [Mv 0; SMv 0; Set_ 0 0] in
  mkclass 1 [0] (ctor (guarded (run cp))) (guarded (run cp)) (ctor (guarded (run mv))) (guarded (run mv))
    (run ([Sw 0] ++ swap_support 0 0)).
(** nearest_neighbour_dictionary.hpp:64-73, 124-166: m_abs_samples, m_differences, m_ones, m_size, m_contains_abs_sample *)
Definition c_nnd := std_class_u 5 [4]
  [Cp 0; Cp 1; Cp 2; Cp 3; Cp 4; SCp 0; Set_ 0 4]
  [Mv 0; Mv 1; Mv 2; Mv 3; Mv 4; SMv 0; Set_ 0 4]
  ([Sw 0; Sw 1; Sw 2; Sw 3; Sw 4] ++ swap_support 0 4).
(** cst_sada.hpp:124-135, 150-159, 291-302, 358-385: m_csa, m_bp; m_lcp (which keeps a pointer to the csa, lcp.hpp:87-91,
    122-126, 158-163), bp_support, bp_rank10, bp_select10 *)
Definition c_cst_sada := std_class 2 [0; 1; 1; 1]
  [Cp 0; SCp 0; Set_ 0 0; Cp 1; SCp 1; Set_ 1 1; SCp 2; Set_ 2 1; SCp 3; Set_ 3 1]
  [Mv 0; SMv 0; Set_ 0 0; Mv 1; SMv 1; Set_ 1 1; SMv 2; Set_ 2 1; SMv 3; Set_ 3 1]
  ([Sw 0; Sw 1] ++ swap_support 1 1 ++ swap_support 2 1 ++ swap_support 3 1 ++ swap_support 0 0).
(** cst_sct3.hpp:136-149, 349-361, 401-414, 1205-1231: m_csa, m_bp, m_first_child, m_nodes; m_lcp, bp_support,
    first_child_rank, first_child_select *)
Definition c_cst_sct3 := std_class 4 [0; 1; 2; 2]
  [Cp 0; SCp 0; Set_ 0 0; Cp 1; SCp 1; Set_ 1 1; Cp 2; SCp 2; Set_ 2 2; SCp 3; Set_ 3 2; Cp 3]
  [Mv 0; SMv 0; Set_ 0 0; Mv 1; SMv 1; Set_ 1 1; Mv 2; SMv 2; Set_ 2 2; SMv 3; Set_ 3 2; Mv 3]
  ([Sw 0; Sw 1] ++ swap_support 1 1 ++ [Sw 2] ++ swap_support 2 2 ++ swap_support 3 2 ++ [Sw 3] ++ swap_support 0 0).
(** cst_fully.hpp:158-172, 189-198, 218-231, 247-274: m_delta, m_nodes, m_csa, m_s, m_b, m_depth; s_support, b_select0,
    b_select1 *)
Definition c_cst_fully := std_class 6 [3; 4; 4]
  [Cp 0; Cp 1; Cp 2; Cp 3; SCp 0; Set_ 0 3; Cp 4; SCp 1; Set_ 1 4; SCp 2; Set_ 2 4; Cp 5]
  [Cp 0; Cp 1; Mv 2; Mv 3; SMv 0; Set_ 0 3; Mv 4; SMv 1; Set_ 1 4; SMv 2; Set_ 2 4; Mv 5]
  ([Sw 0; Sw 1; Sw 2; Sw 3] ++ swap_support 0 3 ++ [Sw 4] ++ swap_support 1 4 ++ swap_support 2 4 ++ [Sw 5]).
(** wt_gmr.hpp:412-448 (wt_gmr_rs): m_bv_blocks, m_e, m_size, m_block_size, m_blocks, m_sigma; select1, select0.  There are
    no move members; operator= is copy-and-swap *)
Definition gr_cc : body := ctor (run [Cp 0; Cp 1; SCp 0; Set_ 0 0; SCp 1; Set_ 1 0; Cp 2; Cp 3; Cp 4; Cp 5]).
Definition gr_sw : body := guarded (run ([Sw 0; Sw 1] ++ swap_support 1 0 ++ swap_support 0 0 ++ [Sw 2; Sw 3; Sw 4; Sw 5])).
Definition c_wt_gmr_rs := mkclass 6 [0; 0] gr_cc (copy_swap gr_cc gr_sw) gr_cc (copy_swap gr_cc gr_sw) gr_sw.
(** wt_gmr.hpp:769-817: m_bv_blocks, m_bv_chunks, m_perm, m_size, m_max_symbol, m_chunks, m_chunksize, m_sigma; m_ips (over
    m_perm), blocks_select1, chunks_select1, blocks_select0, chunks_select0.  The copy constructor does not call
    m_ips.set_vector *)
Definition gm_cc : body := ctor (run
  [Cp 0; Cp 1; Cp 2; SCp 0; SCp 1; Set_ 1 0; SCp 2; Set_ 2 1; SCp 3; Set_ 3 0; SCp 4; Set_ 4 1; Cp 3; Cp 4; Cp 5; Cp 6; Cp 7]).
Definition gm_sw : body := guarded (run ([Sw 0; Sw 1; Sw 2] ++ swap_support 0 2 ++ swap_support 3 0 ++ swap_support 1 0 ++
  swap_support 2 1 ++ swap_support 4 1 ++ [Sw 3; Sw 4; Sw 5; Sw 6; Sw 7])).
Definition c_wt_gmr := mkclass 8 [2; 0; 1; 0; 1] gm_cc (copy_swap gm_cc gm_sw) gm_cc (copy_swap gm_cc gm_sw) gm_sw.
(** csa_wt.hpp:129-136, 351-373, 395-404 and csa_sada.hpp:122-129, 162-173, 248-270, 482-491: m_wavelet_tree or m_psi,
    m_sa_sample, m_alphabet; m_isa_sample, which for text_order_isa_sampling_support and fuzzy_isa_sampling_support keeps a
    pointer to m_sa_sample.  The move assignment does not call m_isa_sample.set_vector.  m_psi_buf, a scratch buffer, is left
    out *)
Definition c_csa := std_class 3 [1]
  [Cp 0; Cp 1; SCp 0; Set_ 0 1; Cp 2]
  [Mv 0; Mv 1; SMv 0; Mv 2]
  ([Sw 0; Sw 1] ++ swap_support 0 1 ++ [Sw 2]).

(** the same classes with isa_sampling, the default, whose set_vector does nothing (csa_sampling_strategy.hpp:605-673): the
    samples are data member 3 *)
Definition c_csa_isa := std_class 4 []
  [Cp 0; Cp 1; Cp 3; Cp 2]
  [Mv 0; Mv 1; Mv 3; Mv 2]
  [Sw 0; Sw 1; Sw 3; Sw 2].

(** inv_perm_support.hpp:66-74, 166-197: m_back_pointer, m_marked; rank_marked.  The pointer to the supported permutation,
    which the owner sets, is the [s_ptr] of the owner's model *)
Definition c_inv_perm := std_class 2 [1]
  [Cp 0; Cp 1; SCp 0; Set_ 0 1] [Mv 0; Mv 1; SMv 0; Set_ 0 1] ([Sw 0; Sw 1] ++ swap_support 0 1).
(** wt_gmr.hpp:143-194 (inv_multi_perm_support): m_chunksize, m_back_pointer, m_marked; marked_rank *)
Definition c_inv_multi_perm := std_class 3 [2]
  [Cp 0; Cp 1; Cp 2; SCp 0; Set_ 0 2] [Mv 0; Mv 1; Mv 2; SMv 0; Set_ 0 2] ([Sw 0; Sw 1; Sw 2] ++ swap_support 0 2).
(** bp_support_g.hpp:95-115, 153-216: m_nnd, m_pioneer_bp, m_nnd2, m_match, m_enclose, m_size, m_blocks; rank_pioneer_bp,
    range_max_match.  The supports of the sequence itself, whose pointer the owner sets, are data member 7 *)
Definition c_bp_g := std_class_u 8 [1; 3]
  [Cp 7; Cp 0; Cp 1; SCp 0; Set_ 0 1; Cp 2; Cp 3; Cp 4; SCp 1; Set_ 1 3; Cp 5; Cp 6]
  [Mv 7; Mv 0; Mv 1; SMv 0; Set_ 0 1; Mv 2; Mv 3; Mv 4; SMv 1; Set_ 1 3; Mv 5; Mv 6]
  ([Sw 7; Sw 0; Sw 1] ++ swap_support 0 1 ++ [Sw 2; Sw 3; Sw 4] ++ swap_support 1 3 ++ [Sw 5; Sw 6]).
(** wt_ap.hpp:76-85, 222-270: m_size, m_sigma, m_singleton_class_cnt, m_class_cnt, m_char2class, m_class, m_offset *)
Definition c_wt_ap := std_class 7 []
  [Cp 0; Cp 1; Cp 2; Cp 3; Cp 4; Cp 5; Cp 6] [Cp 0; Cp 1; Cp 2; Cp 3; Mv 4; Mv 5; Mv 6] [Sw 0; Sw 1; Sw 2; Sw 3; Sw 4; Sw 5; Sw 6].

(** what a user does with objects of one class *)
Inductive op :=
| New (n : nat) (v : nat -> V)    (* construct an object with the given member contents *)
| CopyC (n m : nat)               (* T n(m); *)
| MoveC (n m : nat)               (* T n(std::move(m)); *)
| CopyA (n m : nat)               (* n = m; *)
| MoveA (n m : nat)               (* n = std::move(m); *)
| Swap (n m : nat)                (* n.swap(m); *)
| Del (n : nat).                  (* the life of n ends *)

(** a constructed object: its supports are built for its own members, util::init_support, util.hpp:314-321 *)
Definition made (c : class) (a : addr) (v : nat -> V) : obj :=
  mkobj v (fun s => mksup (v (nth s (over c) 0)) (Some (a, nth s (over c) 0))).
Definition exec (c : class) (h : heap) (o : op) : option heap :=
  match o with
  | New n v => Some (upd h (U n) (Some (made c (U n) v)))
  | CopyC n m => k_cc c h (U n) (U m)
  | MoveC n m => k_mc c h (U n) (U m)
  | CopyA n m => k_ca c h (U n) (U m)
  | MoveA n m => k_ma c h (U n) (U m)
  | Swap n m => k_sw c h (U n) (U m)
  | Del n => Some (upd h (U n) None)
  end.
Fixpoint execs (c : class) (h : heap) (l : list op) : option heap :=
  match l with
  | [] => Some h
  | o :: l => let* h := exec c h o in execs c h l
  end.
Definition empty_heap : heap := fun _ => None.

(** what a query on object [n] reads: the content of data member [f], and for support [s] the content it was built for
    together with the content it finds through its pointer *)
Definition read (h : heap) (n f : nat) : option V := getv h (U n) f.
Definition query (h : heap) (n s : nat) : option (V * V) :=
  let* x := gets h (U n) s in
  match s_ptr x with
  | Some (a, f) => let* y := getv h a f in Some (s_built x, y)
  | None => None
  end.
End Life.
