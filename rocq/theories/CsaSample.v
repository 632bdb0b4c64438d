(** * Sampling strategies of the CSAs (include/sdsl/csa_sampling_strategy.hpp)

    [sa] / [isa] are the contents of the cached suffix array and inverse suffix array, [d] is sample_dens (>= 1, a
    template argument).  Marker bit vectors are lists of bits with the rank and select answers of WtBase.v; a write into
    the sample vector must fit its width (wset). *)
From Coq Require Import List Arith Bool Lia.
From Verif Require Import Base SpecBits AbsVec WtBase Alphabet Csa.
Import ListNotations.

(** ** _sa_order_sampling *)
(* constructor loop, 92-98 *)
Fixpoint sao_loop (w d : nat) (sa : list nat) (cnt_mod cnt_sum : nat) (v : list nat) : option (list nat) :=
  match sa with
  | [] => Some v
  | p :: sa' =>
    if d =? cnt_mod then let* v' := wset w v cnt_sum p in sao_loop w d sa' 1 (cnt_sum + 1) v'
    else sao_loop w d sa' (cnt_mod + 1) cnt_sum v
  end.
(* constructor, 85-99 *)
Definition sao_make (d : nat) (sa : list nat) : option (list nat) :=
  let n := length sa in
  sao_loop (Nat.log2 n + 1) d sa d 0 (repeat 0 ((n + d - 1) / d)).
(* is_sampled, operator[], 102-111 *)
Definition sao_smp (d : nat) (v : list nat) : smp := mksmp (fun i => Some (i mod d =? 0)) (fun i => nth_error v (i / d)).

(** ** _text_order_sampling *)
(* constructor loop, 162-168 *)
Fixpoint txo_loop (w d : nat) (sa : list nat) (i sa_cnt : nat) (marked : list bool) (v : list nat) : option (list bool * list nat) :=
  match sa with
  | [] => Some (marked, v)
  | p :: sa' =>
    if p mod d =? 0 then
      let* marked' := aset marked i true in
      let* v' := wset w v sa_cnt (p / d) in
      txo_loop w d sa' (i + 1) (sa_cnt + 1) marked' v'
    else txo_loop w d sa' (i + 1) sa_cnt marked v
  end.
(* constructor, 154-171 *)
Definition txo_make (d : nat) (sa : list nat) : option (list bool * list nat) :=
  let n := length sa in
  txo_loop (Nat.log2 (n / d) + 1) d sa 0 0 (repeat false n) (repeat 0 ((n + d - 1) / d)).
(* is_sampled, operator[], 182-191 *)
Definition txo_smp (d : nat) (m : list bool) (v : list nat) : smp :=
  mksmp (t_get m) (fun i => let* r := t_rank m i in let* x := nth_error v r in Some (x * d)).

(** ** _fuzzy_sa_sampling *)
(* the scan of one block, 308-317: [k] positions from j on *)
Fixpoint fz_scan (k : nat) (isa : list nat) (n mpv j pos_min pos_cnd : nat) : option (nat * nat) :=
  match k with
  | 0 => Some (pos_min, pos_cnd)
  | S k' =>
    if j <? n then
      let* x := nth_error isa j in
      let* y := nth_error isa pos_min in
      let pos_min' := if x <? y then j else pos_min in
      let* pos_cnd' :=
        (if mpv <=? x then
           if pos_cnd =? n then Some j
           else let* z := nth_error isa pos_cnd in Some (if x <? z then j else pos_cnd)
         else Some pos_cnd) in
      fz_scan k' isa n mpv (j + 1) pos_min' pos_cnd'
    else Some (pos_min, pos_cnd)
  end.
(* the loop over the blocks, 304-326 *)
Fixpoint fz_loop (f w d : nat) (isa : list nat) (n i mpv cnt : nat) (misa msa : list bool) (ip : list nat) : option (list bool * list bool * list nat) :=
  match f with
  | 0 => None
  | S f' =>
    if i <? n then
      let* x := nth_error isa i in
      let* mc := fz_scan (d - 1) isa n mpv (i + 1) i (if mpv <=? x then i else n) in
      let '(pos_min, pos_cnd) := mc in
      let pos := if pos_cnd =? n then pos_min else pos_cnd in
      let* mpv' := nth_error isa pos in
      let* misa' := aset misa pos true in
      let* ip' := wset w ip cnt mpv' in
      let* msa' := aset msa mpv' true in
      fz_loop f' w d isa n (i + d) mpv' (cnt + 1) misa' msa' ip'
    else Some (misa, msa, ip)
  end.
(* 331-333: inv_perm[i] = rank_marked_sa(inv_perm[i]) *)
Fixpoint fz_ranks (msa : list bool) (ip : list nat) : option (list nat) :=
  match ip with [] => Some [] | x :: ip' => let* r := t_rank msa x in let* rs := fz_ranks msa ip' in Some (r :: rs) end.
Record fuzzy := mkfz { fz_msa : list bool; fz_misa : list bool; fz_ip : list nat }.
(* constructor, 285-345 (the wavelet tree m_inv_perm is the sequence it stores) *)
Definition fz_make (d : nat) (isa : list nat) : option fuzzy :=
  let n := length isa in
  let* r := fz_loop (S n) (Nat.log2 n + 1) d isa n 0 0 0 (repeat false n) (repeat false n) (repeat 0 ((n + d - 1) / d)) in
  let '(misa, msa, ip) := r in
  let* ip' := fz_ranks msa ip in
  Some (mkfz msa misa ip').
(* is_sampled, operator[], 361-370 *)
Definition fz_smp (z : fuzzy) : smp :=
  mksmp (t_get (fz_msa z)) (fun i => let* r := t_rank (fz_msa z) i in let* k := w_select (fz_ip z) 1 r in t_sel1 (fz_misa z) (k + 1)).

(** ** _bwt_sampling, constructor 496-534: marked[i] iff sa % dens = 0 or bwt[i] is a sample character; operator[] 551-554 *)
Fixpoint bws_loop (d : nat) (chars sa bwt : list nat) : option (list bool * list nat) :=
  match sa, bwt with
  | [], [] => Some ([], [])
  | p :: sa', c :: bwt' =>
    let* r := bws_loop d chars sa' bwt' in
    let b := (p mod d =? 0) || existsb (Nat.eqb c) chars in
    Some (b :: fst r, if b then p :: snd r else snd r)
  | _, _ => None
  end.
Definition bws_smp (d : nat) (m : list bool) (v : list nat) : smp :=
  mksmp (t_get m) (fun i => let* r := t_rank m i in let* x := nth_error v r in Some (x * d)).

(** ** _isa_sampling *)
(* constructor loop, 636-641 *)
Fixpoint iss_loop (w d : nat) (sa : list nat) (i : nat) (v : list nat) : option (list nat) :=
  match sa with
  | [] => Some v
  | p :: sa' =>
    if p mod d =? 0 then let* v' := wset w v (p / d) i in iss_loop w d sa' (i + 1) v'
    else iss_loop w d sa' (i + 1) v
  end.
(* constructor, 626-642 *)
Definition iss_make (d : nat) (sa : list nat) : option (list nat) :=
  let n := length sa in
  let m := if 1 <=? n then (n - 1) / d + 1 else 0 in
  iss_loop (Nat.log2 n + 1) d sa 0 (repeat 0 m).
(* sample_leq and sample_qeq, 651-664 *)
Definition iss_ismp (d : nat) (v : list nat) : ismp :=
  mkismp (fun i => let ci := i / d in let* x := nth_error v ci in Some (x, ci * d))
         (fun i => if length v =? 0 then None else
                   let ci := (i / d + 1) mod length v in let* x := nth_error v ci in Some (x, ci * d)).

(** ** _text_order_isa_sampling_support: sample_leq and sample_qeq, 736-749, over the text order samples [v] marked by
    [m]; m_inv_perm[ci] is the position of ci in [v] (C38) *)
Definition txi_ismp (d : nat) (m : list bool) (v : list nat) : ismp :=
  mkismp (fun i => let ci := i / d in let* k := w_select v 1 ci in let* x := t_sel1 m (k + 1) in Some (x, ci * d))
         (fun i => if length v =? 0 then None else
                   let ci := (i / d + 1) mod length v in let* k := w_select v 1 ci in let* x := t_sel1 m (k + 1) in Some (x, ci * d)).

(** ** _fuzzy_isa_sampling_support *)
(* the returned tuple: m_select_marked_sa(m_sa_p->inv(ci)+1), j *)
Definition fz_out (z : fuzzy) (ci j : nat) : option (nat * nat) :=
  let* r := nth_error (fz_ip z) ci in let* x := t_sel1 (fz_msa z) (r + 1) in Some (x, j).
(* sample_leq 861-876, sample_qeq 879-894 *)
Definition fz_ismp (d : nat) (z : fuzzy) : ismp :=
  mkismp (fun i =>
            let ci := i / d in
            let* j := t_sel1 (fz_misa z) (ci + 1) in
            if i <? j then
              let* ci' := (if 0 <? ci then Some (ci - 1) else csub (length (fz_ip z)) 1) in
              let* j' := t_sel1 (fz_misa z) (ci' + 1) in fz_out z ci' j'
            else fz_out z ci j)
         (fun i =>
            let ci := i / d in
            let* j := t_sel1 (fz_misa z) (ci + 1) in
            if j <? i then
              let* last := csub (length (fz_ip z)) 1 in
              let ci' := if ci <? last then ci + 1 else 0 in
              let* j' := t_sel1 (fz_misa z) (ci' + 1) in fz_out z ci' j'
            else fz_out z ci j).

(** ** Building a CSA from a text and its suffix array *)
(* construct_isa, lib/construct_isa.cpp:17-21 *)
Fixpoint isa_loop (sa : list nat) (i : nat) (v : list nat) : option (list nat) :=
  match sa with [] => Some v | p :: sa' => let* v' := aset v p i in isa_loop sa' (i + 1) v' end.
Definition construct_isa (sa : list nat) : option (list nat) := isa_loop sa 0 (repeat 0 (length sa)).

(** the alphabet strategy *)
Inductive akind := ABYTE | ASUCC | AINT.
Definition make_alph (k : akind) (t : list nat) : option alph :=
  match k with ABYTE => ba_make t | ASUCC => sba_make t | AINT => ia_make t end.
(** the pair of sampling strategies; [d] = t_dens, [e] = t_inv_dens *)
Inductive sampling :=
| SaOrder (d e : nat)      (* sa_order_sa_sampling, isa_sampling *)
| TextOrder (d e : nat)    (* text_order_sa_sampling, isa_sampling *)
| Fuzzy (d e : nat)        (* fuzzy_sa_sampling, isa_sampling *)
| TextOrder2 (d : nat)     (* text_order_sa_sampling, text_order_isa_sampling_support *)
| Fuzzy2 (d : nat).        (* fuzzy_sa_sampling, fuzzy_isa_sampling_support *)
Definition make_sampling (s : sampling) (sa : list nat) : option (smp * ismp) :=
  match s with
  | SaOrder d e => let* v := sao_make d sa in let* w := iss_make e sa in Some (sao_smp d v, iss_ismp e w)
  | TextOrder d e => let* mv := txo_make d sa in let* w := iss_make e sa in Some (txo_smp d (fst mv) (snd mv), iss_ismp e w)
  | Fuzzy d e => let* isa := construct_isa sa in let* z := fz_make d isa in let* w := iss_make e sa in Some (fz_smp z, iss_ismp e w)
  | TextOrder2 d => let* mv := txo_make d sa in Some (txo_smp d (fst mv) (snd mv), txi_ismp d (fst mv) (snd mv))
  | Fuzzy2 d => let* isa := construct_isa sa in let* z := fz_make d isa in Some (fz_smp z, fz_ismp d z)
  end.
(** the index type: csa_wt, csa_sada with the sample density of its enc_vector and whether it keeps a buffer, csa_bitcompressed *)
Inductive ikind := KWT (s : sampling) | KSADA (sd : nat) (buf : bool) (s : sampling) | KBC.
(* the constructors from a cache_config: csa_wt.hpp:303-333, csa_sada.hpp:393-443, csa_bitcompressed.hpp:134-152.
   csa_bitcompressed uses both samplings with density 1; their operator[](i) then reads entry i/1. *)
Definition build (k : ikind) (a : akind) (T sa : list nat) : option csa :=
  match k with
  | KWT s =>
    let* b := construct_bwt T sa in
    let* al := make_alph a b in
    let* sm := make_sampling s sa in
    Some (csa_wt b al (fst sm) (snd sm))
  | KSADA sd buf s =>
    let* b := construct_bwt T sa in
    let* al := make_alph a b in
    let* psi := construct_psi b al in
    let* sm := make_sampling s sa in
    Some (csa_sada psi al sd buf (fst sm) (snd sm))
  | KBC =>
    let* al := make_alph a T in
    let* v := sao_make 1 sa in
    let* w := iss_make 1 sa in
    Some (csa_bitcompressed v w al)
  end.
