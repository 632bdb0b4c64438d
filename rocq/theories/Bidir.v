(** * Bidirectional search (include/sdsl/suffix_array_algorithm.hpp:262-410) on csa_wt objects with a
      lexicographically ordered wavelet tree.

    Of a csa_wt the functions use the wavelet tree of the BWT and the alphabet; as in Csa.v the tree is the
    sequence it stores, with the lex_count answers that PropWt.v (wt_int) and PropWtPc.v (wt_blcd) prove.  Right
    borders r are represented by r+1, see Csa.v. *)
From Coq Require Import List Arith Bool Lia.
From Verif Require Import Base SpecBits AbsVec WtBase Alphabet Csa CsaSample.
Import ListNotations.

Record bd := mkbd { bd_wt : list nat; bd_al : alph }.
(* the constructor of csa_wt, csa_wt.hpp:303-333, without the samplings *)
Definition bd_make (a : akind) (T sa : list nat) : option bd :=
  let* b := construct_bwt T sa in let* al := make_alph a b in Some (mkbd b al).
(* wt.lex_count(i, j, c): rank of c, smaller and greater symbols in [i, j) *)
Definition w_lex (s : list nat) (i j c : nat) : option (nat * nat * nat) :=
  if (i <=? j) && (j <=? length s) then
    let sl := firstn (j - i) (skipn i s) in
    Some (rank_of (is_sym s c) i, length (filter (fun x => x <? c) sl), length (filter (fun x => c <? x) sl))
  else None.
(* bidirectional_search, lines 260-289: (l_fwd_res, r_fwd_res, l_bwd_res, r_bwd_res).  The parameter c has type
   csa_wt<>::char_type, which is uint8_t whatever the alphabet of csa_fwd is *)
Definition bidir (x : bd) (l r l' r' c : nat) : option (nat * nat * nat * nat) :=
  let c := c mod 256 in
  let* cb := c_begin (bd_al x) c in
  let* q := w_lex (bd_wt x) l r c in
  let '(rank_l, s, b) := q in
  let* d := csub (r - l) s in
  let* d := csub d b in
  let* e := csub r' b in
  Some (cb + rank_l, cb + (d + rank_l), l' + s, e).
(* bidirectional_search_backward, lines 325-353: the pattern from its end; [rp] is the reversed pattern *)
Fixpoint bidir_bwd_rev (x : bd) (l r l' r' : nat) (rp : list nat) : option (nat * nat * nat * nat) :=
  match rp with
  | [] => Some (l, r, l', r')
  | c :: t =>
    if 0 <? r - l then let* q := bidir x l r l' r' c in let '(l, r, l', r') := q in bidir_bwd_rev x l r l' r' t
    else Some (l, r, l', r')
  end.
Definition bidir_backward (fwd bwd : bd) (l r l' r' : nat) (P : list nat) := bidir_bwd_rev fwd l r l' r' (rev P).
(* bidirectional_search_forward, lines 381-412: the roles of the two indexes are swapped; the loop ends when the
   forward interval is empty *)
Fixpoint bidir_forward (fwd bwd : bd) (l r l' r' : nat) (P : list nat) : option (nat * nat * nat * nat) :=
  match P with
  | [] => Some (l, r, l', r')
  | c :: t =>
    if 0 <? r - l then let* q := bidir bwd l' r' l r c in let '(l', r', l, r) := q in bidir_forward fwd bwd l r l' r' t
    else Some (l, r, l', r')
  end.
