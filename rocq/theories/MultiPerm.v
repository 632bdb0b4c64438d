(** * Model of inv_multi_perm_support (wt_gmr.hpp:49-246)

    One int_vector holds several permutations one after the other, all of [cs] elements except for the
    last, which may be shorter; every value is relative to the start of its permutation.  Bit vectors
    are lists of bool, with the rank support given by [rank_of] (C12-C14); the back pointers are an
    int_vector<> ([avec]).  An access outside a vector, a subtraction below 0 and exhausted fuel are
    [None]. *)
From Coq Require Import NArith List Bool Arith.
From Verif Require Import Base Bits SpecBits RankSelect AbsVec RrrVector WtBase InvPerm.
Import ListNotations.

Section MultiPerm.
Variable ts : nat.           (* t_s *)
Variable cs : nat.           (* m_chunksize *)
Variable v : list nat.       (* iv, later *m_perm *)

(** the loop over one cycle, lines 89-106 (first pass) and 124-138 (second pass); the passes differ
    in what they do with a pair (position, back pointer - off): [act] *)
Fixpoint mp_cycle {A} (act : A -> nat -> nat -> option A) (fuel off i j bp steps all : nat) (done : list bool) (st : A) : option (list bool * A) :=
  match fuel with
  | 0 => None
  | S fuel =>
    let* x := nth_error v j in
    let j_new := x + off in
    if j_new =? i then
      if ts <? all then let* b := csub bp off in let* st := act st i b in Some (done, st) else Some (done, st)
    else
      let* o := csub j_new off in
      let* done := aset done o true in
      if ts =? steps + 1 then
        let* b := csub bp off in
        let* st := act st j_new b in mp_cycle act fuel off i j_new j_new 0 (all + 1) done st
      else mp_cycle act fuel off i j_new bp (steps + 1) (all + 1) done st
  end.
(** the outer loop, lines 81-108 and 116-141 *)
Fixpoint mp_pass {A} (act : A -> nat -> nat -> option A) (k i off : nat) (done : list bool) (st : A) : option A :=
  match k with
  | 0 => Some st
  | S k =>
    let (off, done) := if i =? off + cs then (i, repeat false cs) else (off, done) in
    let* o := csub i off in
    let* d := nth_error done o in
    if d then mp_pass act k (S i) off done st
    else
      let* done := aset done o true in
      let* (done, st) := mp_cycle act (length v + 1) off i i i 0 0 done st in
      mp_pass act k (S i) off done st
  end.
(** constructor, lines 75-142; the marking and the storing of a pair are those of inv_perm_support *)
Definition mp_make : option invperm :=
  let n := length v in
  let* (marked, mx) := mp_pass ip_mark n 0 0 (repeat false cs) (repeat false n, 0) in
  let* bp := mp_pass (ip_store marked) n 0 0 (repeat false cs) (av_new (ip_rank marked n) 0 (hiw (N.of_nat mx))) in
  Some (mkip marked bp).

(** operator[], lines 204-217: the inner loop *)
Fixpoint mp_walk (fuel off i j : nat) : option nat :=
  match fuel with
  | 0 => None
  | S fuel => let* x := nth_error v j in if x + off =? i then Some j else mp_walk fuel off i (x + off)
  end.
(** the outer loop; fuel as in [ip_search] *)
Fixpoint mp_search (p : invperm) (fuel off i j : nat) : option nat :=
  match fuel with
  | 0 => None
  | S fuel =>
    let* x := nth_error v j in
    if x + off =? i then Some j
    else
      let* m := nth_error (ip_marked p) j in
      if m then let* b := avn (ip_bp p) (ip_rank (ip_marked p) j) in mp_walk fuel off i (b + off)
      else mp_search p fuel off i (x + off)
  end.
Definition mp_get (p : invperm) (fuel i : nat) : option nat := mp_search p fuel (i / cs * cs) i i.
End MultiPerm.
