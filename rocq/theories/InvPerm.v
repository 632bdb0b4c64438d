(** * Model of inv_perm_support

    The permutation is a list of its values; bit vectors are lists of bool, with the rank support
    given by [rank_of] (C12-C14); the back pointers are an int_vector<> ([avec]).  An access outside
    a vector and exhausted fuel are [None]. *)
From Coq Require Import NArith List Bool Arith.
From Verif Require Import Base Bits SpecBits RankSelect AbsVec RrrVector.
Import ListNotations.

Section InvPerm.
Variable ts : nat.           (* t_s *)
Variable v : list nat.       (* *m_v *)

(** the loop over one cycle, inv_perm_support.hpp:87-104 (first pass) and 117-133 (second pass); the
    passes differ in what they do with a pair (position, back pointer): [act] *)
Fixpoint ip_cycle {A} (act : A -> nat -> nat -> option A) (fuel i j bp steps all : nat) (done : list bool) (st : A) : option (list bool * A) :=
  match fuel with
  | 0 => None
  | S fuel =>
    let* j_new := nth_error v j in
    if j_new =? i then
      if ts <? all then let* st := act st i bp in Some (done, st) else Some (done, st)
    else
      let* done := aset done j_new true in
      if ts =? steps + 1 then let* st := act st j_new bp in ip_cycle act fuel i j_new j_new 0 (all + 1) done st
      else ip_cycle act fuel i j_new bp (steps + 1) (all + 1) done st
  end.
(** the outer loop over the start positions, lines 84-106 and 114-135 *)
Fixpoint ip_pass {A} (act : A -> nat -> nat -> option A) (k i : nat) (done : list bool) (st : A) : option A :=
  match k with
  | 0 => Some st
  | S k =>
    let* d := nth_error done i in
    if d then ip_pass act k (S i) done st
    else
      let* done := aset done i true in
      let* (done, st) := ip_cycle act (length v + 1) i i i 0 0 done st in
      ip_pass act k (S i) done st
  end.
(** lines 93-96 and 101-104 *)
Definition ip_mark (st : list bool * nat) (j bp : nat) : option (list bool * nat) :=
  let* marked := aset (fst st) j true in Some (marked, Nat.max (snd st) bp).
(** m_rank_marked(j) *)
Definition ip_rank (marked : list bool) (j : nat) : nat := rank_of (fun p => nth p marked false) j.
(** lines 123-126 and 131 *)
Definition ip_store (marked : list bool) (st : avec) (j bp : nat) : option avec := avs st (ip_rank marked j) bp.

Record invperm := mkip { ip_marked : list bool; ip_bp : avec }.
(** constructor, lines 78-136 *)
Definition ip_make : option invperm :=
  let n := length v in
  let* (marked, mx) := ip_pass ip_mark n 0 (repeat false n) (repeat false n, 0) in
  let* bp := ip_pass (ip_store marked) n 0 (repeat false n) (av_new (ip_rank marked n) 0 (hiw (N.of_nat mx))) in
  Some (mkip marked bp).

(** operator[], lines 139-150: the inner loop *)
Fixpoint ip_walk (fuel i j : nat) : option nat :=
  match fuel with
  | 0 => None
  | S fuel => let* j_new := nth_error v j in if j_new =? i then Some j else ip_walk fuel i j_new
  end.
(** the outer loop.  When the inner loop ends, the test of the outer loop ends it as well.  The
    fuel bounds the total number of reads of the permutation, that last test excluded *)
Fixpoint ip_search (p : invperm) (fuel i j : nat) : option nat :=
  match fuel with
  | 0 => None
  | S fuel =>
    let* j_new := nth_error v j in
    if j_new =? i then Some j
    else
      let* m := nth_error (ip_marked p) j in
      if m then let* j := avn (ip_bp p) (ip_rank (ip_marked p) j) in ip_walk fuel i j
      else ip_search p fuel i j_new
  end.
Definition ip_get (p : invperm) (fuel i : nat) : option nat := ip_search p fuel i i.
End InvPerm.
