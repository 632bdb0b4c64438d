(** * Model of rmq_support_sparse_table (include/sdsl/rmq_support_sparse_table.hpp)

    The container is a list of values; positions and shifts are natural numbers.  An int_vector is a list whose elements are
    stored modulo 2^width (C04); [tset] is the assignment through operator[]. *)
From Coq Require Import NArith List Bool Arith.
From Verif Require Import Base AbsVec WtBase.
Import ListNotations.

(** min_max_trait<t_rac, t_min>::compare, rmq_support.hpp:26-44 *)
Definition mm_compare (t_min : bool) (a b : N) : bool := if t_min then (a <=? b)%N else (b <=? a)%N.

(** m_table[i][j] = x, where m_table[i] has width w *)
Definition tset (tab : list (list nat)) (i j w x : nat) : option (list (list nat)) :=
  let* row := nth_error tab i in let* row := aset row j (x mod 2 ^ w) in aset tab i row.
Definition tget (tab : list (list nat)) (i j : nat) : option nat := let* row := nth_error tab i in nth_error row j.

(** rmq_support_sparse_table.hpp:87-88: while (2*(1ULL<<k) < n) ++k *)
Fixpoint st_levels (fuel n k : nat) : option nat :=
  match fuel with
  | 0 => None
  | S f => if 2 * 2 ^ k <? n then st_levels f n (k + 1) else Some k
  end.
(** rmq_support_sparse_table.hpp:94-97: the first table *)
Fixpoint st_first (t_min : bool) (v : list N) (is : list nat) (tab : list (list nat)) : option (list (list nat)) :=
  match is with
  | [] => Some tab
  | i :: is =>
    let* a := nth_error v i in let* b := nth_error v (i + 1) in
    if negb (mm_compare t_min a b) then let* tab := tset tab 0 i 1 1 in st_first t_min v is tab else st_first t_min v is tab
  end.
(** rmq_support_sparse_table.hpp:99-101: one table from the one before *)
Fixpoint st_row (t_min : bool) (v : list N) (i : nat) (js : list nat) (tab : list (list nat)) : option (list (list nat)) :=
  match js with
  | [] => Some tab
  | j :: js =>
    let* x := tget tab (i - 1) j in
    let* y := tget tab (i - 1) (j + 2 ^ i) in
    let* a := nth_error v (j + x) in
    let* b := nth_error v (j + 2 ^ i + y) in
    let* tab := tset tab i j (i + 1) (if mm_compare t_min a b then x else 2 ^ i + y) in
    st_row t_min v i js tab
  end.
Fixpoint st_rows (t_min : bool) (v : list N) (is : list nat) (tab : list (list nat)) : option (list (list nat)) :=
  match is with
  | [] => Some tab
  | i :: is => let* row := nth_error tab i in let* tab := st_row t_min v i (seq 0 (length row)) tab in st_rows t_min v is tab
  end.
(** rmq_support_sparse_table.hpp:80-103: the constructor.  n - 2^(i+1) + 1 does not underflow: [csub]. *)
Definition st_make (t_min : bool) (v : list N) : option (list (list nat)) :=
  let n := length v in
  if n <? 2 then Some []
  else
    let* k := st_levels (n + 1) n 0 in
    let tab := map (fun i => repeat 0 (n - 2 ^ (i + 1) + 1)) (seq 0 k) in
    let* tab := st_first t_min v (seq 0 (n - 1)) tab in
    st_rows t_min v (seq 1 (k - 1)) tab.
(** rmq_support_sparse_table.hpp:159-170: operator()(l, r) for l <= r *)
Definition st_query (t_min : bool) (v : list N) (tab : list (list nat)) (l r : nat) : option nat :=
  if l =? r then Some l
  else if l + 1 =? r then let* a := nth_error v l in let* b := nth_error v r in Some (if mm_compare t_min a b then l else r)
  else
    let k := Nat.log2 (r - l) in
    let* k1 := csub k 1 in
    let* rr := csub (r + 1) (2 ^ k) in
    let* x := tget tab k1 l in
    let* y := tget tab k1 rr in
    let* a := nth_error v (l + x) in
    let* b := nth_error v (rr + y) in
    Some (if mm_compare t_min a b then l + x else rr + y).
