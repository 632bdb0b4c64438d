(** * What the wavelet trees use of the layers below them.

    The tree bit vector is the list of its bits.  Rank and select answers are the
    ones proved for the supports in PropRank.v and PropSelect.v: rank is defined
    for 0..size(), select for 1..number of matching bits.  Anything else is
    undefined behaviour ([None]). *)
From Coq Require Import NArith ZArith List Lia Bool Arith.
From Verif Require Import Base SpecBits AbsVec.
Import ListNotations.

Definition t_bit (t : list bool) (p : nat) : bool := nth p t false.
(* bit_vector::operator[] const *)
Definition t_get (t : list bool) (p : nat) : option bool := nth_error t p.
(* rank_1_type::operator() *)
Definition t_rank (t : list bool) (p : nat) : option nat :=
  if p <=? length t then Some (rank_of (t_bit t) p) else None.
(* select_1_type::operator() and select_0_type::operator() *)
Definition t_sel1 (t : list bool) (i : nat) : option nat :=
  if i =? 0 then None else nth_error (positions (t_bit t) (length t)) (i - 1).
Definition t_sel0 (t : list bool) (i : nat) : option nat :=
  if i =? 0 then None else nth_error (positions (fun q => negb (t_bit t q)) (length t)) (i - 1).

(* unsigned subtraction, an underflow is reported as [None] (the code would wrap) *)
Definition csub (a b : nat) : option nat := if b <=? a then Some (a - b) else None.

(* int_vector_buffer<>: assignment to element [k] of a growing buffer (PropIvb.v, C35) *)
Definition bput (l : list N) (k : nat) (x : N) : list N := upd (l ++ repeat 0%N (k + 1 - length l)) k x.

(** the word-wise output of the tree bits: include/sdsl/wt_int.hpp:197-225,
    include/sdsl/wm_int.hpp:155-186: the words already written to the file, the
    current word and the number of bits *)
Record twr : Type := mktw { tw_out : list N; tw_word : N; tw_pos : nat }.
Definition tw_new : twr := mktw [] 0 0.
(* one round: set the bit if needed, ++tree_pos, write the word when it is full *)
Definition tw_emit (t : twr) (b : bool) : option twr :=
  let* word := (if b then let* m := shl_c 1 (tw_pos t mod 64) in Some (N.lor (tw_word t) m) else Some (tw_word t)) in
  let pos := tw_pos t + 1 in
  if pos mod 64 =? 0 then Some (mktw (tw_out t ++ [word]) 0 pos) else Some (mktw (tw_out t) word pos).
(* the final partial word; then load_from_file: the first [n] bits of the words
   (reading words that are not in the file is an error) *)
Definition tw_close (t : twr) (n : nat) : option (list bool) :=
  let out := if tw_pos t mod 64 =? 0 then tw_out t else tw_out t ++ [tw_word t] in
  if (n + 63) / 64 <=? length out then Some (mbits_n out n) else None.
