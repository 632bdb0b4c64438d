(** * The alphabet strategies (include/sdsl/csa_alphabet_strategy.hpp, lib/csa_alphabet_strategy.cpp)

    Symbols, counts and compact codes are [nat]; an out of range access is [None].
    Counts stay below the length of the text, which fits the 64-bit counters. *)
From Coq Require Import List Arith Bool Lia.
From Verif Require Import Base SpecBits AbsVec WtBase.
Import ListNotations.

(** the interface the CSAs use: char2comp[c], comp2char[k], C[k], sigma *)
Record alph := mkal { al_c2c : nat -> option nat; al_c2ch : nat -> option nat; al_C : list nat; al_sigma : nat }.

(* ++D[text_buf[i]]: csa_alphabet_strategy.cpp:37-39, csa_alphabet_strategy.hpp:288-290 *)
Fixpoint count_syms (D t : list nat) : option (list nat) :=
  match t with
  | [] => Some D
  | c :: t' => let* x := nth_error D c in let* D' := aset D c (x + 1) in count_syms D' t'
  end.

(* csa_alphabet_strategy.cpp:42-48: [k] symbols left, at symbol [i]; compactifies C in place *)
Fixpoint ba_compact (k i : nat) (C c2c c2ch : list nat) (sigma : nat) : option (list nat * list nat * list nat * nat) :=
  match k with
  | 0 => Some (C, c2c, c2ch, sigma)
  | S k' =>
    let* x := nth_error C i in
    if x =? 0 then ba_compact k' (S i) C c2c c2ch sigma
    else
      let* c2c' := aset c2c i sigma in
      let* c2ch' := aset c2ch sigma i in
      let* C' := aset C sigma x in
      ba_compact k' (S i) C' c2c' c2ch' (S sigma)
  end.

(* for (int i=sigma; i > 0; --i) C[i] = C[i-1]: csa_alphabet_strategy.cpp:51 *)
Fixpoint shift_up (i : nat) (C : list nat) : option (list nat) :=
  match i with
  | 0 => Some C
  | S i' => let* x := nth_error C i' in let* C' := aset C i x in shift_up i' C'
  end.

(* for (int i=1; i <= sigma; ++i) C[i] += C[i-1]: csa_alphabet_strategy.cpp:53; [k] iterations left, at [i] *)
Fixpoint prefix_sums (k i : nat) (C : list nat) : option (list nat) :=
  match k with
  | 0 => Some C
  | S k' => let* x := nth_error C i in let* y := nth_error C (i - 1) in let* C' := aset C i (x + y) in prefix_sums k' (S i) C'
  end.

(* byte_alphabet::byte_alphabet(text_buf, len): csa_alphabet_strategy.cpp:25-55.  char2comp and comp2char are
   int_vector<8>: every stored code is below 256 because there are at most 256 symbols.  resize truncates. *)
Definition ba_make (t : list nat) : option alph :=
  if length t =? 0 then Some (mkal (fun _ => None) (fun _ => None) [] 0)
  else
    let* C := count_syms (repeat 0 257) t in
    let* r := ba_compact 256 0 C (repeat 0 256) (repeat 0 256) 0 in
    let '(C, c2c, c2ch, sigma) := r in
    let c2ch := firstn sigma c2ch in
    let C := firstn (sigma + 1) C in
    let* C := shift_up sigma C in
    let* C := aset C 0 0 in
    let* C := prefix_sums sigma 1 C in
    Some (mkal (nth_error c2c) (nth_error c2ch) C sigma).

(* a write to the bit-compressed int_vector m_C of width bits::hi(len)+1: a value that does not fit is an error *)
Definition wset (w : nat) (l : list nat) (i x : nat) : option (list nat) := if x <? 2 ^ w then aset l i x else None.

(* succinct_byte_alphabet, csa_alphabet_strategy.hpp:293-298: marks the symbols and compactifies D *)
Fixpoint sba_compact (k i : nat) (D : list nat) (m : list bool) (sigma : nat) : option (list nat * list bool * nat) :=
  match k with
  | 0 => Some (D, m, sigma)
  | S k' =>
    let* x := nth_error D i in
    if x =? 0 then sba_compact k' (S i) D m sigma
    else
      let* m' := aset m i true in
      let* D' := aset D sigma x in
      sba_compact k' (S i) D' m' (S sigma)
  end.

(* for (int i=sigma; i > 0; --i) m_C[i] = D[i-1]: csa_alphabet_strategy.hpp:302 *)
Fixpoint sba_fill (w i : nat) (D C : list nat) : option (list nat) :=
  match i with
  | 0 => Some C
  | S i' => let* x := nth_error D i' in let* C' := wset w C i x in sba_fill w i' D C'
  end.
(* csa_alphabet_strategy.hpp:304 *)
Fixpoint sba_sums (w k i : nat) (C : list nat) : option (list nat) :=
  match k with
  | 0 => Some C
  | S k' => let* x := nth_error C i in let* y := nth_error C (i - 1) in let* C' := wset w C i (x + y) in sba_sums w k' (S i) C'
  end.

(* char2comp_wrapper and comp2char_wrapper over a marker bit vector: csa_alphabet_strategy.hpp:215-240, 414-450 *)
Definition mk_c2c (m : list bool) (c : nat) : option nat :=
  if length m <=? c then Some 0
  else let* b := t_get m c in if negb b then Some 0 else t_rank m c.
Definition mk_c2ch (m : list bool) (k : nat) : option nat := t_sel1 m (k + 1).

(* succinct_byte_alphabet::succinct_byte_alphabet(text_buf, len): csa_alphabet_strategy.hpp:277-309 *)
Definition sba_make (t : list nat) : option alph :=
  if length t =? 0 then Some (mkal (mk_c2c []) (mk_c2ch []) [] 0)
  else
    let* D := count_syms (repeat 0 257) t in
    let* r := sba_compact 256 0 D (repeat false 256) 0 in
    let '(D, m, sigma) := r in
    let w := Nat.log2 (length t) + 1 in
    let C := repeat 0 (sigma + 1) in
    let* C := sba_fill w sigma D C in
    let* C := wset w C 0 0 in
    let* C := sba_sums w sigma 1 C in
    Some (mkal (mk_c2c m) (mk_c2ch m) C sigma).

(* std::map<size_type,size_type>: the association list sorted by key; D[c]++ *)
Fixpoint map_inc (D : list (nat * nat)) (c : nat) : list (nat * nat) :=
  match D with
  | [] => [(c, 1)]
  | (k, v) :: D' => if c <? k then (c, 1) :: D else if c =? k then (k, v + 1) :: D' else (k, v) :: map_inc D' c
  end.
(* int_alphabet: csa_alphabet_strategy.hpp:508-510 *)
Definition map_count (t : list nat) : list (nat * nat) := fold_left map_inc t [].

(* the marker loop: csa_alphabet_strategy.hpp:516-520 *)
Fixpoint ia_mark (D : list (nat * nat)) (m : list bool) : option (list bool) :=
  match D with [] => Some m | (k, _) :: D' => let* m' := aset m k true in ia_mark D' m' end.
(* csa_alphabet_strategy.hpp:529-533 *)
Fixpoint ia_fill (w : nat) (D : list (nat * nat)) (C : list nat) (sum idx : nat) : option (list nat * nat * nat) :=
  match D with
  | [] => Some (C, sum, idx)
  | (_, v) :: D' => let* C' := wset w C idx sum in ia_fill w D' C' (sum + v) (idx + 1)
  end.

(* int_alphabet::int_alphabet(text_buf, len): csa_alphabet_strategy.hpp:498-535; char2comp/comp2char: 414-450 *)
Definition ia_make (t : list nat) : option alph :=
  if length t =? 0 then Some (mkal (fun _ => Some 0) (fun c => Some c) [] 0)
  else
    let D := map_count t in
    let sigma := length D in
    let largest := fst (last D (0, 0)) in
    let* m := (if largest + 1 =? sigma then Some [] else ia_mark D (repeat false (largest + 1))) in
    let w := Nat.log2 (length t) + 1 in
    let* r := ia_fill w D (repeat 0 (sigma + 1)) 0 0 in
    let '(C, sum, idx) := r in
    let* C := wset w C idx sum in
    Some (if 0 <? length m then mkal (mk_c2c m) (mk_c2ch m) C sigma
          else mkal (fun c => if sigma <=? c then Some 0 else Some c) (fun c => Some c) C sigma).
