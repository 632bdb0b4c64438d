(** * Model of the alphabet-partitioned wavelet tree wt_ap (include/sdsl/wt_ap.hpp)

    Symbols, positions and counters are [nat].  The two wavelet trees over classes and the wavelet trees over the offsets are
    the sequences they store, with the rank, select and inverse_select answers proved for wavelet trees (C30-C34), see Csa.v.
    Temporary files hold what is written to them (C35).  Simplification: the class vectors are 8 bit wide in the code, which
    loses nothing as long as there are at most 256 classes (C62_construct).  [None] is undefined behaviour. *)
From Coq Require Import List Bool Arith.
From Verif Require Import Base SpecBits AbsVec WtBase Csa.
Import ListNotations.

(** m_size, m_sigma, m_singleton_class_cnt, m_class_cnt, m_char2class, m_class, m_offset; lines 68-74 *)
Record wtap := mkap { ap_n : nat; ap_sigma : nat; ap_single : nat; ap_cnt : nat; ap_c2c : list nat; ap_class : list nat; ap_off : list (list nat) }.

(** lines 130-141: (char_freq, max_symbol, pseudo_entries) *)
Fixpoint freq_loop (s : list nat) (cf : list (nat * nat)) (mx ps : nat) : option (list (nat * nat) * nat * nat) :=
  match s with
  | [] => Some (cf, mx, ps)
  | e :: s =>
    let k := e + 1 - mx in
    let cf := cf ++ map (fun x => (0, x)) (seq mx k) in
    let mx := mx + k in
    let ps := ps + k in
    let* y := nth_error cf e in
    let* ps := (if fst y =? 0 then csub ps 1 else Some ps) in
    let* cf := aset cf e (fst y + 1, snd y) in
    freq_loop s cf mx ps
  end.
(** std::sort(char_freq.rbegin(), char_freq.rend()), line 142: descending order of pairs; entries are distinct, so every
    sorting algorithm gives the same result *)
Definition pair_geb (a b : nat * nat) : bool := (fst b <? fst a) || ((fst a =? fst b) && (snd b <=? snd a)).
Fixpoint insert_desc (x : nat * nat) (l : list (nat * nat)) : list (nat * nat) :=
  match l with [] => [x] | y :: l' => if pair_geb x y then x :: l else y :: insert_desc x l' end.
Fixpoint sort_desc (l : list (nat * nat)) : list (nat * nat) := match l with [] => [] | x :: l => insert_desc x (sort_desc l) end.
(** m_char2class_buffer[char_freq[t].second] = i *)
Definition put_class (cf : list (nat * nat)) (cc : list nat) (t i : nat) : option (list nat) :=
  let* y := nth_error cf t in aset cc (snd y) i.
(** lines 153-155 *)
Fixpoint single_loop (cf : list (nat * nat)) (k i : nat) (cc : list nat) : option (list nat) :=
  match k with
  | 0 => Some cc
  | S k => let* cc := put_class cf cc i i in single_loop cf k (i + 1) cc
  end.
(** lines 163-165; [room] is class_size - offset *)
Fixpoint class_fill (cf : list (nat * nat)) (sigma i room cur : nat) (cc : list nat) : option (list nat * nat) :=
  match room with
  | 0 => Some (cc, cur)
  | S room =>
    if cur <? sigma then let* cc := put_class cf cc cur i in class_fill cf sigma i room (cur + 1) cc
    else Some (cc, cur)
  end.
(** lines 156-177 *)
Fixpoint class_loop (cf : list (nat * nat)) (sigma k i size cur : nat) (cc : list nat) : option (list nat * nat) :=
  match k with
  | 0 => Some (cc, cur)
  | S k =>
    let size := 2 * size in
    let* q := class_fill cf sigma i size cur cc in
    class_loop cf sigma k (i + 1) size (snd q) (fst q)
  end.
(** lines 188-197 *)
Fixpoint write_loop (cc : list nat) (single : nat) (s : list nat) (cl : list nat) (off : list (list nat)) : option (list nat * list (list nat)) :=
  match s with
  | [] => Some (cl, off)
  | ch :: s =>
    let* k := nth_error cc ch in
    let cl := cl ++ [k] in
    let* off := (if single <=? k then
                   let* o := w_rank cc ch k in
                   let* l := nth_error off (k - single) in
                   aset off (k - single) (l ++ [o])
                 else Some off) in
    write_loop cc single s cl off
  end.
(** the constructor, lines 112-220, for the whole sequence; bits::hi is the binary logarithm *)
Definition ap_make (s : list nat) : option wtap :=
  let* q := freq_loop s [] 0 0 in
  let '(cf, mx, ps) := q in
  let cf := sort_desc cf in
  let* sigma := csub mx ps in
  let single := Nat.min mx (Nat.log2 sigma) in
  let* rest := csub sigma single in
  let cnt := Nat.log2 (rest + 1) + single in
  let* cc := single_loop cf single 0 (repeat cnt mx) in
  let* q := class_loop cf sigma (cnt - single) single 1 single cc in
  let cc := fst q in
  let* w := write_loop cc single s [] (repeat [] (cnt - single)) in
  Some (mkap (length s) sigma single cnt cc (fst w) (snd w)).

(** try_get_char_class_offset, lines 90-100 *)
Definition ap_class_of (w : wtap) (c : nat) : option (option (nat * nat)) :=
  if length (ap_c2c w) <=? c then Some None
  else
    let* oc := w_isel (ap_c2c w) c in
    if snd oc =? ap_cnt w then Some None else Some (Some (snd oc, fst oc)).
(** operator[], lines 294-303 *)
Definition ap_get (w : wtap) (i : nat) : option nat :=
  let* tc := w_isel (ap_class w) i in
  let cl := snd tc in
  let* o := (if cl <? ap_single w then Some 0 else let* l := nth_error (ap_off w) (cl - ap_single w) in nth_error l (fst tc)) in
  w_select (ap_c2c w) (o + 1) cl.
(** rank, lines 317-330 *)
Definition ap_rank (w : wtap) (i c : nat) : option nat :=
  let* q := ap_class_of w c in
  match q with
  | None => Some 0
  | Some (cl, o) =>
    let* count := w_rank (ap_class w) i cl in
    if cl <? ap_single w then Some count else let* l := nth_error (ap_off w) (cl - ap_single w) in w_rank l count o
  end.
(** inverse_select, lines 339-352 *)
Definition ap_isel (w : wtap) (i : nat) : option (nat * nat) :=
  let* tc := w_isel (ap_class w) i in
  let cl := snd tc in
  if cl <? ap_single w then let* c := w_select (ap_c2c w) 1 cl in Some (fst tc, c)
  else
    let* l := nth_error (ap_off w) (cl - ap_single w) in
    let* r := w_isel l (fst tc) in
    let* c := w_select (ap_c2c w) (snd r + 1) cl in
    Some (fst r, c).
(** select, lines 365-379 *)
Definition ap_select (w : wtap) (i c : nat) : option nat :=
  let* q := ap_class_of w c in
  match q with
  | None => Some (ap_n w)
  | Some (cl, o) =>
    let* t := (if cl <? ap_single w then Some i
               else let* l := nth_error (ap_off w) (cl - ap_single w) in let* p := w_select l i o in Some (1 + p)) in
    w_select (ap_class w) t cl
  end.
