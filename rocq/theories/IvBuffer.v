(** * Model of int_vector_buffer (include/sdsl/int_vector_buffer.hpp)

    A file is the list of its bytes.  m_ifile and m_ofile are two streams on the same file; every
    write is flushed before the next read (write_block calls flush), so the file is one value.
    Writing behind the end fills the gap with zero bytes, and a read behind the end delivers fewer
    bytes and leaves the rest of the buffer unchanged.  Streams never fail (asserts are compiled out).
    Sizes and positions are [nat]. *)
From Coq Require Import NArith List Bool Arith.
From Verif Require Import Base Bits IntVector.
Import ListNotations.

(** the bytes of the words of a vector, and words from bytes: (char* ) m_buffer.data() *)
Definition mem_bytes (m : mem) : list N := flat_map (le_bytes 8) m.
Definition to_words (l : list N) : mem := map (fun i => le_val (firstn 8 (skipn (8 * i) l))) (seq 0 (length l / 8)).
(** ostream::write of the first [nb] bytes of [m] at file position [pos] *)
Definition f_put (F : list N) (pos : nat) (bs : list N) : list N :=
  match bs with [] => F | _ => firstn pos (F ++ repeat 0%N (pos - length F)) ++ bs ++ skipn (pos + length bs) F end.
Definition f_write (F : list N) (pos : nat) (m : mem) (nb : nat) : option (list N) :=
  if nb <=? 8 * length m then Some (f_put F pos (firstn nb (mem_bytes m))) else None.
(** istream::read of [nb] bytes at file position [pos] into the first bytes of [m] *)
Definition f_read (F : list N) (pos : nat) (m : mem) (nb : nat) : option mem :=
  if nb <=? 8 * length m then
    let got := firstn nb (skipn pos F) in Some (to_words (got ++ skipn (length got) (mem_bytes m)))
  else None.

(** members, int_vector_buffer.hpp:46-55 *)
Record ivb := mkb { b_file : list N; b_buf : ivec; b_dirty : bool; b_off : nat; b_bs : nat; b_size : nat; b_begin : nat }.

Section Ivb.
Variable sr : N -> nat -> option N.   (* shift by 64 in set_to_value, see IntVector.v *)
Variable g : nat -> N.                (* contents of fresh memory *)
Variable tw : nat.                    (* t_width *)

(** width(), int_vector_buffer.hpp:237-240 *)
Definition b_width (b : ivb) : nat := iv_width (b_buf b).
(** lines 69-71 *)
Fixpoint b_zero (k i : nat) (v : ivec) : option ivec :=
  match k with 0 => Some v | S k => let* v := iv_ref_set v i 0 in b_zero k (S i) v end.
(** read_block, lines 58-74 *)
Definition b_read_block (b : ivb) (idx : nat) : option ivb :=
  let bg := idx / b_bs b * b_bs b in
  let* buf :=
    if b_size b <=? bg then iv_set_to_value sr (b_buf b) 0
    else
      let* m := f_read (b_file b) (b_off b + bg * b_width b / 8) (iv_data (b_buf b)) (b_bs b * b_width b / 8) in
      b_zero (b_bs b - (b_size b - bg)) (b_size b - bg) (mkiv (iv_size (b_buf b)) m (iv_width (b_buf b))) in
  Some (mkb (b_file b) buf (b_dirty b) (b_off b) (b_bs b) (b_size b) bg).
(** write_block, lines 77-93 *)
Definition b_write_block (b : ivb) : option ivb :=
  if b_dirty b then
    let nb := if b_size b <=? b_begin b + b_bs b then ((b_size b - b_begin b) * b_width b + 7) / 8 else b_bs b * b_width b / 8 in
    let* F := f_write (b_file b) (b_off b + b_begin b * b_width b / 8) (iv_data (b_buf b)) nb in
    Some (mkb F (b_buf b) false (b_off b) (b_bs b) (b_size b) (b_begin b))
  else Some b.
(** lines 100-103, 112-115 *)
Definition b_load (b : ivb) (idx : nat) : option ivb :=
  if (idx <? b_begin b) || (b_begin b + b_bs b <=? idx) then let* b := b_write_block b in b_read_block b idx else Some b.
(** read, lines 96-105 *)
Definition b_read (b : ivb) (idx : nat) : option (ivb * N) :=
  let* b := b_load b idx in let* x := iv_ref_get (b_buf b) (idx - b_begin b) in Some (b, x).
(** write, lines 108-121 *)
Definition b_write (b : ivb) (idx : nat) (x : N) : option ivb :=
  let* b := b_load b idx in
  let size := if b_size b <=? idx then idx + 1 else b_size b in
  let* buf := iv_ref_set (b_buf b) (idx - b_begin b) x in
  Some (mkb (b_file b) buf true (b_off b) (b_bs b) size (b_begin b)).
(** push_back, lines 323-326 *)
Definition b_push (b : ivb) (x : N) : option ivb := b_write b (b_size b) x.
(** operator+= and -= of a reference, lines 459-472 (++ and -- are the case x = 1, lines 421-456) *)
Definition b_add (b : ivb) (idx : nat) (x : N) : option ivb := let* (b, y) := b_read b idx in b_write b idx (wadd y x).
Definition b_sub (b : ivb) (idx : nat) (x : N) : option ivb := let* (b, y) := b_read b idx in b_write b idx (wsub y x).
(** buffersize(n), lines 262-276 *)
Definition b_set_bs (b : ivb) (n : nat) : option ivb :=
  let n := if n =? 0 then 8 else n in
  let* b := b_write_block b in
  let w := b_width b in
  let bs := if (n * 8) mod w =? 0 then n * 8 / w else let e := n * 8 / w + 1 in e + 7 - (e + 7) mod 8 in
  let* buf := iv_new sr g tw bs 0 w in
  let b := mkb (b_file b) buf (b_dirty b) (b_off b) bs (b_size b) (b_begin b) in
  if bs =? 0 then Some b else b_read_block b 0.
(** reset, lines 291-308: opening for output truncates the file *)
Definition b_reset (b : ivb) : option ivb := b_read_block (mkb [] (b_buf b) false (b_off b) (b_bs b) 0 (b_begin b)) 0.
(** close, lines 332-357 (remove_file = false): the file *)
Definition b_close (b : ivb) : option (list N) :=
  let* b := b_write_block b in
  if 0 <? b_off b then
    let size := b_size b * b_width b in
    let F := f_put (b_file b) 0 (fst (write_header tw size (b_width b))) in
    let wb := (size + 7) / 8 in
    Some (if wb mod 8 =? 0 then F else f_put F (b_off b + wb) (repeat 0%N (8 - wb mod 8)))
  else Some (b_file b).

Definition b_offset (plain : bool) : nat := if plain then 0 else if tw =? 0 then 9 else 8.
(** constructor, lines 142-177, mode out: the file is truncated *)
Definition b_create (plain : bool) (w n : nat) : option ivb :=
  b_set_bs (mkb [] (iv_set_width tw (mkiv 0 [] tw) w) false (b_offset plain) 8 0 0) n.
(** constructor, mode in: the file exists *)
Definition b_open (plain : bool) (F : list N) (w n : nat) : option ivb :=
  let v := iv_set_width tw (mkiv 0 [] tw) w in
  let* (size, v) :=
    if plain then Some (length F * 8, v)
    else let* (size, w', _) := read_header tw 0 F in Some (size, iv_set_width tw v w') in
  b_set_bs (mkb F v false (b_offset plain) 8 (size / iv_width v) 0) n.
End Ivb.

(** ** Histories *)
Inductive b_op :=
| BRead (i : nat)              (* x = b[i] *)
| BWrite (i : nat) (x : N)     (* b[i] = x *)
| BPush (x : N)                (* b.push_back(x) *)
| BAdd (i : nat) (x : N)       (* b[i] += x, ++b[i] *)
| BSub (i : nat) (x : N)       (* b[i] -= x, --b[i] *)
| BBuffer (n : nat)            (* b.buffersize(n) *)
| BReset.                      (* b.reset() *)
Definition b_step sr g tw (b : ivb) (o : b_op) : option (ivb * list N) :=
  match o with
  | BRead i => let* (b, x) := b_read sr b i in Some (b, [x])
  | BWrite i x => let* b := b_write sr b i x in Some (b, [])
  | BPush x => let* b := b_push sr b x in Some (b, [])
  | BAdd i x => let* b := b_add sr b i x in Some (b, [])
  | BSub i x => let* b := b_sub sr b i x in Some (b, [])
  | BBuffer n => let* b := b_set_bs sr g tw b n in Some (b, [])
  | BReset => let* b := b_reset sr b in Some (b, [])
  end.
(** the values read, in order *)
Fixpoint b_run sr g tw (b : ivb) (ops : list b_op) : option (ivb * list N) :=
  match ops with
  | [] => Some (b, [])
  | o :: r => let* (b, out) := b_step sr g tw b o in let* (b, out') := b_run sr g tw b r in Some (b, out ++ out')
  end.
