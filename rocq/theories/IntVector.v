(** * Model of sdsl::int_vector (include/sdsl/int_vector.hpp), of the part of
    memory_manager that manages its storage (include/sdsl/memory_management.hpp) and of
    the int_vector utilities of include/sdsl/util.hpp. *)
From Coq Require Import NArith ZArith List Bool Arith.
From Verif Require Import Base Bits.
Import ListNotations.

(** int_vector<t_width>: m_size (in bits), m_data, m_width; int_vector.hpp:323-327.
    [iv_data = []] is a null pointer: every allocation has at least one word. *)
Record ivec := mkiv { iv_size : nat; iv_data : mem; iv_width : nat }.

(** int_vector::size/bit_size/capacity/empty, int_vector.hpp:392-424, 362-365 *)
Definition iv_len (v : ivec) : nat := iv_size v / iv_width v.
Definition iv_capacity (v : ivec) : nat := (iv_size v + 63) / 64 * 64.
Definition iv_empty (v : ivec) : bool := iv_size v =? 0.

(** int_vector_trait<t_width>::set_width, int_vector.hpp:146-155 (and the specialisations,
    which do nothing).  [tw] is the template argument, 0 for a vector of dynamic width. *)
Definition set_width (tw new_width old : nat) : nat :=
  if tw =? 0 then if (0 <? new_width) && (new_width <=? 64) then new_width else 64 else old.
Definition iv_set_width (tw : nat) (v : ivec) (w : nat) : ivec :=
  mkiv (iv_size v) (iv_data v) (set_width tw w (iv_width v)).

(** ** Storage *)

(** memory_manager::realloc_mem (memory_management.hpp:313-323 / realloc(3)): keeps the common
    prefix, the fresh words have unknown content [g]. *)
Definition mrealloc (g : nat -> N) (m : mem) (n : nat) : mem :=
  map (fun i => if i <? length m then nth i m 0%N else g i) (seq 0 n).

(** memory_manager::resize, memory_management.hpp:344-375.  Sizes in bits.
    Failing allocations (std::bad_alloc) and the memory monitor are not modelled. *)
Definition iv_bit_resize (g : nat -> N) (v : ivec) (size : nat) : option ivec :=
  let old_words := (iv_size v + 63) / 64 in
  let new_words := (size + 63) / 64 in
  let do_realloc := negb (old_words =? new_words) in
  if do_realloc || (length (iv_data v) =? 0) then
    let m := mrealloc g (iv_data v) ((size + 64) / 64) in
    let cap := (size + 63) / 64 * 64 in
    let* m := (if size <? cap then write_int m (size / 64) 0 (size mod 64) (cap - size) else Some m) in
    let* m := (if size mod 64 =? 0 then st m (size / 64) 0 else Some m) in
    Some (mkiv size m (iv_width v))
  else Some (mkiv size (iv_data v) (iv_width v)).

(** int_vector::resize, int_vector.hpp:377-380 *)
Definition iv_resize (g : nat -> N) (v : ivec) (n : nat) : option ivec :=
  iv_bit_resize g v (n * iv_width v).

(** ** Element access *)

(** int_vector::get_int / set_int, int_vector.hpp:1331-1357 (without the SDSL_DEBUG checks) *)
Definition iv_get_int (v : ivec) (idx len : nat) : option N :=
  read_int (iv_data v) (idx / 64) (idx mod 64) len.
Definition iv_set_int (v : ivec) (idx : nat) (x : N) (len : nat) : option ivec :=
  let* m := write_int (iv_data v) (idx / 64) x (idx mod 64) len in
  Some (mkiv (iv_size v) m (iv_width v)).

(** const operator[], int_vector.hpp:1389-1402 (generic and dynamic width) *)
Definition iv_get (v : ivec) (i : nat) : option N := iv_get_int v (i * iv_width v) (iv_width v).

(** const operator[] of int_vector<8|16|32|64>, int_vector.hpp:1404-1434: a load of [k] bits at
    index [i] of an array of [k]-bit integers (little endian) *)
Definition iv_get_sub (k : nat) (v : ivec) (i : nat) : option N :=
  let* x := ld (iv_data v) (i * k / 64) in Some (N.land (shr x (i * k mod 64)) (lo_set k)).
(** store through the reference of int_vector<8|16|32|64>, int_vector.hpp:1366-1388 *)
Definition iv_set_sub (k : nat) (v : ivec) (i : nat) (x : N) : option ivec :=
  let o := i * k mod 64 in
  let* w := ld (iv_data v) (i * k / 64) in
  let w' := N.lor (N.land w (wnot (shl (lo_set k) o))) (shl (N.land x (lo_set k)) o) in
  let* m := st (iv_data v) (i * k / 64) w' in
  Some (mkiv (iv_size v) m (iv_width v)).

(** const operator[] of bit_vector, int_vector.hpp:1436-1442 *)
Definition bv_get (v : ivec) (i : nat) : option bool :=
  let* x := ld (iv_data v) (i / 64) in Some (negb (N.land (shr x (i mod 64)) 1 =? 0)%N).
(** int_vector_reference<bit_vector>, int_vector.hpp:775-809: cast to bool and assignment *)
Definition bv_ref_get (v : ivec) (i : nat) : option bool :=
  let* x := ld (iv_data v) (i / 64) in
  Some (negb (N.land x (shl 1 (i mod 64)) =? 0)%N).
Definition bv_ref_set (v : ivec) (i : nat) (b : bool) : option ivec :=
  let mask := shl 1 (i mod 64) in
  let* x := ld (iv_data v) (i / 64) in
  let x' := if b then N.lor x mask else N.land x (wnot mask) in
  let* m := st (iv_data v) (i / 64) x' in
  Some (mkiv (iv_size v) m (iv_width v)).

(** int_vector_reference, int_vector.hpp:629-729, obtained from operator[] (1359-1364):
    read, assign, increment, decrement, += and -=, and swap of two references *)
Definition iv_ref_get (v : ivec) (i : nat) : option N :=
  let p := i * iv_width v in read_int (iv_data v) (p / 64) (p mod 64) (iv_width v).
Definition iv_ref_set (v : ivec) (i : nat) (x : N) : option ivec :=
  let p := i * iv_width v in
  let* m := write_int (iv_data v) (p / 64) x (p mod 64) (iv_width v) in
  Some (mkiv (iv_size v) m (iv_width v)).
Definition iv_ref_inc (v : ivec) (i : nat) : option ivec :=
  let* x := iv_ref_get v i in iv_ref_set v i (wadd x 1).
Definition iv_ref_dec (v : ivec) (i : nat) : option ivec :=
  let* x := iv_ref_get v i in iv_ref_set v i (wsub x 1).
Definition iv_ref_add (v : ivec) (i : nat) (y : N) : option ivec :=
  let* x := iv_ref_get v i in iv_ref_set v i (wadd x y).
Definition iv_ref_sub (v : ivec) (i : nat) (y : N) : option ivec :=
  let* x := iv_ref_get v i in iv_ref_set v i (wsub x y).
(** swap(int_vector_reference, int_vector_reference), int_vector.hpp:732-740; the assignment
    [x = y] is operator=(const int_vector_reference&) 658-661 *)
Definition iv_ref_swap (v : ivec) (i j : nat) : option ivec :=
  let* tmp := iv_ref_get v i in
  let* y := iv_ref_get v j in
  let* v := iv_ref_set v i y in
  iv_ref_set v j tmp.

(** int_vector::flip, int_vector.hpp:583-591 (capacity words are complemented) *)
Definition word_map (f : N -> N) (m : mem) (k : nat) : option mem :=
  if k <=? length m then Some (map f (firstn k m) ++ skipn k m) else None.
Definition iv_flip (v : ivec) : option ivec :=
  if iv_empty v then Some v else
  let* m := word_map wnot (iv_data v) (iv_capacity v / 64) in
  Some (mkiv (iv_size v) m (iv_width v)).

(** operator&=, |=, ^=, int_vector.hpp:1517-1545: word-wise over v.capacity()>>6 words *)
Fixpoint word_op (f : N -> N -> N) (k : nat) (m m2 : mem) : option mem :=
  match k with
  | 0 => Some m
  | S k' => match m, m2 with
            | a :: m', b :: m2' => let* r := word_op f k' m' m2' in Some (f a b :: r)
            | _, _ => None
            end
  end.
Definition iv_bitop (f : N -> N -> N) (v v2 : ivec) : option ivec :=
  let* m := word_op f (iv_capacity v2 / 64) (iv_data v) (iv_data v2) in
  Some (mkiv (iv_size v) m (iv_width v)).

(** ** util.hpp: filling *)

(** util::_set_zero_bits and _set_one_bits, util.hpp:445-468: the first capacity>>6 words *)
Definition fill_words (x : N) (v : ivec) : option ivec :=
  if iv_empty v then Some v else
  let* m := word_map (fun _ => x) (iv_data v) (iv_capacity v / 64) in
  Some (mkiv (iv_size v) m (iv_width v)).

(** the do-while loop of util::set_to_value, util.hpp:491-501; state: vec, offset, n.
    The shift [k >> (int_width-(offset-64))] has distance 64 when int_width is 64 and offset
    is 64: [sr] says what such a shift does ([shr_c]: undefined). *)
Fixpoint pat_loop (sr : N -> nat -> option N) (fuel : nat) (k : N) (w : nat)
  (vec : mem) (off n : nat) : option (mem * nat) :=
  match fuel with
  | 0 => None
  | S f =>
      let* x := ld vec n in
      let* vec := st vec n (N.lor x (shl k off)) in
      let off := off + w in
      let* (vec, off, n) :=
        (if 64 <=? off then
           let* vec := st vec (n + 1) 0 in
           let* y := sr k (w - (off - 64)) in
           let* vec := st vec (n + 1) y in
           Some (vec, off - 64, n + 1)
         else Some (vec, off, n)) in
      if off =? 0 then Some (vec, n) else pat_loop sr f k w vec off n
  end.

(** the copy loop util.hpp:503-508: word i of the vector becomes vec[i mod n] *)
Fixpoint copy_pat (vec : mem) (n : nat) (todo : nat) (ii : nat) (m : mem) : option mem :=
  match todo with
  | 0 => Some m
  | S t => match m with
           | [] => None
           | _ :: m' => let* x := ld vec ii in
                        let ii' := if S ii =? n then 0 else S ii in
                        let* r := copy_pat vec n t ii' m' in Some (x :: r)
           end
  end.

(** util::set_to_value, util.hpp:470-509 *)
Definition iv_set_to_value (sr : N -> nat -> option N) (v : ivec) (k : N) : option ivec :=
  if iv_empty v then Some v else
  let w := iv_width v in
  if w =? 0 then None (* throws std::logic_error *) else
  if (k =? 0)%N then fill_words 0 v else
  if (lo_set w =? k)%N then fill_words (lo_set 64) v else
  let* msk := shr_c (lo_set 64) (64 - w) in
  let k := N.land k msk in
  let* (vec, n) := pat_loop sr 65 k w (repeat 0%N 67) 0 0 in
  let* m := copy_pat vec n (iv_capacity v / 64) 0 (iv_data v) in
  Some (mkiv (iv_size v) m (iv_width v)).

(** ** Constructors, assignment *)

(** int_vector(size, default_value, intWidth), int_vector.hpp:1249-1256 *)
Definition iv_new (sr : N -> nat -> option N) (g : nat -> N) (tw n : nat) (k : N) (w : nat) : option ivec :=
  let v := mkiv 0 [] tw in
  let v := iv_set_width tw v w in
  let* v := iv_resize g v n in
  iv_set_to_value sr v k.

(** memcpy of [k] words *)
Definition copy_words (dst src : mem) (k : nat) : option mem :=
  if (k <=? length dst) && (k <=? length src) then Some (firstn k src ++ skipn k dst) else None.

(** copy constructor, int_vector.hpp:1266-1277 *)
Definition iv_copy (g : nat -> N) (tw : nat) (v : ivec) : option ivec :=
  let* r := iv_bit_resize g (mkiv 0 [] (iv_width v)) (iv_size v) in
  let* m := (if 0 <? iv_capacity v then copy_words (iv_data r) (iv_data v) (iv_capacity v / 8 / 8)
             else Some (iv_data r)) in
  Some (iv_set_width tw (mkiv (iv_size r) m (iv_width r)) (iv_width v)).

(** operator=(const int_vector&), int_vector.hpp:1279-1292, for two different objects *)
Definition iv_assign (g : nat -> N) (tw : nat) (t v : ivec) : option ivec :=
  let* r := iv_bit_resize g t (iv_size v) in
  let* m := (if 0 <? iv_size v then copy_words (iv_data r) (iv_data v) (iv_capacity v / 8 / 8)
             else Some (iv_data r)) in
  Some (iv_set_width tw (mkiv (iv_size r) m (iv_width r)) (iv_width v)).

(** move constructor 1258-1264: the new object and the moved-from object *)
Definition iv_move (v : ivec) : ivec * ivec := (v, mkiv 0 [] (iv_width v)).

(** swap, int_vector.hpp:1308-1322 *)
Definition iv_swap (tw : nat) (a b : ivec) : ivec * ivec :=
  (mkiv (iv_size b) (iv_data b) (set_width tw (iv_width b) (iv_width a)),
   mkiv (iv_size a) (iv_data a) (set_width tw (iv_width a) (iv_width b))).

(** ** Iterators: int_vector_iterator / int_vector_const_iterator, int_vector.hpp:851-1228.
    The word pointer is an index relative to m_data (a [Z], so that pointer arithmetic is
    unrestricted); m_offset is a uint8_t.  The iterators of int_vector<8|16|32|64> are raw pointers
    and are not modelled here. *)
Record iter := mkit { it_word : Z; it_off : nat; it_len : nat }.

(** constructor from a vector and a bit index, 864-866, 893-895 *)
Definition iter_at (w : nat) (idx : nat) : iter := mkit (Z.of_nat (idx / 64)) (idx mod 64) w.
(** begin() / end(), 131-146, 554-578 *)
Definition iv_begin (v : ivec) : iter := iter_at (iv_width v) 0.
Definition iv_end (v : ivec) : iter := iter_at (iv_width v) (iv_len v * iv_width v).

(** operator++, 911-919 *)
Definition iter_inc (it : iter) : iter :=
  let o := (it_off it + it_len it) mod 256 in
  if 64 <=? o then mkit (it_word it + 1) (o mod 64) (it_len it) else mkit (it_word it) o (it_len it).
(** operator--, 930-938 *)
Definition iter_dec (it : iter) : iter :=
  let o := (it_off it + 256 - it_len it) mod 256 in
  if 64 <=? o then mkit (it_word it - 1) (o mod 64) (it_len it) else mkit (it_word it) o (it_len it).

(** operator+= / operator-= for a non-negative distance, 948-972: [t>>6] and [t&0x3F] *)
Definition iter_add_nat (it : iter) (i : nat) : iter :=
  let t := i * it_len it in
  let o := (it_off it + t mod 64) mod 256 in
  if negb (o / 64 =? 0) then mkit (it_word it + Z.of_nat (t / 64) + 1) (o mod 64) (it_len it)
  else mkit (it_word it + Z.of_nat (t / 64)) o (it_len it).
Definition iter_sub_nat (it : iter) (i : nat) : iter :=
  let t := i * it_len it in
  let o := (it_off it + 256 - t mod 64) mod 256 in
  if negb (o / 64 =? 0) then mkit (it_word it - Z.of_nat (t / 64) - 1) (o mod 64) (it_len it)
  else mkit (it_word it - Z.of_nat (t / 64)) o (it_len it).
(** operator+=, operator-= with a signed distance (no overflow of difference_type) *)
Definition iter_add (it : iter) (i : Z) : iter :=
  if (i <? 0)%Z then iter_sub_nat it (Z.to_nat (- i)) else iter_add_nat it (Z.to_nat i).
Definition iter_sub (it : iter) (i : Z) : iter :=
  if (i <? 0)%Z then iter_add_nat it (Z.to_nat (- i)) else iter_sub_nat it (Z.to_nat i).

(** comparisons, 1000-1032 *)
Definition iter_eq (a b : iter) : bool := (it_word b =? it_word a)%Z && (it_off b =? it_off a).
Definition iter_lt (a b : iter) : bool :=
  if (it_word a =? it_word b)%Z then it_off a <? it_off b else (it_word a <? it_word b)%Z.
Definition iter_gt (a b : iter) : bool :=
  if (it_word a =? it_word b)%Z then it_off b <? it_off a else (it_word b <? it_word a)%Z.
(** difference, 1033-1036, 1216-1222; C++ division truncates *)
Definition iter_diff (a b : iter) : Z :=
  Z.quot ((it_word a - it_word b) * 64 + Z.of_nat (it_off a) - Z.of_nat (it_off b)) (Z.of_nat (it_len a)).

(** const_iterator::operator*, 1095-1102 *)
Definition citer_get (m : mem) (it : iter) : option N :=
  if (it_word it <? 0)%Z then None else
  let w := Z.to_nat (it_word it) in
  if it_off it + it_len it <=? 64 then
    let* x := ld m w in Some (N.land (shr x (it_off it)) (lo_set (it_len it)))
  else
    let* x := ld m w in
    let* y := ld m (w + 1) in
    let* z := shl_c (N.land y (lo_set ((it_off it + it_len it) mod 64))) (64 - it_off it) in
    Some (N.lor (shr x (it_off it)) z).
(** iterator::operator* 905-908 followed by a read or an assignment of the reference *)
Definition iter_get (m : mem) (it : iter) : option N :=
  if (it_word it <? 0)%Z then None else
  read_int m (Z.to_nat (it_word it)) (it_off it) (it_len it).
Definition iter_set (m : mem) (it : iter) (x : N) : option mem :=
  if (it_word it <? 0)%Z then None else
  write_int m (Z.to_nat (it_word it)) x (it_off it) (it_len it).

(** ** Comparison operators of int_vector *)

(** the word loop of operator==, int_vector.hpp:1452-1457 *)
Fixpoint eq_words (k : nat) (m1 m2 : mem) (p : nat) : option bool :=
  match k with
  | 0 => Some true
  | S k' => let* a := ld m1 p in
            let* b := ld m2 p in
            if (a =? b)%N then eq_words k' m1 m2 (S p) else Some false
  end.
(** operator==, int_vector.hpp:1443-1460 *)
Definition iv_eqb (v1 v2 : ivec) : option bool :=
  if negb (iv_capacity v1 =? iv_capacity v2) then Some false else
  if negb (iv_size v1 =? iv_size v2) then Some false else
  if iv_empty v1 then Some true else
  let k := iv_capacity v1 / 64 - 1 in
  let* b := eq_words k (iv_data v1) (iv_data v2) 0 in
  if negb b then Some false else
  let l := 64 - (iv_capacity v1 - iv_size v1) in
  let* a := ld (iv_data v2) k in
  let* b := ld (iv_data v1) k in
  Some (N.land a (lo_set l) =? N.land b (lo_set l))%N.

(** operator< and operator>, int_vector.hpp:1462-1490, with const iterators *)
Fixpoint cmp_loop (op : N -> N -> bool) (fuel : nat) (m1 m2 : mem) (it en it2 : iter) : option (option bool) :=
  match fuel with
  | 0 => None
  | S f =>
      if iter_eq it en then Some None else
      let* a := citer_get m1 it in
      let* b := citer_get m2 it2 in
      if (a =? b)%N then cmp_loop op f m1 m2 (iter_inc it) en (iter_inc it2)
      else Some (Some (op a b))
  end.
Definition iv_ltb (v1 v2 : ivec) : option bool :=
  let mn := if iv_len v2 <? iv_len v1 then iv_len v2 else iv_len v1 in
  let* r := cmp_loop N.ltb (S mn) (iv_data v1) (iv_data v2) (iv_begin v1)
                     (iter_add (iv_begin v1) (Z.of_nat mn)) (iv_begin v2) in
  match r with Some b => Some b | None => Some (iv_len v1 <? iv_len v2) end.
Definition iv_gtb (v1 v2 : ivec) : option bool :=
  let mn := if iv_len v2 <? iv_len v1 then iv_len v2 else iv_len v1 in
  let* r := cmp_loop (fun a b => N.ltb b a) (S mn) (iv_data v1) (iv_data v2) (iv_begin v1)
                     (iter_add (iv_begin v1) (Z.of_nat mn)) (iv_begin v2) in
  match r with Some b => Some b | None => Some (iv_len v2 <? iv_len v1) end.
(** operator<= and operator>=, 1492-1502 *)
Definition iv_leb (v1 v2 : ivec) : option bool :=
  let* e := iv_eqb v1 v2 in if e then Some true else iv_ltb v1 v2.
Definition iv_geb (v1 v2 : ivec) : option bool :=
  let* e := iv_eqb v1 v2 in if e then Some true else iv_gtb v1 v2.

(** ** Serialisation.  A stream is a list of bytes; little endian. *)
Fixpoint le_bytes (n : nat) (x : N) : list N :=
  match n with 0 => [] | S n' => (x mod 256)%N :: le_bytes n' (x / 256)%N end.
Fixpoint le_val (l : list N) : N :=
  match l with [] => 0%N | b :: t => (b + 256 * le_val t)%N end.
(** in.read of [n] bytes; a short read (stream error) is [None] *)
Definition take_bytes (n : nat) (s : list N) : option (list N * list N) :=
  if n <=? length s then Some (firstn n s, skipn n s) else None.

(** write_header, int_vector.hpp:603-610 with write_member (io.hpp:85-93): returns
    the bytes and the count of bytes *)
Definition write_header (tw size w : nat) : list N * nat :=
  let b := le_bytes 8 (N.of_nat size) in
  if tw =? 0 then (b ++ le_bytes 1 (N.of_nat w), 8 + 1) else (b, 8).
(** out.write of [k] words from word [p] *)
Fixpoint words_bytes (m : mem) (p k : nat) : option (list N) :=
  match k with
  | 0 => Some []
  | S k' => let* x := ld m p in let* r := words_bytes m (S p) k' in Some (le_bytes 8 x ++ r)
  end.
(** write_data, int_vector.hpp:1547-1562; [B] is conf::SDSL_BLOCK_SIZE *)
Fixpoint write_data_loop (B fuel : nat) (m : mem) (words idx written : nat) : option (list N * nat) :=
  match fuel with
  | 0 => None
  | S f =>
    if idx + B <? words then
      let* b := words_bytes m idx B in
      let* (r, n) := write_data_loop B f m words (idx + B) (written + B * 8) in
      Some (b ++ r, n)
    else
      let* b := words_bytes m idx (words - idx) in
      Some (b, written + (words - idx) * 8)
  end.
Definition iv_write_data (B : nat) (v : ivec) : option (list N * nat) :=
  let words := iv_capacity v / 64 in write_data_loop B (S words) (iv_data v) words 0 0.
(** serialize, int_vector.hpp:1564-1581 *)
Definition iv_serialize (B tw : nat) (v : ivec) (fixed_as_var : bool) : option (list N * nat) :=
  let '(h, hn) := if (0 <? tw) && fixed_as_var then write_header 0 (iv_size v) tw
                  else write_header tw (iv_size v) (iv_width v) in
  let* (d, dn) := iv_write_data B v in
  Some (h ++ d, hn + dn).

(** read_header, int_vector.hpp:594-600: size, width (unchanged for fixed width), rest *)
Definition read_header (tw w : nat) (s : list N) : option (nat * nat * list N) :=
  let* (b, s) := take_bytes 8 s in
  if tw =? 0 then
    let* (c, s) := take_bytes 1 s in
    Some (N.to_nat (le_val b), N.to_nat (le_val c), s)
  else Some (N.to_nat (le_val b), w, s).
(** in.read of [k] words into word [p] *)
Fixpoint read_words (m : mem) (p k : nat) (s : list N) : option (mem * list N) :=
  match k with
  | 0 => Some (m, s)
  | S k' => let* (b, s) := take_bytes 8 s in
            let* m := st m p (le_val b) in
            read_words m (S p) k' s
  end.
Fixpoint load_loop (B fuel : nat) (m : mem) (words idx : nat) (s : list N) : option (mem * list N) :=
  match fuel with
  | 0 => None
  | S f =>
    if idx + B <? words then
      let* (m, s) := read_words m idx B s in
      load_loop B f m words (idx + B) s
    else read_words m idx (words - idx) s
  end.
(** load, int_vector.hpp:1583-1597: the loaded vector and the rest of the stream *)
Definition iv_load (B : nat) (g : nat -> N) (tw : nat) (v : ivec) (s : list N) : option (ivec * list N) :=
  let* (size, w, s) := read_header tw (iv_width v) s in
  let* v := iv_bit_resize g (mkiv (iv_size v) (iv_data v) w) size in
  let words := iv_capacity v / 64 in
  let* (m, s) := load_loop B (S words) (iv_data v) words 0 s in
  Some (mkiv (iv_size v) m (iv_width v), s).

(** ** util.hpp: width changes *)

(** std::max_element over the elements (util.hpp:405-409), as a loop over the indices;
    the result is 0 for an empty vector *)
Fixpoint max_loop (v : ivec) (i todo : nat) (mx : N) : option N :=
  match todo with
  | 0 => Some mx
  | S t => let* x := iv_get v i in max_loop v (S i) t (if (mx <? x)%N then x else mx)
  end.
(** the copy loop of bit_compress, util.hpp:417-420 *)
Fixpoint compress_loop (todo : nat) (m : mem) (rw ro ww wo ow nw : nat) : option mem :=
  match todo with
  | 0 => Some m
  | S t => let* (x, rw, ro) := read_int_and_move m rw ro ow in
           let* (m, ww, wo) := write_int_and_move m ww x wo nw in
           compress_loop t m rw ro ww wo ow nw
  end.
(** util::bit_compress, util.hpp:402-424 *)
Definition iv_bit_compress (g : nat -> N) (tw : nat) (v : ivec) : option ivec :=
  let* mx := max_loop v 0 (iv_len v) 0 in
  let nw := N.to_nat (hi mx) + 1 in
  let ow := iv_width v in
  if nw <? ow then
    let* m := compress_loop (iv_len v) (iv_data v) 0 0 0 0 ow nw in
    let v1 := mkiv (iv_size v) m ow in
    let* v2 := iv_bit_resize g v1 (iv_len v1 * nw) in
    Some (iv_set_width tw v2 nw)
  else Some v.

(** loop of expand_width, util.hpp:437-439: [todo] elements remain, the next one is
    number todo-1; positions are recomputed from it (new_pos = (todo-1)*new_width, ...) *)
Fixpoint expand_loop (todo : nat) (v : ivec) (ow nw : nat) : option ivec :=
  match todo with
  | 0 => Some v
  | S t => let* x := iv_get_int v (t * ow) ow in
           let* v := iv_set_int v (t * nw) x nw in
           expand_loop t v ow nw
  end.
(** util::expand_width, util.hpp:426-443 *)
Definition iv_expand_width (g : nat -> N) (tw : nat) (v : ivec) (nw : nat) : option ivec :=
  let ow := iv_width v in
  let n := iv_len v in
  if ow <? nw then
    let* v := (if 0 <? n then
                 let* v := iv_bit_resize g v (iv_len v * nw) in expand_loop n v ow nw
               else Some v) in
    Some (iv_set_width tw v nw)
  else Some v.

(** util::mod, util.hpp:394-400; [i] runs over the elements; m = 0 is undefined *)
Fixpoint mod_loop (v : ivec) (m : N) (i todo : nat) : option ivec :=
  match todo with
  | 0 => Some v
  | S t => let* x := iv_ref_get v i in
           if (m =? 0)%N then None else
           let* v := iv_ref_set v i (x mod m)%N in mod_loop v m (S i) t
  end.
Definition iv_mod (v : ivec) (m : N) : option ivec := mod_loop v m 0 (iv_len v).

(** util::set_to_id, util.hpp:511-516: std::iota(begin, end, 0ULL) *)
Fixpoint iota_loop (fuel : nat) (m : mem) (it en : iter) (x : N) : option mem :=
  match fuel with
  | 0 => None
  | S f => if iter_eq it en then Some m else
           let* m := iter_set m it x in iota_loop f m (iter_inc it) en (wadd x 1)
  end.
Definition iv_set_to_id (v : ivec) : option ivec :=
  let* m := iota_loop (S (iv_len v)) (iv_data v) (iv_begin v) (iv_end v) 0 in
  Some (mkiv (iv_size v) m (iv_width v)).

(** ** util.hpp: counting and scanning *)

(** the loop [for i=1; i < capacity>>6] that adds [f(word, carry)]; returns
    sum, carry after the last word, carry before the last word *)
Fixpoint cnt_loop (f : N -> N -> N * N) (todo p : nat) (m : mem) (c oc acc : N) : option (N * N * N) :=
  match todo with
  | 0 => Some (acc, c, oc)
  | S t => let* x := ld m p in
           let '(n, c') := f x c in
           cnt_loop f t (S p) m c' c (acc + n)%N
  end.
(** util::cnt_one_bits, util.hpp:518-534 *)
Definition iv_cnt_one_bits (v : ivec) : option N :=
  if iv_empty v then Some 0%N else
  let words := iv_capacity v / 64 in
  let* (r, _, _) := cnt_loop (fun x c => (cnt x, c)) words 0 (iv_data v) 0 0 0 in
  if negb (iv_size v mod 64 =? 0) then
    let* x := ld (iv_data v) (words - 1) in
    Some (r - cnt (N.land x (wnot (lo_set (iv_size v mod 64)))))%N
  else Some r.
(** util::cnt_onezero_bits, util.hpp:536-552 and cnt_zeroone_bits, util.hpp:554-570.
    lo_unset[k] is ~lo_set[k] *)
Definition iv_cnt_pat (f : N -> N -> N * N) (mp : N -> N -> N) (c0 : N) (v : ivec) : option N :=
  if iv_empty v then Some 0%N else
  let words := iv_capacity v / 64 in
  let* (r, _, oc) := cnt_loop f words 0 (iv_data v) c0 c0 0 in
  if negb (iv_size v mod 64 =? 0) then
    let* x := ld (iv_data v) (words - 1) in
    Some (r - cnt (N.land (mp x oc) (wnot (lo_set (iv_size v mod 64)))))%N
  else Some r.
Definition iv_cnt_onezero_bits : ivec -> option N := iv_cnt_pat cnt10c map10 0.
Definition iv_cnt_zeroone_bits : ivec -> option N := iv_cnt_pat cnt01c map01 1.

(** util::next_bit, util.hpp:572-590 *)
Fixpoint next_loop (fuel : nat) (v : ivec) (pos : nat) : option nat :=
  match fuel with
  | 0 => None
  | S f =>
    if pos * 64 <? iv_size v then
      let* x := ld (iv_data v) pos in
      if negb (x =? 0)%N then Some (pos * 64 + N.to_nat (lo x)) else next_loop f v (S pos)
    else Some (iv_size v)
  end.
Definition iv_next_bit (v : ivec) (idx : nat) : option nat :=
  let pos := idx / 64 in
  let* x := ld (iv_data v) pos in
  let node := shr x (idx mod 64) in
  if negb (node =? 0)%N then Some (idx + N.to_nat (lo node))
  else next_loop (S (iv_size v)) v (S pos).

(** util::prev_bit, util.hpp:592-610.  The loop decrements an unsigned word index: below
    word 0 the index is 2^64-1 and [pos<<6] is 2^64-64. *)
Definition prev_wrap (v : ivec) : option nat :=
  if (W64 - 64 <? N.of_nat (iv_size v))%N then None else Some (iv_size v).
Fixpoint prev_loop (v : ivec) (pos : nat) : option nat :=
  if pos * 64 <? iv_size v then
    let* x := ld (iv_data v) pos in
    if negb (x =? 0)%N then Some (pos * 64 + N.to_nat (hi x))
    else match pos with 0 => prev_wrap v | S p => prev_loop v p end
  else Some (iv_size v).
Definition iv_prev_bit (v : ivec) (idx : nat) : option nat :=
  let pos := idx / 64 in
  let* x := ld (iv_data v) pos in
  let node := shl x (63 - idx mod 64) in
  if negb (node =? 0)%N then Some (N.to_nat (hi node) + pos * 64 - (63 - idx mod 64))
  else match pos with 0 => prev_wrap v | S p => prev_loop v p end.
