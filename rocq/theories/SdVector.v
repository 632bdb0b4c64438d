(** * Model of sd_vector: include/sdsl/sd_vector.hpp, lib/sd_vector.cpp.

    m_low is an int_vector<0> ([avec], AbsVec.v), m_high a bit_vector ([list bool]); the select
    supports of m_high are the specification [lsel] that select_support_mcl is proved to
    implement (C15).  Sizes and positions are nat; 2^64 bounds are hypotheses of the theorems. *)
From Coq Require Import NArith List Bool Arith.
From Verif Require Import Base Bits SpecBits IntVector AbsVec.
Import ListNotations.

(** select over a bit_vector (for the bit value [b]); an argument outside 1..count is [None] *)
Definition lbit (b : bool) (l : list bool) (k : nat) : bool := Bool.eqb (nth k l (negb b)) b.
Definition lsel (b : bool) (l : list bool) (i : nat) : option nat :=
  match i with 0 => None | S j => nth_error (positions (lbit b l) (length l)) j end.

Record sdv := mksd { sd_size : nat; sd_wl : nat; sd_low : avec; sd_high : list bool }.

(** logm and logn, sd_vector.hpp:190-195, 240-245, sd_vector.cpp:27-34 *)
Definition sd_logn (n : nat) : nat := hiw (N.of_nat n).
Definition sd_logm (n m : nat) : nat :=
  let lm := hiw (N.of_nat m) in if lm =? sd_logn n then lm - 1 else lm.

(** state of the construction: mm (m_items), last_high, highpos, m_low, high *)
Definition sdst : Type := nat * nat * nat * avec * list bool.
(** one position: sd_vector.hpp:207-213, 252-258 and sd_vector_builder::set, 90-100 *)
Definition sd_push (wl : nat) (s : sdst) (position : nat) : option sdst :=
  let '(mm, last_high, highpos, low, high) := s in
  let cur_high := position / 2 ^ wl in
  let highpos := highpos + cur_high - last_high in (* no underflow for ascending positions *)
  let* low := av_set low mm (N.of_nat position) in
  let* high := aset high highpos true in
  Some (S mm, cur_high, S highpos, low, high).
(** fresh state, sd_vector.hpp:196-199, 246-249, sd_vector.cpp:34-36 *)
Definition sd_start (n m : nat) : nat * sdst :=
  let logm := sd_logm n m in
  let wl := sd_logn n - logm in
  (wl, (0, 0, 0, av_new m 0 wl, repeat false (m + 2 ^ logm))).
Definition sd_finish (n wl : nat) (s : sdst) : sdv :=
  let '(_, _, _, low, high) := s in mksd n wl low high.

(** the while loop over the set bits of a word, sd_vector.hpp:203-217; at most 64 rounds *)
Fixpoint sd_word_loop (fuel : nat) (wl n : nat) (w : N) (position : nat) (s : sdst) : option sdst :=
  match fuel with
  | 0 => None
  | S f =>
    if (w =? 0)%N then Some s else
    let off := N.to_nat (lo w) in
    let w := shr w off in
    let position := position + off in
    if n <=? position then Some s else
    let* s := sd_push wl s position in
    sd_word_loop f wl n (shr w 1) (position + 1) s
  end.
(** the for loop, sd_vector.hpp:200-218 *)
Fixpoint sd_words_loop (todo i : nat) (wl n : nat) (m : mem) (s : sdst) : option sdst :=
  match todo with
  | 0 => Some s
  | S t =>
    let* w := ld m i in
    let* s := sd_word_loop 65 wl n w (64 * i) s in
    sd_words_loop t (S i) wl n m s
  end.
(** sd_vector(const bit_vector&), sd_vector.hpp:185-222 *)
Definition sd_of_bv (v : ivec) : option sdv :=
  let* m := iv_cnt_one_bits v in
  let '(wl, s) := sd_start (iv_size v) (N.to_nat m) in
  let* s := sd_words_loop ((iv_size v + 63) / 64) 0 wl (iv_size v) (iv_data v) s in
  Some (sd_finish (iv_size v) wl s).

Fixpoint sd_pushes (wl : nat) (xs : list nat) (s : sdst) : option sdst :=
  match xs with
  | [] => Some s
  | x :: t => let* s := sd_push wl s x in sd_pushes wl t s
  end.
Fixpoint is_sorted (xs : list nat) : bool :=
  match xs with
  | x :: (y :: _) as t => (x <=? y) && is_sorted t
  | _ => true
  end.
(** sd_vector(begin, end), sd_vector.hpp:224-264; an unsorted range throws ([None]).
    The width logn - logm is a uint8_t: for logm > logn it wraps and the shifts are undefined,
    here [None]. *)
Definition sd_of_list (xs : list nat) : option sdv :=
  match xs with
  | [] => Some (mksd 0 0 av_nil [])
  | _ =>
    if negb (is_sorted xs) then None else
    let m := length xs in
    let n := last xs 0 + 1 in
    if sd_logn n <? sd_logm n m then None else
    let '(wl, s) := sd_start n m in
    let* s := sd_pushes wl xs s in
    Some (sd_finish n wl s)
  end.
(** sd_vector_builder(n, m), set for each position, sd_vector(builder): sd_vector.cpp:20-37,
    sd_vector.hpp:266-281.  Throws ([None]) if m > n or the builder is not full; set has the
    asserted precondition that positions ascend and are below n, and that there is room. *)
Record sdb := mksdb { sb_n : nat; sb_cap : nat; sb_wl : nat; sb_tail : nat; sb_st : sdst }.
Definition sb_new (n m : nat) : option sdb :=
  if n <? m then None else let '(wl, s) := sd_start n m in Some (mksdb n m wl 0 s).
Definition sb_set (b : sdb) (i : nat) : option sdb :=
  let* s := sd_push (sb_wl b) (sb_st b) i in
  Some (mksdb (sb_n b) (sb_cap b) (sb_wl b) (i + 1) s).
Definition sb_items (b : sdb) : nat := let '(mm, _, _, _, _) := sb_st b in mm.
Definition sd_of_builder (b : sdb) : option sdv :=
  if negb (sb_items b =? sb_cap b) then None else Some (sd_finish (sb_n b) (sb_wl b) (sb_st b)).
Fixpoint sb_sets (b : sdb) (xs : list nat) : option sdb :=
  match xs with
  | [] => Some b
  | x :: t => let* b := sb_set b x in sb_sets b t
  end.

(** ** queries.  [--rank_low] on 0 wraps; the wrapped value is [None]: it is never a valid index
    and rank_low + 1 is then 0. *)
Definition decw (r : option nat) : option nat := match r with Some (S k) => Some k | _ => None end.
Definition low_at (d : sdv) (r : option nat) : option nat :=
  let* k := r in let* x := av_get (sd_low d) k in Some (N.to_nat x).
Definition high_at (d : sdv) (k : nat) : option bool := nth_error (sd_high d) k.

(** the loop of operator[] and get_int, sd_vector.hpp:304-309, 330-335: [None] in the inner
    option = return 0 *)
Fixpoint sd_scan (d : sdv) (fuel : nat) (sh : nat) (rl : option nat) (val_low : nat) : option (option (nat * option nat)) :=
  match fuel with
  | 0 => None
  | S f =>
    let* h := high_at d sh in
    if h then
      let* x := low_at d rl in
      if val_low <? x then
        match sh with
        | S sh' => sd_scan d f sh' (decw rl) val_low
        | 0 => Some None
        end
      else Some (Some (sh, rl))
    else Some (Some (sh, rl))
  end.
(** operator[], sd_vector.hpp:294-311 *)
Definition sd_get (d : sdv) (i : nat) : option bool :=
  let high_val := i / 2 ^ sd_wl d in
  let* sel_high := lsel false (sd_high d) (high_val + 1) in
  let rank_low := sel_high - high_val in
  if rank_low =? 0 then Some false else
  let val_low := i mod 2 ^ sd_wl d in
  let* r := sd_scan d (S sel_high) (sel_high - 1) (Some (rank_low - 1)) val_low in
  match r with
  | None => Some false
  | Some (sh, rl) =>
    let* h := high_at d sh in
    if h then let* x := low_at d rl in Some (x =? val_low) else Some false
  end.

(** the do-while loop of rank, sd_vector.hpp:479-484; returns rank_low+1 (or 0) *)
Fixpoint sd_rank_loop (d : sdv) (sh : nat) (rl : option nat) (val_low : nat) : option nat :=
  match sh with
  | 0 => Some 0
  | S sh' =>
    let rl := decw rl in
    let* h := high_at d sh' in
    let* again := (if h then let* x := low_at d rl in Some (val_low <=? x) else Some false) in
    if again then sd_rank_loop d sh' rl val_low
    else Some (match rl with Some k => k + 1 | None => 0 end)
  end.
(** rank_support_sd<1>::rank and rank_support_sd<0>::rank, sd_vector.hpp:436-454, 466-486 *)
Definition sd_rank1 (d : sdv) (i : nat) : option nat :=
  let high_val := i / 2 ^ sd_wl d in
  let* sel_high := lsel false (sd_high d) (high_val + 1) in
  let rank_low := sel_high - high_val in
  if rank_low =? 0 then Some 0 else
  sd_rank_loop d sel_high (Some rank_low) (i mod 2 ^ sd_wl d).
Definition sd_rank (b : bool) (d : sdv) (i : nat) : option nat :=
  let* r := sd_rank1 d i in Some (if b then r else i - r).

(** select_support_sd_trait<1>::select, sd_vector.hpp:527-532 *)
Definition sd_select1 (d : sdv) (i : nat) : option nat :=
  let* x := av_get (sd_low d) (i - 1) in
  let* s := lsel true (sd_high d) i in
  Some (N.to_nat x + (s + 1 - i) * 2 ^ sd_wl d).
(** the binary search of select_support_sd_trait<0>::select, sd_vector.hpp:546-558; [pos = None]
    is (size_type)-1 *)
Fixpoint sd_sel0_loop (d : sdv) (fuel i lb rb r0 : nat) (pos : option nat) : option nat :=
  match fuel with
  | 0 => None
  | S f =>
    if lb <? rb then
      let mid := lb + (rb - lb) / 2 in
      let* x := sd_select1 d mid in
      let rank0 := x + 1 - mid in
      if i <=? rank0 then sd_sel0_loop d f i lb mid r0 pos
      else sd_sel0_loop d f i (mid + 1) rb rank0 (Some x)
    else Some (match pos with Some x => x + i - r0 | None => i - 1 - r0 end)
  end.
(** sd_vector.hpp:538-560 *)
Definition sd_select0 (d : sdv) (i : nat) : option nat :=
  let ones := av_size (sd_low d) in sd_sel0_loop d (S ones) i 1 (ones + 1) 0 None.

(** get_int, sd_vector.hpp:322-360.  [gi_zero]: the inner loop over zeros (342-348), [None] =
    return res.  [gi_ones]: the loop over ones (349-363). *)
Fixpoint gi_zero (d : sdv) (idx : nat) (sh hv : nat) : option (option (nat * nat)) :=
  let* h := high_at d sh in
  if h then Some (Some (sh, hv)) else
  match sh with
  | S sh' => if idx <=? hv * 2 ^ sd_wl d then gi_zero d idx sh' (hv - 1) else Some None
  | 0 => Some None
  end.
(** state after leaving the loop over ones, or the final result *)
Fixpoint gi_ones (d : sdv) (idx : nat) (sh : nat) (rl : option nat) (hv : nat) (res : N)
  : option (N + nat * option nat * N) :=
  let* h := high_at d sh in
  if h then
    let* x := low_at d rl in
    let val := hv * 2 ^ sd_wl d + x in
    if idx <=? val then
      let* b := shl_c 1 (val - idx) in
      let res := N.lor res b in
      match sh with
      | S sh' => gi_ones d idx sh' (decw rl) hv res
      | 0 => Some (inl res)
      end
    else Some (inl res)
  else Some (inr (sh, rl, res)).
Fixpoint gi_loop (d : sdv) (fuel idx : nat) (sh : nat) (rl : option nat) (hv : nat) (res : N) : option N :=
  match fuel with
  | 0 => None
  | S f =>
    let* z := gi_zero d idx sh hv in
    match z with
    | None => Some res
    | Some (sh, hv) =>
      let* o := gi_ones d idx sh rl hv res in
      match o with
      | inl res => Some res
      | inr (sh, rl, res) => gi_loop d f idx sh rl hv res
      end
    end
  end.
Definition sd_get_int (d : sdv) (idx len : nat) : option N :=
  let i := idx + len - 1 in
  let high_val := i / 2 ^ sd_wl d in
  let* sel_high := lsel false (sd_high d) (high_val + 1) in
  let rank_low := sel_high - high_val in
  if rank_low =? 0 then Some 0%N else
  let val_low := i mod 2 ^ sd_wl d in
  let* r := sd_scan d (S sel_high) (sel_high - 1) (Some (rank_low - 1)) val_low in
  match r with
  | None => Some 0%N
  | Some (sh, rl) => gi_loop d (S (S sh)) idx sh rl high_val 0
  end.

(** ** select_0_support_sd, sd_vector.hpp:656-785.  The 64-bit word [w] is the list of its bits,
    least significant first; bits of the last word of m_high after the end are zero (C08). *)
Record s0s := mks0 { s0_pointer : avec; s0_rank1 : avec }.
Definition hget64 (d : sdv) (j : nat) : list bool := map (fun k => nth (j + k) (sd_high d) false) (seq 0 64).
(** number of zeros of the represented vector before the element at which [e] bits of m_high,
    [r] of them ones, end (the repeated if/else, 689-694, 717-723, 727-733, 745-751) *)
Definition s0_zeros (d : sdv) (e r : nat) (lastbit : bool) : option nat :=
  let bs := 2 ^ sd_wl d in
  if (0 <? r) && lastbit then
    let* x := av_get (sd_low d) (r - 1) in
    Some ((e - r) * bs + N.to_nat x + 1 - r)
  else Some ((e - r) * bs - r).
(** the while loop, 695-699 *)
Fixpoint s0_mark (fuel : nat) (step z zeros i old_rank1 sel0 : nat) (p q : avec) : option (nat * avec * avec) :=
  match fuel with
  | 0 => None
  | S f =>
    if (sel0 <=? z) && (sel0 <=? zeros) then
      let* p := av_set p ((sel0 - 1) / step) (N.of_nat (i / 64)) in
      let* q := av_set q ((sel0 - 1) / step) (N.of_nat old_rank1) in
      s0_mark f step z zeros i old_rank1 (sel0 + step) p q
    else Some (sel0, p, q)
  end.
(** the for loop, 683-700; [i] is the loop variable divided by 64 *)
Fixpoint s0_loop (d : sdv) (zeros todo i rank1 sel0 : nat) (p q : avec) : option (avec * avec) :=
  match todo with
  | 0 => Some (p, q)
  | S t =>
    let w := hget64 d (64 * i) in
    let rank1' := rank1 + count_true w in
    let* z := s0_zeros d (64 * i + 64) rank1' (nth 63 w false) in
    let* s := s0_mark (S zeros) (64 * 2 ^ sd_wl d) z zeros (64 * i) rank1 sel0 p q in
    let '(sel0, p, q) := s in
    s0_loop d zeros t (S i) rank1' sel0 p q
  end.
(** constructor, 671-703 *)
Definition s0_build (d : sdv) : option s0s :=
  let* ones := sd_rank1 d (sd_size d) in
  let zeros := sd_size d - ones in
  let cnt := zeros / (64 * 2 ^ sd_wl d) + 1 in
  let hs := length (sd_high d) in
  let* r := s0_loop d zeros ((hs + 63) / 64) 0 0 1 (av_new cnt 0 (hiw (N.of_nat (hs / 64)))) (av_new cnt 0 (hiw (N.of_nat hs))) in
  let '(p, q) := r in Some (mks0 p q).
(** the word loop, 724-741 *)
Fixpoint s0_words (d : sdv) (fuel i j rank1 : nat) (w : list bool) : option (nat * nat * list bool) :=
  match fuel with
  | 0 => None
  | S f =>
    let r := rank1 + count_true w in
    let* z := s0_zeros d (j + 64) r (nth 63 w false) in
    if z <? i then s0_words d f i (j + 64) r (hget64 d (j + 64)) else Some (j, rank1, w)
  end.
(** the byte loop, 743-759 *)
Fixpoint s0_bytes (d : sdv) (fuel i j rank1 : nat) (w : list bool) : option (nat * nat * list bool) :=
  match fuel with
  | 0 => None
  | S f =>
    let r := rank1 + count_true (firstn 8 w) in
    let* z := s0_zeros d (j + 8) r (nth 7 w false) in
    if z <? i then s0_bytes d f i (j + 8) r (skipn 8 w) else Some (j, rank1, w)
  end.
(** the bit loop, 761-783 *)
Fixpoint s0_bits (d : sdv) (fuel i j rank1 : nat) (w : list bool) : option nat :=
  match fuel with
  | 0 => None
  | S f =>
    let bs := 2 ^ sd_wl d in
    let b := nth 0 w false in
    let w := skipn 1 w in
    let j := j + 1 in
    if negb b then
      let pos := (j - rank1) * bs in
      let zeros := pos - rank1 in
      if i <=? zeros then Some (pos - (zeros - i) - 1) else
      s0_bits d f i j rank1 (if j mod 64 =? 0 then hget64 d j else w)
    else
      let pos := (j - 1 - rank1) * bs in
      let* x := av_get (sd_low d) rank1 in
      let one_pos := pos + N.to_nat x in
      let rank1 := rank1 + 1 in
      let zeros := one_pos + 1 - rank1 in
      if i <=? zeros then Some (one_pos - (zeros - i) - 1) else
      s0_bits d f i j rank1 (if j mod 64 =? 0 then hget64 d j else w)
  end.
(** select, 706-785 (the values of [pos] and [rank0] computed in 713-722 are overwritten before
    use; their reads are kept) *)
Definition s0_select (d : sdv) (s : s0s) (i : nat) : option nat :=
  let step := 64 * 2 ^ sd_wl d in
  let* p := av_get (s0_pointer s) ((i - 1) / step) in
  let j := N.to_nat p * 64 in
  let* r := av_get (s0_rank1 s) ((i - 1) / step) in
  let rank1 := N.to_nat r in
  let* _ := (if 0 <? rank1 then let* h := high_at d (j - 1) in s0_zeros d j rank1 h else Some 0) in
  let* t := s0_words d (S (length (sd_high d))) i j rank1 (hget64 d j) in
  let '(j, rank1, w) := t in
  let* t := s0_bytes d 9 i j rank1 w in
  let '(j, rank1, w) := t in
  s0_bits d 65 i j rank1 w.
