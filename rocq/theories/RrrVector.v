(** * Model of rrr_vector and its rank and select supports (include/sdsl/rrr_vector.hpp)

    The model follows the generic class; t_bs is [bs], t_k is [tk], and t_rac is int_vector<> (its
    default), the array of [AbsVec].  bit_vectors are lists of bits with get_int/set_int of
    [RrrHelper].  Counters (size_type) are [nat]; the theorems bound the input so that none wraps. *)
From Coq Require Import NArith List Bool Arith.
From Verif Require Import Base Bits AbsVec RrrHelper.
Import ListNotations.

(** element of an int_vector<>, as a number *)
Definition avn (v : avec) (i : nat) : option nat := option_map N.to_nat (av_get v i).
Definition avs (v : avec) (i x : nat) : option avec := av_set v i (N.of_nat x).
Definition bnew (n : nat) : list bool := repeat false n.

(** members, rrr_vector.hpp:101-109 *)
Record rrr := mkrrr { r_size : nat; r_bt : avec; r_btnr : list bool; r_btnrp : avec; r_rank : avec; r_invert : list bool }.

Section R.
Variables bs tk : nat.
Notation lg := (max_log bs).
Notation space := (space_for_bt bs).

(** get_bt, rrr_helper.hpp:298-302 *)
Definition get_bt (bv : list bool) (pos len : nat) : option nat := let* x := tget lg bv pos len in Some (popcount x).

(** phase (1), rrr_vector.hpp:154-168: the [n] full blocks from block [i], then the rest *)
Fixpoint p1_loop (n : nat) (bv : list bool) (i : nat) (bt : avec) (sum pos : nat) : option (avec * nat * nat) :=
  match n with
  | 0 =>
    if i * bs <? length bv then
      let* x := get_bt bv (i * bs) (length bv - i * bs) in
      let* bt := avs bt i x in Some (bt, sum + x, pos + space x)
    else Some (bt, sum, pos)
  | S n =>
    let* x := get_bt bv (i * bs) bs in
    let* bt := avs bt i x in
    p1_loop n bv (S i) bt (sum + x) (pos + space x)
  end.

(** the number of blocks of a superblock with more than half ones, rrr_vector.hpp:186-190 *)
Fixpoint gt_half (n : nat) (bt : avec) (j : nat) : option nat :=
  match n with
  | 0 => Some 0
  | S n => let* x := avn bt j in let* r := gt_half n bt (S j) in Some ((if bs / 2 <? x then 1 else 0) + r)
  end.
(** rrr_vector.hpp:193-195 *)
Fixpoint flip_bt (n : nat) (bt : avec) (j : nat) : option avec :=
  match n with
  | 0 => Some bt
  | S n => let* x := avn bt j in let* bt := avs bt j (bs - x) in flip_bt n bt (S j)
  end.

Record p2 := mkp2 { p_bt : avec; p_btnr : list bool; p_btnrp : avec; p_rank : avec; p_invert : list bool;
                    p_pos : nat; p_sum : nat; p_inv : bool }.
(** start of a superblock at a full block, rrr_vector.hpp:181-203 *)
Definition sb_full (i : nat) (s : p2) : option p2 :=
  let* bp := avs (p_btnrp s) (i / tk) (p_pos s) in
  let* rk := avs (p_rank s) (i / tk) (p_sum s) in
  if i + tk <=? av_size (p_bt s) then
    let* g := gt_half tk (p_bt s) i in
    if tk / 2 <? g then
      let* iv := aset (p_invert s) (i / tk) true in
      let* bt := flip_bt tk (p_bt s) i in
      Some (mkp2 bt (p_btnr s) bp rk iv (p_pos s) (p_sum s) true)
    else Some (mkp2 (p_bt s) (p_btnr s) bp rk (p_invert s) (p_pos s) (p_sum s) false)
  else Some (mkp2 (p_bt s) (p_btnr s) bp rk (p_invert s) (p_pos s) (p_sum s) false).
(** start of a superblock at the incomplete last block, rrr_vector.hpp:215-220 *)
Definition sb_last (i : nat) (s : p2) : option p2 :=
  let* bp := avs (p_btnrp s) (i / tk) (p_pos s) in
  let* rk := avs (p_rank s) (i / tk) (p_sum s) in
  let* iv := aset (p_invert s) (i / tk) false in
  Some (mkp2 (p_bt s) (p_btnr s) bp rk iv (p_pos s) (p_sum s) false).
(** one block of [len] bits, rrr_vector.hpp:204-212, 221-230 *)
Definition put_block (bv : list bool) (i len : nat) (s : p2) : option p2 :=
  let* x := avn (p_bt s) i in
  let sp := space x in
  let sum := p_sum s + (if p_inv s then bs - x else x) in
  if sp =? 0 then Some (mkp2 (p_bt s) (p_btnr s) (p_btnrp s) (p_rank s) (p_invert s) (p_pos s + sp) sum (p_inv s))
  else
    let* bin := tget lg bv (i * bs) len in
    let* nr := bin_to_nr bs bin in
    let* b := tset lg (p_btnr s) (p_pos s) nr sp in
    Some (mkp2 (p_bt s) b (p_btnrp s) (p_rank s) (p_invert s) (p_pos s + sp) sum (p_inv s)).
(** phase (2), rrr_vector.hpp:176-235 *)
Fixpoint p2_loop (n : nat) (bv : list bool) (i : nat) (s : p2) : option p2 :=
  match n with
  | 0 =>
    if i * bs <? length bv then
      let* s := if i mod tk =? 0 then sb_last i s else Some s in
      put_block bv i (length bv - i * bs) s
    else Some s
  | S n =>
    let* s := if i mod tk =? 0 then sb_full i s else Some s in
    let* s := put_block bv i bs s in
    p2_loop n bv (S i) s
  end.

(** rrr_vector(bv), rrr_vector.hpp:145-239 *)
Definition rrr_make (bv : list bool) : option rrr :=
  let n := length bv in
  let B := (n + bs) / bs in
  let* (bt, sum, pos) := p1_loop (n / bs) bv 0 (av_new B 0 (hiw (N.of_nat bs))) 0 0 in
  let sb := (B + tk - 1) / tk in
  let s0 := mkp2 bt (bnew (Nat.max pos 64)) (av_new sb 0 (hiw (N.of_nat pos)))
                 (av_new (sb + (if 0 <? n mod (tk * bs) then 1 else 0)) 0 (hiw (N.of_nat sum)))
                 (bnew sb) 0 0 false in
  let* s := p2_loop (n / bs) bv 0 s0 in
  let* rk := avs (p_rank s) (av_size (p_rank s) - 1) (p_sum s) in
  Some (mkrrr n (p_bt s) (p_btnr s) (p_btnrp s) rk (p_invert s)).

Variable v : rrr.
(** the pointer into m_btnr, rrr_vector.hpp:269-273, 303-306: [n] blocks from block [j] *)
Fixpoint skip_blocks (n j btnrp : nat) : option nat :=
  match n with
  | 0 => Some btnrp
  | S n => let* x := avn (r_bt v) j in skip_blocks n (S j) (btnrp + space x)
  end.
(** the type of block [i], rrr_vector.hpp:259-263, 296-297 *)
Definition blk_type (i : nat) : option nat :=
  let* bt := avn (r_bt v) i in
  let* iv := nth_error (r_invert v) (i / tk) in
  Some (if iv : bool then bs - bt else bt).
(** the number of block [i] of type [bt] *)
Definition blk_nr (i bt : nat) : option N :=
  let sp := i / tk in
  let* p := avn (r_btnrp v) sp in
  let* p := skip_blocks (i - sp * tk) (sp * tk) p in
  tget lg (r_btnr v) p (space bt).

(** operator[], rrr_vector.hpp:257-277 *)
Definition rrr_access (i : nat) : option bool :=
  let* bt := blk_type (i / bs) in
  if (bt =? 0) || (bt =? bs) then Some (0 <? bt)
  else
    let* nr := blk_nr (i / bs) bt in
    decode_bit bs bt nr (i mod bs).

(** get_int inside one block, rrr_vector.hpp:295-310 *)
Definition get_int1 (idx len : nat) : option N :=
  let* bt := blk_type (idx / bs) in
  if bt =? 0 then Some 0%N
  else if (bt =? bs) && (bs <=? 64) then Some (N.ones (N.of_nat len))
  else
    let* nr := blk_nr (idx / bs) bt in
    decode_int bs bt nr (idx mod bs) len.
(** the loop over the blocks, rrr_vector.hpp:311-322.  All its calls of get_int stay in one block *)
Fixpoint get_int_loop (fuel : nat) (idx b_len b_sum len : nat) (res : N) : option N :=
  match fuel with
  | 0 => None
  | S f =>
    let* x := get_int1 idx b_len in
    let res := N.lor res (N.shiftl x (N.of_nat b_sum) mod W64)%N in
    if len - b_len =? 0 then Some res
    else get_int_loop f (idx + b_len) (Nat.min (len - b_len) bs) (b_sum + b_len) (len - b_len) res
  end.
(** get_int, rrr_vector.hpp:287-324 *)
Definition rrr_get_int (idx len : nat) : option N :=
  if idx / bs =? (idx + len - 1) / bs then get_int1 idx len
  else get_int_loop (S len) idx (bs - idx mod bs) 0 len 0.

(** the loop of rank, rrr_vector.hpp:465-469 *)
Fixpoint rank_blocks (n j : nat) (inv : bool) (rank btnrp : nat) : option (nat * nat) :=
  match n with
  | 0 => Some (rank, btnrp)
  | S n => let* r := avn (r_bt v) j in rank_blocks n (S j) inv (rank + (if inv then bs - r else r)) (btnrp + space r)
  end.
(** rank_support_rrr<1>::rank before adjust_rank, rrr_vector.hpp:445-481 *)
Definition rrr_rank1 (i : nat) : option nat :=
  let bi := i / bs in
  let sp := bi / tk in
  let* btnrp := avn (r_btnrp v) sp in
  let* rank := avn (r_rank v) sp in
  let* quick :=
    if sp + 1 <? av_size (r_rank v) then
      let* nx := avn (r_rank v) (sp + 1) in
      if nx =? rank then Some (Some rank)
      else if nx - rank =? bs * tk then Some (Some (rank + i - sp * tk * bs))
      else Some None
    else Some None in
  match quick with
  | Some r => Some r
  | None =>
    let* inv := nth_error (r_invert v) sp in
    let* (rank, btnrp) := rank_blocks (bi - sp * tk) (sp * tk) inv rank btnrp in
    if i mod bs =? 0 then Some rank
    else
      let* x := avn (r_bt v) bi in
      let bt := if inv : bool then bs - x else x in
      let* nr := tget lg (r_btnr v) btnrp (space bt) in
      let* pc := decode_popcount bs bt nr (i mod bs) in
      Some (rank + pc)
  end.
(** rank_support_rrr<b>, rrr_vector.hpp:386-402: adjust_rank *)
Definition rrr_rank (b : bool) (i : nat) : option nat :=
  let* r := rrr_rank1 i in Some (if b then r else i - r).

(** binary search in the rank samples, rrr_vector.hpp:556-569, 597-610: [b] is the pattern *)
Definition sample (b : bool) (idx : nat) : option nat :=
  let* r := avn (r_rank v) idx in Some (if b then r else idx * bs * tk - r).
Fixpoint sel_search (fuel : nat) (b : bool) (i lo hi : nat) : option (nat * nat) :=
  if 1 <? hi - lo then
    match fuel with
    | 0 => None
    | S f =>
      let idx := (lo + hi) / 2 in
      let* r := sample b idx in
      if i <=? r then sel_search f b i lo idx else sel_search f b i idx hi
    end
  else Some (lo, hi).
(** the linear search, rrr_vector.hpp:581-587, 619-625: the next block, the rank before the block
    found, its type and its pointer *)
Fixpoint sel_blocks (fuel : nat) (b inv : bool) (i idx rank btnrp : nat) : option (nat * nat * nat * nat) :=
  match fuel with
  | 0 => None
  | S f =>
    let* x := avn (r_bt v) idx in
    let bt := if inv then bs - x else x in
    let c := if b then bt else bs - bt in
    if rank + c <? i then sel_blocks f b inv i (S idx) (rank + c) (btnrp + space bt)
    else Some (idx, rank, bt, btnrp)
  end.
(** select1 and select0, rrr_vector.hpp:552-590, 592-628 *)
Definition rrr_select (b : bool) (i : nat) : option nat :=
  let last := av_size (r_rank v) - 1 in
  let* total := avn (r_rank v) last in
  if (if b then total else r_size v - total) <? i then Some (r_size v)
  else
    let* (lo, hi) := sel_search last b i 0 last in
    let* rank := sample b lo in
    let* r0 := avn (r_rank v) lo in
    let* r1 := avn (r_rank v) hi in
    if (if b then r1 - r0 =? bs * tk else r1 =? r0) then Some (lo * tk * bs + i - rank - 1)
    else
      let* inv := nth_error (r_invert v) lo in
      let* p := avn (r_btnrp v) lo in
      let* (idx, rank, bt, p) := sel_blocks (S (av_size (r_bt v))) b inv i (lo * tk) rank p in
      let* nr := tget lg (r_btnr v) p (space bt) in
      let* o := if b then decode_select bs bt nr (i - rank) else decode_select0 bs bt nr (i - rank) in
      Some (idx * bs + o).
End R.
