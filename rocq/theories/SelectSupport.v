(** * Model of the select supports: select_support.hpp, select_support_mcl.hpp,
    select_support_scan.hpp.

    A bit_vector is an [ivec] of width 1, an int_vector<0> an [avec] (AbsVec.v).  Positions and
    counts are nat.  assert() is compiled out (NDEBUG). *)
From Coq Require Import NArith List Bool Arith.
From Verif Require Import Base Bits IntVector SpecRank RankSupport AbsVec.
Import ListNotations.

Definition u32 (x : N) : N := (x mod 2 ^ 32)%N.
(** bits::lo_unset[k] *)
Definition lo_unset (k : nat) : N := wnot (lo_set k).

(** ** select_support_trait *)

(** arg_cnt of <00,2> and <11,2>, select_support.hpp:291-305, 348-362: the loop over the full words *)
Fixpoint sst_arg_loop (p : pat) (m : mem) (todo i : nat) (result carry : N) : option (N * N) :=
  match todo with
  | 0 => Some (result, carry)
  | S t =>
    let* x := ld m i in
    let '(c, carry) := rt_args p x carry in
    sst_arg_loop p m t (S i) (wadd result c) carry
  end.
Definition sst_arg_cnt2 (p : pat) (mask : N -> nat -> N) (v : ivec) : option N :=
  if iv_empty v then Some 0%N else
  let* (result, carry) := sst_arg_loop p (iv_data v) (iv_size v / 64) 0 0 (rt_init_carry p) in
  if negb (iv_size v mod 64 =? 0) then
    let* x := ld (iv_data v) (iv_size v / 64) in
    Some (wadd result (fst (rt_args p (mask x (iv_size v mod 64)) carry)))
  else Some result.
(** arg_cnt, select_support.hpp:135, 173, 211, 251, 291, 348 *)
Definition sst_arg_cnt (p : pat) (v : ivec) : option N :=
  match p with
  | P0 => let* c := iv_cnt_one_bits v in Some (wsub (N.of_nat (iv_size v)) c)
  | P1 => iv_cnt_one_bits v
  | P10 => iv_cnt_onezero_bits v
  | P01 => iv_cnt_zeroone_bits v
  | P00 => sst_arg_cnt2 P00 (fun x k => N.lor x (lo_unset k)) v
  | P11 => sst_arg_cnt2 P11 (fun x k => N.land x (lo_set k)) v
  end.
(** args_in_the_first_word, select_support.hpp:139, 177, 215, 255, 307-316, 364-373 *)
Definition sst_first (p : pat) (w : N) (off : nat) (carry : N) : N :=
  match p with
  | P0 => cnt (N.land (wnot w) (lo_unset off))
  | P1 => cnt (N.land w (lo_unset off))
  | P10 => cnt (N.land (map10 w carry) (lo_unset off))
  | P01 => cnt (N.land (map01 w carry) (lo_unset off))
  | P00 => if off =? 0 then fst (rt_args P00 w carry)
           else cnt (N.land (wnot (N.lor w (shl w 1))) (lo_unset off))
  | P11 => if off =? 0 then fst (rt_args P11 w carry)
           else cnt (N.land (shr w (off - 1)) (shr w off))
  end.
(** the word of which ith_arg_pos_in_the_word takes the i-th set bit, select_support.hpp:151, 189,
    227, 267, 326, 383 *)
Definition sst_word (p : pat) (w carry : N) : N :=
  match p with
  | P0 => wnot w
  | P1 => w
  | P10 => map10 w carry
  | P01 => map01 w carry
  | P00 => wnot (N.lor (N.lor (shl w 1) carry) w)
  | P11 => N.land (N.lor (shl w 1) carry) w
  end.
(** the argument of bits::sel has type uint32_t *)
Definition sst_sel (x : N) (i : nat) : option nat :=
  let* q := sel x (u32 (N.of_nat i)) in Some (N.to_nat q).
(** ith_arg_pos_in_the_first_word, select_support.hpp:143, 181, 219, 259, 318, 375 *)
Definition sst_ith_first (p : pat) (w : N) (i off : nat) (carry : N) : option nat :=
  sst_sel (N.land (sst_word p w carry) (lo_unset off)) i.
(** ith_arg_pos_in_the_word *)
Definition sst_ith (p : pat) (w : N) (i : nat) (carry : N) : option nat := sst_sel (sst_word p w carry) i.
(** found_arg, select_support.hpp:155, 193, 231, 271, 330, 387 *)
Definition sst_found (p : pat) (v : ivec) (i : nat) : option bool :=
  match p with
  | P0 => let* b := bv_get v i in Some (negb b)
  | P1 => bv_get v i
  | P10 => if 0 <? i then let* a := bv_get v (i - 1) in
             if a then let* b := bv_get v i in Some (negb b) else Some false
           else Some false
  | P01 => if 0 <? i then let* a := bv_get v (i - 1) in
             if negb a then bv_get v i else Some false
           else Some false
  | P00 => if 0 <? i then let* a := bv_get v (i - 1) in
             if negb a then let* b := bv_get v i in Some (negb b) else Some false
           else Some false
  | P11 => if 0 <? i then let* a := bv_get v (i - 1) in
             if a then bv_get v i else Some false
           else Some false
  end.
(** init_carry(data, word_pos), select_support.hpp:159, 197, 237, 277, 334, 393 *)
Definition sst_init_carry (p : pat) (m : mem) (wp : nat) : option N :=
  match p with
  | P0 | P1 => Some 0%N
  | _ => if negb (wp =? 0) then let* x := ld m (wp - 1) in Some (shr x 63) else Some (rt_init_carry p)
  end.
(** get_carry(w), select_support.hpp:163, 201, 241, 281, 338, 397 *)
Definition sst_get_carry (p : pat) (w : N) : N := match p with P0 | P1 => 0%N | _ => shr w 63 end.

(** ** the scan shared by select_support_scan::select (select_support_scan.hpp:85-105) and
    select_support_mcl::select (select_support_mcl.hpp:368-390) *)

(** the while loop; [wp]: word, [carry]: carry into it, [sum]: arguments before it *)
Fixpoint sst_loop (p : pat) (m : mem) (fuel wp : nat) (carry : N) (sum : N) (i : nat) : option nat :=
  match fuel with
  | 0 => None
  | S f =>
    let* x := ld m wp in
    let '(args, carry') := rt_args p x carry in
    if (wadd sum args <? N.of_nat i)%N then sst_loop p m f (S wp) carry' (wadd sum args) i
    else let* q := sst_ith p x (i - N.to_nat sum) carry in Some (wp * 64 + q)
  end.
Definition sst_scan (p : pat) (m : mem) (pos i : nat) : option nat :=
  let wp := pos / 64 in
  let off := pos mod 64 in
  let* carry := sst_init_carry p m wp in
  let* x := ld m wp in
  let args := sst_first p x off carry in
  if (N.of_nat i <=? args)%N then let* q := sst_ith_first p x i off carry in Some (wp * 64 + q)
  else sst_loop p m (length m) (S wp) (sst_get_carry p x) args i.

(** select_support_scan::select, select_support_scan.hpp:82-106 *)
Definition ss_scan_select (p : pat) (v : ivec) (i : nat) : option nat := sst_scan p (iv_data v) 0 i.

(** ** select_support_mcl *)

(** SUPER_BLOCK_SIZE = 4096 *)
Definition SBS : nat := 64 * 64.
(** m_superblock, m_longsuperblock (nullptr = None), m_miniblock (nullptr = []), m_arg_cnt *)
Record mcl := mkmcl { mc_sb : avec; mc_long : option (list avec); mc_mini : list avec; mc_args : nat }.

(** m_logn, m_logn4, initData, select_support_mcl.hpp:401-416 *)
Definition mc_logn (v : ivec) : nat := hiw (N.of_nat (iv_capacity v)).
Definition mc_logn4 (v : ivec) : N := let l := N.of_nat (mc_logn v) in (l * l * (l * l))%N.

(** arg_position[SUPER_BLOCK_SIZE]: a local array with arbitrary initial contents *)
Definition ap_t : Type := nat -> nat.
Definition ap_set (a : ap_t) (i x : nat) : ap_t := fun j => if j =? i then x else a j.

(** copy argument positions to the longsuperblock, select_support_mcl.hpp:246 *)
Fixpoint mc_copy_long (a : ap_t) (todo j : nat) (t : avec) : option avec :=
  match todo with
  | 0 => Some t
  | S n => let* t := av_set t j (N.of_nat (a j)) in mc_copy_long a n (S j) t
  end.
(** select_support_mcl.hpp:249-251 and 322-324; [j]: index in the miniblock.  The difference of
    positions is never negative (the positions ascend). *)
Fixpoint mc_copy_mini (a : ap_t) (todo j : nat) (t : avec) : option avec :=
  match todo with
  | 0 => Some t
  | S n => let* t := av_set t j (N.of_nat (a (64 * j) - a 0)) in mc_copy_mini a n (S j) t
  end.
(** new int_vector<0>[n] unless already allocated *)
Definition mc_alloc (l : option (list avec)) (n : nat) : list avec :=
  match l with Some l => l | None => repeat av_nil n end.

(** body of the if at select_support_mcl.hpp:237-254; [cnt] = arg_cnt after the increment *)
Definition mc_slow_block (lg4 : N) (a : ap_t) (sb cnt sbc : nat) (s : mcl) : option mcl :=
  let last := (cnt - 1) mod SBS in
  let* sbv := av_set (mc_sb s) sbc (N.of_nat (a 0)) in
  let diff := N.of_nat (a last - a 0) in
  if (lg4 <? diff)%N then
    let L := mc_alloc (mc_long s) sb in
    let* t := mc_copy_long a (last + 1) 0 (av_new SBS 0 (hiw (N.of_nat (a last)))) in
    let* L := aset L sbc t in
    Some (mkmcl sbv (Some L) (mc_mini s) (mc_args s))
  else
    let* t := mc_copy_mini a (last / 64 + 1) 0 (av_new 64 0 (hiw diff)) in
    let* M := aset (mc_mini s) sbc t in
    Some (mkmcl sbv (mc_long s) M (mc_args s)).
(** the loop, select_support_mcl.hpp:232-256 *)
Fixpoint mc_slow_loop (p : pat) (v : ivec) (lg4 : N) (sb : nat) (todo i : nat) (a : ap_t) (cnt sbc : nat) (s : mcl) : option mcl :=
  match todo with
  | 0 => Some s
  | S t =>
    let* b := sst_found p v i in
    if b then
      let a := ap_set a (cnt mod SBS) i in
      let cnt := S cnt in
      if (cnt mod SBS =? 0) || (cnt =? mc_args s) then
        let* s := mc_slow_block lg4 a sb cnt sbc s in
        mc_slow_loop p v lg4 sb t (S i) a cnt (S sbc) s
      else mc_slow_loop p v lg4 sb t (S i) a cnt sbc s
    else mc_slow_loop p v lg4 sb t (S i) a cnt sbc s
  end.
(** init_slow, select_support_mcl.hpp:208-257; [a]: initial contents of arg_position *)
Definition mc_init_slow (p : pat) (a : ap_t) (v : ivec) : option mcl :=
  let* c := sst_arg_cnt p v in
  let args := N.to_nat c in
  if args =? 0 then Some (mkmcl av_nil None [] 0) else
  let sb := (args + SBS - 1) / SBS in
  mc_slow_loop p v (mc_logn4 v) sb (iv_size v) 0 a 0 0
    (mkmcl (av_new sb 0 (mc_logn v)) None (repeat av_nil sb) args).

(** select_support_mcl.hpp:297-301: pos_of_last_arg_in_the_block *)
Fixpoint mc_fast_last (p : pat) (v : ivec) (fuel ii j pos : nat) : option nat :=
  match fuel with
  | 0 => None
  | S f =>
    if (ii <? iv_size v) && (j <? SBS) then
      let* b := sst_found p v ii in
      if b then mc_fast_last p v f (S ii) (S j) ii else mc_fast_last p v f (S ii) j pos
    else Some pos
  end.
(** select_support_mcl.hpp:307-319; the test k>=SUPER_BLOCK_SIZE inside can not be true *)
Fixpoint mc_fast_long (p : pat) (v : ivec) (fuel j k last : nat) (t : avec) : option avec :=
  match fuel with
  | 0 => None
  | S f =>
    if (k <? SBS) && (j <=? last) then
      let* b := sst_found p v j in
      if b then let* t := av_set t k (N.of_nat j) in mc_fast_long p v f (S j) (S k) last t
      else mc_fast_long p v f (S j) k last t
    else Some t
  end.
(** select_support_mcl.hpp:336-340 *)
Fixpoint mc_fast_tail (p : pat) (v : ivec) (todo i k : nat) (t : avec) : option avec :=
  match todo with
  | 0 => Some t
  | S n =>
    let* b := sst_found p v i in
    if b then let* t := av_set t k (N.of_nat i) in mc_fast_tail p v n (S i) (S k) t
    else mc_fast_tail p v n (S i) k t
  end.
(** select_support_mcl.hpp:294-326: a complete superblock *)
Definition mc_fast_block (p : pat) (v : ivec) (sb : nat) (a : ap_t) (sbc : nat) (s : mcl) : option mcl :=
  let* sbv := av_set (mc_sb s) sbc (N.of_nat (a 0)) in
  let p0 := a (64 * 63) in (* arg_position[last_k64-65], last_k64 = 4097 *)
  let* last := mc_fast_last p v (S (iv_size v)) (S p0) (64 * 63) p0 in
  let diff := N.of_nat (last - a 0) in
  if (mc_logn4 v <? diff)%N then
    let L := mc_alloc (mc_long s) (sb + 1) in
    let* t := mc_fast_long p v (S (S last)) (a 0) 0 last (av_new SBS 0 (hiw (N.of_nat last))) in
    let* L := aset L sbc t in
    Some (mkmcl sbv (Some L) (mc_mini s) (mc_args s))
  else
    let* t := mc_copy_mini a 64 0 (av_new 64 0 (hiw diff)) in
    let* M := aset (mc_mini s) sbc t in
    Some (mkmcl sbv (mc_long s) M (mc_args s)).
(** the loop, select_support_mcl.hpp:286-331.  Only the one-bit patterns use it, whose traits
    neither read nor change the carry.  [k64] = (last_k64-1)/64, [ksum] = last_k64_sum *)
Fixpoint mc_fast_loop (p : pat) (v : ivec) (sb : nat) (todo w : nat) (a : ap_t) (old ksum : N) (k64 sbc : nat) (s : mcl)
  : option (ap_t * nat * nat * mcl) :=
  match todo with
  | 0 => Some (a, k64, sbc, s)
  | S t =>
    let* x := ld (iv_data v) w in
    let new := wadd old (fst (rt_args p x 0)) in
    if (ksum <=? new)%N then
      let* q := sst_ith p x (N.to_nat (ksum - old)) 0 in
      let a := ap_set a (64 * k64) (64 * w + q) in
      let k64 := S k64 in
      if k64 =? 64 then
        let* s := mc_fast_block p v sb a sbc s in
        mc_fast_loop p v sb t (S w) a new (ksum + 64)%N 0 (S sbc) s
      else mc_fast_loop p v sb t (S w) a new (ksum + 64)%N k64 sbc s
    else mc_fast_loop p v sb t (S w) a new ksum k64 sbc s
  end.
(** init_fast, select_support_mcl.hpp:260-343 *)
Definition mc_init_fast (p : pat) (a : ap_t) (v : ivec) : option mcl :=
  let* c := sst_arg_cnt p v in
  let args := N.to_nat c in
  if args =? 0 then Some (mkmcl av_nil None [] 0) else
  let sb := (args + SBS - 1) / SBS in
  let* (a, k64, sbc, s) := mc_fast_loop p v sb (iv_capacity v / 64) 0 a 0 1 0 0
    (mkmcl (av_new sb 0 (mc_logn v)) None (repeat av_nil sb) args) in
  if 0 <? k64 then
    let L := mc_alloc (mc_long s) (sb + 1) in
    let* t := mc_fast_tail p v (iv_size v - a 0) (a 0) 0 (av_new SBS 0 (hiw (N.of_nat (iv_size v - 1)))) in
    let* L := aset L sbc t in
    Some (mkmcl (mc_sb s) (Some L) (mc_mini s) (mc_args s))
  else Some s.

(** constructor, select_support_mcl.hpp:108-116: vectors below 100000 bits and two-bit patterns use
    init_slow *)
Definition mc_build (p : pat) (a : ap_t) (v : ivec) : option mcl :=
  match p with
  | P0 | P1 => if (N.of_nat (iv_size v) <? 100000)%N then mc_init_slow p a v else mc_init_fast p a v
  | _ => mc_init_slow p a v
  end.

(** select, select_support_mcl.hpp:346-393 *)
Definition mc_select (p : pat) (v : ivec) (s : mcl) (i : nat) : option nat :=
  let i := i - 1 in
  let sbi := i / SBS in
  let off := i mod SBS in
  let short :=
    let* a := av_get (mc_sb s) sbi in
    let* t := nth_error (mc_mini s) sbi in
    let* b := av_get t (off / 64) in
    if off mod 64 =? 0 then Some (N.to_nat (wadd a b))
    else sst_scan p (iv_data v) (N.to_nat (wadd (wadd a b) 1)) (i - sbi * SBS - off / 64 * 64) in
  match mc_long s with
  | None => short
  | Some L =>
    let* t := nth_error L sbi in
    if negb (av_size t =? 0) then let* x := av_get t off in Some (N.to_nat x) else short
  end.
