(** * Model of bit_vector_il.hpp: bit_vector_il, rank_support_il, select_support_il.

    [k] is the block size parameter: t_bs = 2^k, 6 <= k <= 31 (the two static_asserts and uint32_t).
    bits::hi(t_bs) = k and bits::hi(t_bs>>6) = k-6 are used directly (C01_hi).  The int_vector<64>
    members are lists of words.  Sizes are natural numbers; cumulative sums and i are 64-bit words. *)
From Coq Require Import NArith List Bool Arith.
From Verif Require Import Base Bits IntVector.
Import ListNotations.

(** bit_vector_il.hpp:76-81; m_block_num is the length of m_data *)
Record il := mkil { il_size : nat; il_super : nat; il_data : mem; il_smp : mem }.

(** t_bs/64 *)
Definition il_rate (k : nat) : nat := 2 ^ (k - 6).
(** (mid << blockSize_U64) + mid *)
Definition il_pos (k mid : nat) : nat := mid * il_rate k + mid.

(** the loop of the constructor, bit_vector_il.hpp:133-144; [sc] is sample_cnt *)
Fixpoint il_fill (todo i sr sc : nat) (m d : mem) (j : nat) (cum : N) : option (mem * nat * N) :=
  match todo with
  | 0 => Some (d, j, cum)
  | S t =>
    let* (d, j, sc) := (if sc =? sr then let* d := st d j cum in Some (d, S j, 0) else Some (d, j, sc)) in
    let* x := ld m i in
    let* d := st d j x in
    il_fill t (S i) sr (S sc) m d (S j) (wadd cum (cnt x))
  end.

(** init_rank_samples, bit_vector_il.hpp:84-103; the two queues are one queue of pairs *)
Fixpoint il_samples (f k : nat) (d : mem) (q : list (nat * nat)) (smp : mem) (idx : nat) : option mem :=
  match f with
  | 0 => None
  | S f' =>
    match q with
    | [] => Some smp
    | (lb, rb) :: q =>
      if idx <? length smp then
        let* len := (if rb <? lb then None else Some (rb - lb)) in
        let mid := lb + len / 2 in
        let* x := ld d (il_pos k mid) in
        let* smp := st smp idx x in
        il_samples f' k d (q ++ [(lb, mid); (mid + 1, rb)]) smp (S idx)
      else il_samples f' k d q smp idx
    end
  end.

(** bit_vector_il(const bit_vector&), bit_vector_il.hpp:112-153.  int_vector<64>(mem) fills with 0;
    [thr] is the threshold 1024*64 on m_block_num and [cap] the limit 1024 on the number of samples;
    resize of the empty m_rank_samples gives unspecified words, [g] *)
Definition il_make (thr cap k : nat) (g : nat -> N) (v : ivec) : option il :=
  let n := iv_size v in
  let sb := (n + 2 ^ k) / 2 ^ k in
  let blocks := (n + 64) / 64 in
  let mem := blocks + sb + 1 in
  let* (d, j, cum) := il_fill blocks 0 (il_rate k) (il_rate k) (iv_data v) (repeat 0%N mem) 0 0%N in
  let* d := st d j cum in
  let smp := if thr <? mem then map g (seq 0 (Nat.min cap (2 ^ Nat.log2 sb))) else [] in
  let* smp := il_samples (2 * length smp + 2) k d [(0, sb)] smp 0 in
  Some (mkil n sb d smp).
(** the values in the source *)
Definition il_thr : nat := 1024 * 64.
Definition il_cap : nat := 1024.

(** operator[], bit_vector_il.hpp:161-167 *)
Definition il_get (k : nat) (v : il) (i : nat) : option N :=
  let* x := ld (il_data v) (i / 2 ^ k + i / 64 + 1) in
  Some (N.land (shr x (i mod 64)) 1).

(** get_int, bit_vector_il.hpp:177-192 *)
Definition il_get_int (k : nat) (v : il) (idx len : nat) : option N :=
  let b := idx / 2 ^ k + idx / 64 + 1 in
  let e := (idx + len - 1) / 2 ^ k + (idx + len - 1) / 64 + 1 in
  let* x := ld (il_data v) b in
  if b =? e then Some (N.land (shr x (idx mod 64)) (lo_set len))
  else
    let bl := 64 - idx mod 64 in
    let* y := ld (il_data v) e in
    let* hi := shl_c (N.land y (lo_set (len - bl))) bl in
    Some (N.lor (shr x (idx mod 64)) hi).

(** the word that is counted: *B or ~( *B ) *)
Definition il_w (b : bool) (x : N) : N := if b then x else wnot x.

(** the while loop of rank1/rank0, bit_vector_il.hpp:267-270, 283-286: [t] = bits/64 iterations *)
Fixpoint il_rank_loop (b : bool) (d : mem) (t pos : nat) (resp : N) : option (nat * N) :=
  match t with
  | 0 => Some (pos, resp)
  | S t' => let* x := ld d pos in il_rank_loop b d t' (S pos) (wadd resp (cnt (il_w b x)))
  end.
(** rank1 / rank0, bit_vector_il.hpp:258-291 *)
Definition il_rank (b : bool) (k : nat) (v : il) (i : nat) : option N :=
  let sbn := i / 2 ^ k in
  let pos := il_pos k sbn in
  let* c := ld (il_data v) pos in
  let resp := if b then c else wsub (N.of_nat (sbn * 2 ^ k)) c in
  let* (p, resp) := il_rank_loop b (il_data v) (i mod 2 ^ k / 64) (pos + 1) resp in
  let* x := ld (il_data v) p in
  Some (wadd resp (cnt (N.land (il_w b x) (lo_set (i mod 64))))).

(** the binary search of select1/select0, bit_vector_il.hpp:366-396, 421-449 *)
Fixpoint il_search (f : nat) (b : bool) (k : nat) (v : il) (i : N) (lb rb idx : nat) : option nat :=
  match f with
  | 0 => None
  | S f' =>
    if lb <? rb then
      let mid := (lb + rb) / 2 in
      let val := fun x => if b then x else wsub (N.of_nat (mid * 2 ^ k)) x in
      if idx <? length (il_smp v) then
        let* x := ld (il_smp v) idx in
        if (i <=? val x)%N then il_search f' b k v i lb mid (2 * idx + 1)
        else il_search f' b k v i (mid + 1) rb (2 * idx + 2)
      else
        let* x := ld (il_data v) (il_pos k mid) in
        if (i <=? val x)%N then il_search f' b k v i lb mid idx
        else il_search f' b k v i (mid + 1) rb idx
    else Some rb
  end.
(** the scan over the words of the block, bit_vector_il.hpp:402-411, 456-465 *)
Fixpoint il_scan (f : nat) (b : bool) (d : mem) (w : nat) (i : N) (res : nat) : option nat :=
  match f with
  | 0 => None
  | S f' =>
    let* x := ld d w in
    let y := il_w b x in
    if (cnt y <? i)%N then il_scan f' b d (S w) (wsub i (cnt y)) (res + 64)
    else let* s := sel y i in Some (res + N.to_nat s)
  end.
(** select1 / select0, bit_vector_il.hpp:357-468 *)
Definition il_select (b : bool) (k : nat) (v : il) (i : N) : option nat :=
  let* rb := il_search (il_super v + 1) b k v i 0 (il_super v) 0 in
  let* r := (if rb =? 0 then None else Some (rb - 1)) in
  let res := r * 2 ^ k in
  let* c := ld (il_data v) (il_pos k r) in
  let i' := if b then wsub i c else wsub i (wsub (N.of_nat res) c) in
  il_scan (length (il_data v)) b (il_data v) (il_pos k r + 1) i' res.
