(** * Model of dac_vector and dac_vector_dp (include/sdsl/dac_vector.hpp)

    int_vectors are lists of values, bit_vectors lists of bits (C04-C06), the rank support is the proved abstraction
    (C13, C14): rank(i) needs i <= size.  Indices and counters are nat; an access out of bounds is None. *)
From Coq Require Import NArith List Bool Arith.
From Verif Require Import Base Bits SpecBits AbsVec WtBase.
Import ListNotations.

(** ** dac_vector<t_b>, dac_vector.hpp:337-338: m_data, m_overflow, m_level_pointer_and_rank, m_max_level *)
Record dac := mkdac { d_data : list N; d_ov : list bool; d_lp : list nat; d_max : nat }.

(** rank support of m_overflow *)
Definition ovrank (ov : list bool) (i : nat) : option nat :=
  if i <=? length ov then Some (rank_of (fun p => nth p ov false) i) else None.

(** dac_vector.hpp:513-519: one value of the counting pass; [lx] = level_x_2, [mx] = max_level_x_2.
    The fuel bounds the number of non-zero shifts of a 64-bit value. *)
Fixpoint dac_count1 (b fuel : nat) (v : N) (lx : nat) (lp : list nat) (mx : nat) : option (list nat * nat) :=
  if (v =? 0)%N then Some (lp, mx)
  else match fuel with
       | 0 => None
       | S f => let* c := nth_error lp lx in
                let* lp' := aset lp lx (S c) in
                dac_count1 b f (shr v b) (lx + 2) lp' (Nat.max mx (lx + 2))
       end.
(** dac_vector.hpp:509-520 *)
Fixpoint dac_count (b : nat) (c : list N) (lp : list nat) (mx : nat) : option (list nat * nat) :=
  match c with
  | [] => Some (lp, mx)
  | x :: t => let* r := dac_count1 b 64 (shr x b) 2 lp mx in dac_count b t (fst r) (snd r)
  end.
(** dac_vector.hpp:523-533: prefix sums; i = 2*(done), [k] steps left.  Result: table, m_max_level, sum_blocks, last_block_size *)
Fixpoint dac_prefix (k i : nat) (lp : list nat) (ml sum last : nat) : option (list nat * nat * nat * nat) :=
  match k with
  | 0 => Some (lp, ml, sum, last)
  | S k' => let* c := nth_error lp i in
            let* lp' := aset lp i sum in
            if sum <? sum + c then dac_prefix k' (i + 2) lp' (S ml) (sum + c) c
            else dac_prefix k' (i + 2) lp' ml (sum + c) last
  end.
(** dac_vector.hpp:549-556: the blocks of one value behind the first; [j] is the place of the block before *)
Fixpoint dac_fill1 (b fuel : nat) (v : N) (lx j : nat) (cn : list nat) (data : list N) (ov : list bool) : option (list nat * list N * list bool) :=
  if (v =? 0)%N then Some (cn, data, ov)
  else match fuel with
       | 0 => None
       | S f => let* ov' := aset ov j true in
                let* j' := nth_error cn lx in
                let* cn' := aset cn lx (S j') in
                let* data' := aset data j' (N.land v (lo_set b)) in
                dac_fill1 b f (shr v b) (lx + 2) j' cn' data' ov'
       end.
(** dac_vector.hpp:543-557 *)
Fixpoint dac_fill (b : nat) (c : list N) (cn : list nat) (data : list N) (ov : list bool) : option (list nat * list N * list bool) :=
  match c with
  | [] => Some (cn, data, ov)
  | x :: t => let* j := nth_error cn 0 in
              let* cn' := aset cn 0 (S j) in
              let* data' := aset data j (N.land x (lo_set b)) in
              let* r := dac_fill1 b 64 (shr x b) 2 j cn' data' ov in
              dac_fill b t (fst (fst r)) (snd (fst r)) (snd r)
  end.
(** dac_vector.hpp:562-566: ranks at the level pointers; [k] bounds the loop by the table size *)
Fixpoint dac_ranks (k i : nat) (ov : list bool) (lp : list nat) : option (list nat) :=
  match k with
  | 0 => None
  | S k' => if 2 * i <? length lp then
              let* p := nth_error lp (2 * i) in
              if p <? length ov then let* r := ovrank ov p in
                                     let* lp' := aset lp (2 * i + 1) r in dac_ranks k' (i + 1) ov lp'
              else Some lp
            else Some lp
  end.
(** dac_vector.hpp:495-568: constructor (the one from an int_vector_buffer, 570-645, is the same code).
    For an empty container the members keep their initial values; m_max_level is then never used. *)
Definition dac_make (b : nat) (c : list N) : option dac :=
  match c with
  | [] => Some (mkdac [] [] (repeat 0 4) 0)
  | _ => let* lp0 := aset (repeat 0 128) 0 (length c) in
         let* r := dac_count b c lp0 4 in
         let lp1 := firstn (snd r) (fst r) in
         let* pr := dac_prefix ((length lp1 + 1) / 2) 0 lp1 0 0 0 in
         let '(lp2, ml, sum, last) := pr in
         let* f := dac_fill b c lp2 (repeat 0%N sum) (repeat false (sum - last)) in
         let '(_, data, ov) := f in
         let* lp3 := dac_ranks (S (length lp2)) 0 ov lp2 in
         Some (mkdac data ov lp3 ml)
  end.
(** dac_vector.hpp:402-405: size *)
Definition dac_size (d : dac) : option nat := nth_error (d_lp d) 2.
(** dac_vector.hpp:458-471: operator[]; [lv] = level, [off] = offset, [p] the index of the table pointer *)
Fixpoint dac_go (b fuel : nat) (d : dac) (lv off p ppi : nat) (res : N) : option N :=
  match fuel with
  | 0 => None
  | S f =>
    if lv <? d_max d then
      let* o := nth_error (d_ov d) ppi in
      if o then
        let* base := nth_error (d_lp d) (p + 2) in
        let* r := ovrank (d_ov d) ppi in
        let* q := nth_error (d_lp d) (p + 1) in
        let* t := csub r q in
        let* x := nth_error (d_data d) (base + t) in
        let* y := shl_c x off in
        dac_go b f d (lv + 1) (off + b) (p + 2) (base + t) (N.lor res y)
      else Some res
    else Some res
  end.
Definition dac_get (b : nat) (d : dac) (i : nat) : option N :=
  let* x := nth_error (d_data d) i in
  let* p0 := nth_error (d_lp d) 0 in
  dac_go b 65 d 1 b 0 (p0 + i) x.

(** ** dac_vector_dp, dac_vector.hpp:64-70: m_size, m_overflow, m_data, m_offsets *)
Record dacp := mkdacp { p_size : nat; p_ov : list bool; p_data : list (list N); p_off : list nat }.

(** dac_vector.hpp:99-109: the overflow bits of one level *)
Fixpoint dp_mark (bn off : nat) (c : list N) (ov : list bool) : option (list bool) :=
  match c with
  | [] => Some ov
  | x :: t => let* ov' := aset ov off (bn <=? N.to_nat (hi x)) in dp_mark bn (off + 1) t ov'
  end.
(** dac_vector.hpp:117-124: distribute the values by their overflow bit, in order.  (The vector [recurse] is wide enough for
    every value and bit_compress of [data] keeps the values, C09.) *)
Fixpoint dp_split (off : nat) (c : list N) (ov : list bool) : option (list N * list N) :=
  match c with
  | [] => Some ([], [])
  | x :: t => let* o := nth_error ov off in
              let* r := dp_split (off + 1) t ov in
              Some (if o then (fst r, x :: snd r) else (x :: fst r, snd r))
  end.
(** dac_vector.hpp:72-136: construct_level; result: overflow bits, data per level, offsets *)
Fixpoint dp_levels (bs : list nat) (off : nat) (c : list N) (ov : list bool) : option (list bool * list (list N) * list nat) :=
  match bs with
  | [] => Some (ov, [], [])
  | bn :: bs' =>
    let* ov' := dp_mark bn off c ov in
    let* s := dp_split off c ov' in
    let* r := dp_levels bs' (off + length c) (snd s) ov' in
    let '(ov2, data, offs) := r in
    Some (ov2, fst s :: data, off :: offs)
  end.
(** dac_vector.hpp:239-248: total_overflow_size *)
Fixpoint dp_depth (bs : list nat) (m : nat) : nat :=
  match bs with [] => 1 | b :: t => if b <=? m then S (dp_depth t m) else 1 end.
Definition dp_total (bs : list nat) (c : list N) : nat := fold_right (fun x s => dp_depth bs (N.to_nat (hi x)) + s) 0 c.
(** dac_vector.hpp:250-252 for a given plan bit_sizes *)
Definition dp_build (bs : list nat) (c : list N) : option dacp :=
  let* r := dp_levels bs 0 c (repeat false (dp_total bs c)) in
  let '(ov, data, offs) := r in Some (mkdacp (length c) ov data offs).

(** dac_vector.hpp:195-205: the largest number of shifts, max_msb (at least 0) *)
Definition dp_maxmsb (c : list N) : nat := fold_left (fun m x => Nat.max m (N.to_nat (hi x))) c 0.
(** dac_vector.hpp:207-236: the choice of bit_sizes.  Costs are an abstract type [V] (the code uses double) with the value
    infinity, the comparison [lt], and [cw b b2 v]: the cost of going from b to b2 when the rest costs v.
    [f]: row b2 -> lvl -> cost; [nxt]: row -> lvl -> option (None stands for -1). *)
Section plan.
Context {V : Type} (inf zero : V) (lt : V -> V -> bool) (cw : nat -> nat -> V -> V).
(* the loop over b2, 218-224: candidates b2 = b+1 .. *)
Fixpoint plan_b2 (b : nat) (cands : list nat) (prev : nat -> V) (best : V) (nx : option nat) : V * option nat :=
  match cands with
  | [] => (best, nx)
  | b2 :: t => let w := cw b b2 (prev b2) in
               if lt w best then plan_b2 b t prev w (Some b2) else plan_b2 b t prev best nx
  end.
(* cost and successor of (b, lvl); top = max_msb + 1.  Computed by recursion over lvl, which gives the same table as the
   loops because row b and column lvl only depend on larger b2 and lvl - 1.  At lvl = 0 the code leaves nxt unset. *)
Fixpoint plan_f (top lvl b : nat) : V * option nat :=
  if top <=? b then (zero, None)
  else match lvl with
       | 0 => (inf, None)
       | S l => plan_b2 b (seq (b + 1) (top - b)) (fun b2 => fst (plan_f top l b2)) inf None
       end.
(* 229-236: follow the successors *)
Fixpoint plan_walk (top lvl b : nat) : list nat :=
  match snd (plan_f top lvl b) with
  | None => []
  | Some b' => b' :: match lvl with 0 => [] | S l => plan_walk top l b' end
  end.
End plan.
(** dac_vector.hpp:190-253: constructor *)
Definition dp_make {V} (inf zero : V) lt cw (maxl : nat) (c : list N) : option dacp :=
  dp_build (plan_walk inf zero lt cw (dp_maxmsb c + 1) maxl 0) c.
(** dac_vector.hpp:284-294: operator[]; the fuel bounds the number of levels *)
Fixpoint dp_go (fuel : nat) (d : dacp) (lv off i : nat) : option N :=
  match fuel with
  | 0 => None
  | S f =>
    let* o := nth_error (p_ov d) (off + i) in
    let* r1 := ovrank (p_ov d) (off + i) in
    let* r0 := ovrank (p_ov d) off in
    let* r := csub r1 r0 in
    if o then let* off' := nth_error (p_off d) (lv + 1) in dp_go f d (lv + 1) off' r
    else let* i' := csub i r in
         let* l := nth_error (p_data d) lv in nth_error l i'
  end.
Definition dp_get (d : dacp) (i : nat) : option N :=
  let* off := nth_error (p_off d) 0 in dp_go (S (length (p_off d))) d 0 off i.
(** dac_vector.hpp:320-330: m_size recomputed by load *)
Definition dp_load_size (d : dacp) : nat := fold_right (fun l s => length l + s) 0 (p_data d).
