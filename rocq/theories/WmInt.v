(** * wm_int (include/sdsl/wm_int.hpp): the wavelet matrix *)
From Coq Require Import NArith ZArith List Lia Bool Arith.
From Verif Require Import Base SpecBits AbsVec WtBase WtInt.
Import ListNotations.

(* the members m_size, m_sigma, m_tree, m_max_level as in wt_int, and m_zero_cnt,
   m_rank_level: wm_int.hpp:87-96 *)
Record wm : Type := mkwm { wm_w : wt; wm_zc : list nat; wm_rl : list nat }.
Definition wm_n (w : wm) : nat := wt_n (wm_w w).
Definition wm_tree (w : wm) : list bool := wt_tree (wm_w w).
Definition wm_L (w : wm) : nat := wt_L (wm_w w).
Definition wm_sigma (w : wm) : nat := wt_sigma (wm_w w).

(* wm_int.hpp:121-123, the default constructor *)
Definition wm_empty : wm := mkwm wt_empty [] [].

(* wm_int.hpp:181-195: for (i=0; i<m_size; ++i), [xs] are the indices i left.
   State: rac, zero_buf (push_back: PropIvb.v), zeros, the tree output *)
Fixpoint cm_scan (is : list nat) (rac zb : list N) (zeros : nat) (mask : N) (t : twr) : option (list N * list N * nat * twr) :=
  match is with
  | [] => Some (rac, zb, zeros, t)
  | i :: is' =>
    let* x := nth_error rac i in
    let* t' := tw_emit t (hit x mask) in
    if hit x mask then cm_scan is' rac (zb ++ [x]) zeros mask t'
    else let* rac' := aset rac zeros x in cm_scan is' rac' zb (zeros + 1) mask t'
  end.
(* wm_int.hpp:197-199: for (i=zeros; i<m_size; ++i) rac[i] = zero_buf[i-zeros] *)
Fixpoint cm_copy (is : list nat) (rac zb : list N) (zeros : nat) : option (list N) :=
  match is with
  | [] => Some rac
  | i :: is' => let* j := csub i zeros in let* x := nth_error zb j in let* rac' := aset rac i x in cm_copy is' rac' zb zeros
  end.
(* wm_int.hpp:175-200: for (k=0; k<m_max_level; ++k); [d] is m_max_level-k *)
Fixpoint cm_levels (d k : nat) (rac : list N) (zc : list nat) (t : twr) : option (list N * list nat * twr) :=
  match d with
  | 0 => Some (rac, zc, t)
  | S d' =>
    let* mask := shl_c 1 d' in
    let* r := cm_scan (seq 0 (length rac)) rac [] 0 mask t in
    let '(rac, zb, zeros, t) := r in
    let* zc := aset zc k zeros in
    let* rac := cm_copy (seq zeros (length rac - zeros)) rac zb zeros in
    cm_levels d' (k + 1) rac zc t
  end.
(* std::unique(rac.begin(), rac.end()) - rac.begin(): the number of runs *)
Fixpoint runs (l : list N) : nat :=
  match l with
  | [] => 0
  | x :: l' => match l' with [] => 1 | y :: _ => (if (x =? y)%N then 0 else 1) + runs l' end
  end.
(* wm_int.hpp:215-217 *)
Fixpoint cm_rl (ks : list nat) (n : nat) (t : list bool) (rl : list nat) : option (list nat) :=
  match ks with
  | [] => Some rl
  | k :: ks' => let* r := t_rank t (k * n) in let* rl' := aset rl k r in cm_rl ks' n t rl'
  end.
(* wm_int.hpp:138-218 (like wt_int: the sequence S is the buffer's prefix) *)
Definition wm_make (S : list N) (ml : nat) : option wm :=
  if length S =? 0 then Some wm_empty
  else
    let L := if ml =? 0 then hiw (max_value S) else ml in
    let* r := cm_levels L 0 S (repeat 0 L) tw_new in
    let '(rac, zc, t) := r in
    let* tree := tw_close t (length S * L) in
    let* rl := cm_rl (seq 0 L) (length S) tree (repeat 0 L) in
    Some (mkwm (mkwt (length S) (runs rac) tree L) zc rl).

(** ** Queries; in each loop [d] = m_max_level-k *)
(* wm_int.hpp:277-296, operator[] *)
Fixpoint wm_acc_loop (w : wm) (d k i : nat) (res : N) : option N :=
  match d with
  | 0 => Some res
  | S d' =>
    let* ri := t_rank (wm_tree w) i in
    let* rl := nth_error (wm_rl w) k in
    let* ones := csub ri rl in
    let* b := t_get (wm_tree w) i in
    if b then let* z := nth_error (wm_zc w) k in
              wm_acc_loop w d' (k + 1) ((k + 1) * wm_n w + z + ones) (N.lor (shl res 1) 1)
    else let* q := csub i (k * wm_n w) in let* zs := csub q ones in
         wm_acc_loop w d' (k + 1) ((k + 1) * wm_n w + zs) (shl res 1)
  end.
Definition wm_access (w : wm) (i : nat) : option N := wm_acc_loop w (wm_L w) 0 i 0.

(* the body shared by rank, inverse_select and select, e.g. wm_int.hpp:317-319:
   rank_b, ones in [b..b+i) and ones in [level_b..b) *)
Definition wm_ones (w : wm) (k b i : nat) : option (nat * nat * nat) :=
  let* rb := t_rank (wm_tree w) b in
  let* r := t_rank (wm_tree w) (b + i) in
  let* ones := csub r rb in
  let* rl := nth_error (wm_rl w) k in
  let* op := csub rb rl in
  Some (rb, ones, op).
(* the new b, e.g. wm_int.hpp:322 and 325 *)
Definition wm_child (w : wm) (k b op : nat) (bit : bool) : option nat :=
  if bit then let* z := nth_error (wm_zc w) k in Some ((k + 1) * wm_n w + z + op)
  else let* q := csub b (k * wm_n w) in let* q := csub q op in Some ((k + 1) * wm_n w + q).

(* wm_int.hpp:307-332, rank *)
Fixpoint wm_rank_loop (w : wm) (d k b i : nat) (c mask : N) : option nat :=
  match d with
  | 0 => Some i
  | S d' =>
    if i =? 0 then Some i else
    let* r := wm_ones w k b i in
    let '(rb, ones, op) := r in
    let* i' := (if hit c mask then Some ones else csub i ones) in
    let* b' := wm_child w k b op (hit c mask) in
    wm_rank_loop w d' (k + 1) b' i' c (shr mask 1)
  end.
Definition wm_rank (w : wm) (i : nat) (c : N) : option nat :=
  let* top := shl_c 1 (wm_L w) in
  if (top <=? c)%N then Some 0
  else let* l1 := csub (wm_L w) 1 in let* mask := shl_c 1 l1 in wm_rank_loop w (wm_L w) 0 0 i c mask.

(* wm_int.hpp:341-367, inverse_select *)
Fixpoint wm_isel_loop (w : wm) (d k b i : nat) (c : N) : option (nat * N) :=
  match d with
  | 0 => Some (i, c)
  | S d' =>
    let* r := wm_ones w k b i in
    let '(rb, ones, op) := r in
    let* bit := t_get (wm_tree w) (b + i) in
    let* i' := (if bit then Some ones else csub i ones) in
    let* b' := wm_child w k b op bit in
    wm_isel_loop w d' (k + 1) b' i' (if bit then N.lor (shl c 1) 1 else shl c 1)
  end.
Definition wm_inverse_select (w : wm) (i : nat) : option (nat * N) :=
  let* l1 := csub (wm_L w) 1 in let* mask := shl_c 1 l1 in
  wm_isel_loop w (wm_L w) 0 0 i 0.

(* wm_int.hpp:377-427, select *)
Fixpoint wm_sel_down (w : wm) (d k b r : nat) (c mask : N) (po pr : list nat) : option (list nat * list nat) :=
  match d with
  | 0 => Some (po, pr)
  | S d' =>
    let* x := wm_ones w k b r in
    let '(rb, ones, op) := x in
    let* r' := (if hit c mask then Some ones else csub r ones) in
    let* b' := wm_child w k b op (hit c mask) in
    let* po := aset po (k + 1) b' in
    let* pr := aset pr k rb in
    wm_sel_down w d' (k + 1) b' r' c (shr mask 1) po pr
  end.
(* the loop of wm_int.hpp:415-424 is the loop of wt_int.hpp:470-481 *)
Definition wm_select (w : wm) (i : nat) (c : N) : option nat :=
  let* l1 := csub (wm_L w) 1 in
  let* mask := shl_c 1 l1 in
  let z := repeat 0 (wm_L w + 1) in
  let* r := (if i =? 0 then Some (z, z) else wm_sel_down w (wm_L w) 0 0 i c mask z z) in
  let '(po, pr) := r in
  let* j := sel_up (wm_w w) (wm_L w) i c 1 po pr in csub j 1.
