(** * Model of the navigation in cst_sct3 (include/sdsl/cst_sct3.hpp)

    The LCP array is a list of N, the parentheses sequence and the first-child bit vector are lists of bits with their rank
    and select supports given by the proved specification (C12-C16), bp_support_sada is the model of Bp.v and BpRmq.v, the
    values of the suffix array and of the LCP array are those the csa and lcp classes return (C42, C55).  64-bit words of
    the first-child vector are lists of 64 bits, lowest first; [g] gives the bits behind its end.  size_type is nat,
    subtractions are checked. *)
From Coq Require Import NArith ZArith List Bool Arith.
From Verif Require Import Base SpecBits AbsVec WtBase Bp BpRmq.
Import ListNotations.
Open Scope nat_scope.

(** ** construct_supercartesian_tree_bp_succinct_and_first_child with minimum = true, suffix_tree_helper.hpp:231-289

    The sorted_multi_stack_support is a stack of values, top first, with the preconditions and results proved in C36. *)
(** pop() reports whether the last copy of the top has been removed *)
Definition mpop_result (st : list N) : bool :=
  match st with [] => false | [_] => true | t :: u :: _ => negb (N.eqb t u) end.
Definition mpush (n : nat) (st : list N) (x : N) : option (list N) :=
  if N.leb x (N.of_nat n) && (length st <? 64 * (n / 64 + 1)) && match st with [] => true | t :: _ => N.leb t x end then Some (x :: st) else None.
(** lines 254-261: (stack, k, k_fc, fc_cnt, bp_fc) *)
Fixpoint fc_pops (x : N) (st : list N) (k kfc cnt : nat) (fc : list bool) : option (list N * nat * nat * nat * list bool) :=
  match st with
  | [] => Some ([], k, kfc, cnt, fc)
  | t :: st' =>
    if N.ltb x t then
      if mpop_result st then let* fc := aset fc kfc true in fc_pops x st' (k + 1) (kfc + 1) (cnt + 1) fc
      else fc_pops x st' (k + 1) (kfc + 1) cnt fc
    else Some (st, k, kfc, cnt, fc)
  end.
(** lines 252-264 *)
Fixpoint fc_loop (n : nat) (v : list N) (st : list N) (k kfc cnt : nat) (bp fc : list bool) : option (list N * nat * nat * list bool * list bool) :=
  match v with
  | [] => Some (st, kfc, cnt, bp, fc)
  | x :: v =>
    let* q := fc_pops x st k kfc cnt fc in
    let '(st, k, kfc, cnt, fc) := q in
    let* st := mpush n st x in
    let* bp := aset bp k true in
    fc_loop n v st (k + 1) kfc cnt bp fc
  end.
(** lines 280-288 *)
Fixpoint fc_close (st : list N) (kfc cnt : nat) (fc : list bool) : option (nat * list bool) :=
  match st with
  | [] => Some (cnt, fc)
  | _ :: st' =>
    if mpop_result st then let* fc := aset fc kfc true in fc_close st' (kfc + 1) (cnt + 1) fc
    else fc_close st' (kfc + 1) cnt fc
  end.
(** (fc_cnt, bp, bp_fc) *)
Definition sct_fc (v : list N) : option (nat * list bool * list bool) :=
  let n := length v in
  let* q := fc_loop n v [] 0 0 0 (repeat false (2 * n)) (repeat false n) in
  let '(st, kfc, cnt, bp, fc) := q in
  let* q := fc_close st kfc cnt fc in
  Some (fst q, bp, snd q).

(** ** the tree *)
(** bp_interval, cst_sct3.hpp:1232-1263 *)
Record node := mknd { n_i : nat; n_j : nat; n_ipos : nat; n_cipos : nat; n_jp1 : nat }.
(** the members; c_sa and c_lcp are the values returned by m_csa[] and m_lcp[], c_sigma is m_csa.sigma *)
Record cst := mkcst { c_bp : list bool; c_t : bps; c_fc : list bool; c_nodes : nat; c_sigma : nat; c_sa : list nat; c_lcp : list N }.
(** the constructor, lines 1147-1178 *)
Definition cst_make (B deg : nat) (lcp : list N) (sigma : nat) (sa : list nat) : option cst :=
  let* q := sct_fc lcp in
  let '(cnt, bp, fc) := q in
  let nodes := if length bp =? 2 then 1 else cnt + length bp / 2 in
  let* t := bp_make B deg bp in
  Some (mkcst bp t fc nodes sigma sa lcp).

Section Nav.
Variable g : padding.
Variables B deg : nat.
Variable c : cst.
Definition bsize : nat := length (c_bp c).
(** size(), lines 344-347 *)
Definition csize : nat := bsize / 2.
(** lines 497-500 *)
Definition root : option node :=
  let* j := csub csize 1 in let* p := csub bsize 1 in Some (mknd 0 j 0 p bsize).
(** operator==, lines 1259-1262 *)
Definition node_eqb (v w : node) : bool := (n_i v =? n_i w) && (n_j v =? n_j w).
(** lines 509-512 *)
Definition is_leaf (v : node) : bool := n_i v =? n_j v.
(** rank of bp_support_sada: the ones in bp[0..i] *)
Definition brank (i : nat) : option nat := bp_rank (c_bp c) i.
Definition bsel (i : nat) : option nat := bp_select (c_bp c) i.
Definition fclose (i : nat) : option nat := find_close g B deg (c_bp c) (c_t c) i.
Definition fopen (i : nat) : option nat := find_open g B deg (c_bp c) (c_t c) i.
Definition encl_ (i : nat) : option nat := enclose g B deg (c_bp c) (c_t c) i.
(** rank(p)-1 *)
Definition idx (p : nat) : option nat := let* r := brank p in csub r 1.
(** select_leaf, lines 522-533 *)
Definition select_leaf (i : nat) : option node :=
  let* ipos := bsel i in
  let* jp1 := (if i =? csize then Some bsize
               else let* b := t_get (c_bp c) (ipos + 1) in if b then Some (ipos + 1) else bsel (i + 1)) in
  let* k := csub i 1 in
  let* cp := fclose ipos in
  Some (mknd k k ipos cp jp1).
(** lines 541-567 *)
Definition node_size (v : node) : option nat := let* d := csub (n_j v) (n_i v) in Some (d + 1).
Definition leftmost_leaf (v : node) : option node := select_leaf (n_i v + 1).
Definition rightmost_leaf (v : node) : option node := select_leaf (n_j v + 1).
Definition lb (v : node) : nat := n_i v.
Definition rb (v : node) : nat := n_j v.
(** node(lb, rb), lines 1116-1126 *)
Definition mknode (l r : nat) : option node :=
  let* ipos := bsel (l + 1) in
  let* s1 := csub csize 1 in
  let* jp1 := (if r =? s1 then Some bsize else bsel (r + 2)) in
  let* cp := fclose ipos in
  Some (mknd l r ipos cp jp1).

(** word k of the first-child vector *)
Definition fword (k : nat) : option (list bool) :=
  if k <? (length (c_fc c) + 64) / 64 then Some (map (fun q => nth q (c_fc c) (g q)) (seq (64 * k) 64)) else None.
Definition anyb (l : list bool) : bool := existsb (fun b => b) l.
(** bits::lo and bits::hi of a word different from 0 (C01) *)
Fixpoint lo_of (l : list bool) : nat := match l with [] => 0 | b :: l => if b then 0 else S (lo_of l) end.
Fixpoint hi_of (l : list bool) : nat := match l with [] => 0 | _ :: l => if anyb l then S (hi_of l) else 0 end.

(** closing_pos_of_first_l_index, lines 213-220 *)
Definition first_close (v : node) : option nat := if n_jp1 v <? n_cipos v then csub (n_jp1 v) 1 else csub (n_cipos v) 1.
(** degree, lines 708-743; the loop over the previous words, 722-731; None: not found *)
Fixpoint deg_scan (steps : nat) (p : nat) (res : nat) : option (option nat) :=
  match p with
  | O => Some None
  | S p =>
    match steps with
    | O => Some None
    | S steps => let* w := fword p in if anyb w then Some (Some (res + (63 - hi_of w))) else deg_scan steps p (res + 64)
    end
  end.
Definition degree (v : node) : option nat :=
  if is_leaf v then Some 0
  else
    let* r := first_close v in
    let* rk := brank r in
    let* r0 := csub r rk in
    let* w := fword (r0 / 64) in
    let off := r0 mod 64 in
    let w := firstn off w in
    if anyb w then let* d := csub off (hi_of w) in Some (d + 1)
    else if r0 / 64 =? 0 then Some (off + 2)
    else
      let* s := deg_scan 4 (r0 / 64) (off + 2) in
      match s with
      | Some d => Some d
      | None =>
        let* goal := t_rank (c_fc c) r0 in
        if goal =? 0 then Some (r0 + 2) else let* p := t_sel1 (c_fc c) goal in let* d := csub r0 p in Some (d + 1)
      end.
(** select_l_index, lines 175-207: (l-index, kpos, ckpos) *)
Definition select_l_index (v : node) (i : nat) : option (nat * nat * nat) :=
  let* ck := first_close v in
  if i =? 1 then let* kp := fopen ck in let* k := idx kp in Some (k, kp, ck)
  else
    let* rk := brank ck in
    let* r := csub ck rk in
    let* d := (if i <=? r + 1 then degree v else Some 0) in
    if (i <=? r + 1) && (i <? d) then
      let* ck := csub ck (i - 1) in let* kp := fopen ck in let* k := idx kp in Some (k, kp, ck)
    else
      let kp := n_jp1 v in
      let* ck := (if kp <? bsize then fclose kp else Some bsize) in
      Some (n_j v + 1, kp, ck).
(** nsv, lines 233-238 *)
Definition nsv (ipos : nat) : option nat := let* cp := fclose ipos in brank cp.
(** psv, lines 249-302: (value, psvpos, psvcpos) *)
Definition psv_up (ipos : nat) : option (nat * nat * nat) :=
  let* p := encl_ ipos in let* cp := fclose p in let* k := idx p in Some (k, p, cp).
(** lines 277-290: delta *)
Fixpoint psv_scan (steps : nat) (p delta r0 : nat) : option nat :=
  let* w := fword p in
  if anyb w then Some (delta + lo_of w + 1)
  else match steps with
       | S steps => psv_scan steps (p + 1) (delta + 64) r0
       | O => let* rk := t_rank (c_fc c) (r0 + 1) in let* pos := t_sel1 (c_fc c) (rk + 1) in csub pos r0
       end.
(** lines 293-301 *)
Definition psv_end (nfc : nat) : option (nat * nat * nat) :=
  let* b := t_get (c_bp c) (nfc + 1) in
  if b then let* o := fopen nfc in psv_up o
  else let* p := fopen (nfc + 1) in let* k := idx p in Some (k, p, nfc + 1).
Definition psv (ipos cipos : nat) : option (nat * nat * nat) :=
  if bsize <=? cipos + c_sigma c then let* p := csub bsize 1 in Some (0, 0, p)
  else
    let* b := t_get (c_bp c) (cipos + 1) in
    if b then psv_up ipos
    else
      let* rk := brank cipos in
      let* r0 := csub cipos rk in
      let* w := fword (r0 / 64) in
      let w := skipn (r0 mod 64) w in
      if anyb w then
        let nfc := cipos + lo_of w in
        let* b := (if cipos =? nfc then t_get (c_bp c) (nfc + 1) else Some false) in
        if b then psv_up ipos else psv_end nfc
      else let* d := psv_scan 4 (r0 / 64 + 1) (63 - r0 mod 64) r0 in psv_end (cipos + d).
(** the position of the opening parenthesis of j+1, as in lines 607-611 *)
Definition jp1_of (j : nat) : option nat :=
  let* s1 := csub csize 1 in if j =? s1 then Some bsize else bsel (j + 2).
(** parent, lines 601-619 *)
Definition parent (v : node) : option node :=
  if n_jp1 v <? n_cipos v then
    let* cp := fclose (n_jp1 v) in
    let* q := psv (n_jp1 v) cp in
    let '(i, ip, icp) := q in
    let* ns := nsv (n_jp1 v) in
    let* j := csub ns 1 in
    let* jp := jp1_of j in
    Some (mknd i j ip icp jp)
  else
    let* q := psv (n_ipos v) (n_cipos v) in
    let '(i, ip, icp) := q in
    Some (mknd i (n_j v) ip icp (n_jp1 v)).
(** sibling, lines 638-667 *)
Definition sibling (v : node) : option node :=
  if n_cipos v <? n_jp1 v then root
  else
    let* cj := fclose (n_jp1 v) in
    let* cm := csub cj 1 in
    let* last := t_get (c_bp c) cm in
    let* last := (if last then Some true else let* rk := brank cm in let* fi := csub cm rk in t_get (c_fc c) fi) in
    if last then
      let* ns := nsv (n_jp1 v) in
      let* j := csub ns 1 in
      let* jp := jp1_of j in
      Some (mknd (n_j v + 1) j (n_jp1 v) cj jp)
    else
      let* o := fopen cm in
      let* rk := brank o in
      let* nj := csub rk 2 in
      let* jp := bsel (nj + 2) in
      Some (mknd (n_j v + 1) nj (n_jp1 v) cj jp).
(** select_child, lines 679-699 *)
Definition select_child (v : node) (i : nat) : option node :=
  if is_leaf v then root
  else if i =? 1 then
    let* q := select_l_index v 1 in
    let '(k, kp, ck) := q in
    let* j := csub k 1 in
    Some (mknd (n_i v) j (n_ipos v) (n_cipos v) kp)
  else
    let* i1 := csub i 1 in
    let* q := select_l_index v i1 in
    let '(k1, kp1, ck1) := q in
    if k1 =? n_j v + 1 then root
    else
      let* q := select_l_index v i in
      let '(k2, kp2, ck2) := q in
      let* j := csub k2 1 in
      Some (mknd k1 j kp1 ck1 kp2).
(** rmq, lines 307-322 *)
Definition crmq (l r : nat) : option nat :=
  let* i := bsel (l + 1) in
  let* j := bsel (r + 1) in
  let* fc := fclose i in
  if j <? fc then Some l
  else
    let* ec := rr_enclose g B deg (c_bp c) (c_t c) i j in
    if ec =? bsize then Some r else idx ec.
(** the interval around the minimum, lines 865-879 and 946-959 *)
Definition around_min (l r : nat) : option node :=
  let* m := crmq l r in
  let* mp := bsel (m + 1) in
  let* mc := fclose mp in
  let* z := csub bsize (c_sigma c) in
  if z <=? mc then root
  else
    let* ns := nsv mp in
    let* j := csub ns 1 in
    let* q := psv mp mc in
    let '(i, ip, icp) := q in
    let* s1 := csub csize 1 in
    let* jp := (if j <? s1 then bsel (j + 2) else Some bsize) in
    Some (mknd i j ip icp jp).
(** lca, lines 857-881 *)
Definition lca (v w : node) : option node :=
  let '(v, w) := if (n_i w <? n_i v) || ((n_i v =? n_i w) && (n_j v <? n_j w)) then (w, v) else (v, w) in
  if n_j w <=? n_j v then Some v else around_min (n_i v + 1) (n_j w).
(** depth, lines 890-901 *)
Definition depth_ (v : node) : option N :=
  if is_leaf v then let* s := nth_error (c_sa c) (n_i v) in let* d := csub csize s in Some (N.of_nat d)
  else
    let* r := root in
    if node_eqb v r then Some 0%N
    else let* q := select_l_index v 1 in let '(k, _, _) := q in nth_error (c_lcp c) k.
(** node_depth, lines 915-923 *)
Fixpoint node_depth (fuel : nat) (v : node) : option nat :=
  match fuel with
  | O => None
  | S fuel => let* r := root in if node_eqb v r then Some 0 else let* p := parent v in let* d := node_depth fuel p in Some (S d)
  end.
(** id, lines 1014-1028 *)
Definition node_id (v : node) : option nat :=
  if is_leaf v then Some (n_i v)
  else
    let* ck := first_close v in
    let* rk := brank ck in
    let* r0 := csub ck rk in
    let* r := t_rank (c_fc c) r0 in
    Some (csize + r).
(** the binary searches of inv_id, lines 1051-1060 and 1068-1077: the last position whose count is below x *)
Fixpoint bsearch (fuel : nat) (f : nat -> option nat) (x l r : nat) : option nat :=
  match fuel with
  | O => None
  | S fuel =>
    if 1 <? r - l then
      let mid := l + (r - l) / 2 in
      let* a := f mid in
      if a <? x then bsearch fuel f x mid r else bsearch fuel f x l mid
    else Some l
  end.
(** inv_id, lines 1038-1105; rank(ipos-1) is m_bp_rank(ipos) also for ipos = 0, where ipos-1 wraps around *)
Definition inv_id (id : nat) : option node :=
  if id <? csize then select_leaf (id + 1)
  else
    let id := id - csize + 1 in
    let* r0 := bsearch bsize (fun m => t_rank (c_fc c) m) id 0 bsize in
    let* ck := bsearch bsize (fun m => let* r := t_rank (c_bp c) m in csub m r) (r0 + 1) 0 bsize in
    if ck + 1 =? bsize then root
    else
      let* b := t_get (c_bp c) (ck + 1) in
      if b then
        let* rj := t_rank (c_bp c) (ck + 1) in
        let* j := csub rj 1 in
        let* kp := fopen ck in
        let* ip := encl_ kp in
        let* cp := fclose ip in
        let* i := t_rank (c_bp c) ip in
        Some (mknd i j ip cp (ck + 1))
      else
        let* ip := fopen (ck + 1) in
        let* i := t_rank (c_bp c) ip in
        let* ns := nsv ip in
        let* j := csub ns 1 in
        let* jp := jp1_of j in
        Some (mknd i j ip (ck + 1) jp).
(** tlcp_idx, lines 1133-1138 *)
Definition tlcp_idx (i : nat) : option nat :=
  let* ip := bsel (i + 1) in
  let* cp := fclose ip in
  let* x := csub ((ip + cp - 1) / 2) i in
  t_rank (c_fc c) x.
End Nav.
