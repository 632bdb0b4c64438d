(** * wt_algorithm.hpp: the algorithms on the nodes of wt_int and wm_int

    A range_type {r0, r1} (wt_helper.hpp:16) is used by the code only through
    r0, r1+1, empty(r) := r0 == r1+1 and size(r) := r1-r0+1 (wt_helper.cpp); the
    model keeps the pair (r0, r1+1), so that the empty range {0, -1} is (0, 0). *)
From Coq Require Import NArith ZArith List Lia Bool Arith.
From Verif Require Import Base Bits SpecBits AbsVec WtBase WtInt WmInt.
Import ListNotations.

(* node_type: wt_int.hpp:716-761, wm_int.hpp:549-594 *)
Record nd : Type := mknd { nd_off : nat; nd_size : nat; nd_level : nat; nd_sym : N }.
Notation rng := (nat * nat)%type.
Definition rempty (r : rng) : bool := fst r =? snd r.
Definition rsize (r : rng) : nat := snd r - fst r.

(* the template parameter t_wt *)
Inductive ptree : Type := PInt (w : wt) | PMat (w : wm).
Definition p_w (p : ptree) : wt := match p with PInt w => w | PMat w => wm_w w end.
Definition p_tree (p : ptree) : list bool := wt_tree (p_w p).
Definition p_n (p : ptree) : nat := wt_n (p_w p).
Definition p_L (p : ptree) : nat := wt_L (p_w p).

(* root(): wt_int.hpp:799-801, wm_int.hpp:643-646; is_leaf: wt_int.hpp:759-761, wm_int.hpp:598-601 *)
Definition p_root (p : ptree) : nd := mknd 0 (p_n p) 0 0.
Definition p_leaf (p : ptree) (v : nd) : bool := nd_level v =? p_L p.
(* expand(v): wt_int.hpp:820-837 *)
Definition wt_expand (w : wt) (v : nd) : option (nd * nd) :=
  let* orank := t_rank (wt_tree w) (nd_off v) in
  let* r := t_rank (wt_tree w) (nd_off v + nd_size v) in
  let* ones := csub r orank in
  let* lsize := csub (nd_size v) ones in
  Some (mknd (nd_off v + wt_n w) lsize (nd_level v + 1) (shl (nd_sym v) 1),
        mknd (nd_off v + wt_n w + lsize) ones (nd_level v + 1) (N.lor (shl (nd_sym v) 1) 1)).
(* expand(v): wm_int.hpp:667-685 *)
Definition wm_expand (w : wm) (v : nd) : option (nd * nd) :=
  let* x := wm_ones w (nd_level v) (nd_off v) (nd_size v) in
  let '(rb, ones, op) := x in
  let* o0 := wm_child w (nd_level v) (nd_off v) op false in
  let* s0 := csub (nd_size v) ones in
  let* o1 := wm_child w (nd_level v) (nd_off v) op true in
  Some (mknd o0 s0 (nd_level v + 1) (shl (nd_sym v) 1),
        mknd o1 ones (nd_level v + 1) (N.lor (shl (nd_sym v) 1) 1)).
Definition p_expand (p : ptree) (v : nd) : option (nd * nd) :=
  match p with PInt w => wt_expand w v | PMat w => wm_expand w v end.
(* expand(v, r): wt_int.hpp:886-903, wm_int.hpp:746-764 (the same code) *)
Definition p_expand_r (p : ptree) (v : nd) (r : rng) : option (rng * rng) :=
  let* v_sp := t_rank (p_tree p) (nd_off v) in
  let* sp := t_rank (p_tree p) (nd_off v + fst r) in
  let* e := t_rank (p_tree p) (nd_off v + snd r) in
  let* right_size := csub e sp in
  let* size := csub (snd r) (fst r) in
  let* left_size := csub size right_size in
  let* right_sp := csub sp v_sp in
  let* left_sp := csub (fst r) right_sp in
  Some ((left_sp, left_sp + left_size), (right_sp, right_sp + right_size)).
(* expand(v, ranges): wt_int.hpp:849-884, wm_int.hpp:697-733: the same for every range *)
Fixpoint p_expand_rs (p : ptree) (v : nd) (rs : list rng) : option (list rng * list rng) :=
  match rs with
  | [] => Some ([], [])
  | r :: rs' => let* x := p_expand_r p v r in let* y := p_expand_rs p v rs' in Some (fst x :: fst y, snd x :: snd y)
  end.

(** ** Loops; [f] is a bound for the number of rounds, 0 is an error *)
(* wt_algorithm.hpp:95-126, quantile_freq *)
Fixpoint qf_loop (f : nat) (p : ptree) (v : nd) (r : rng) (q : nat) : option (N * nat) :=
  match f with
  | 0 => None
  | S f' =>
    if p_leaf p v then Some (nd_sym v, rsize r)
    else
      let* c := p_expand p v in
      let* cr := p_expand_r p v r in
      let zeros := rsize (fst cr) in
      if zeros <=? q then qf_loop f' p (snd c) (snd cr) (q - zeros)
      else qf_loop f' p (fst c) (fst cr) q
  end.
Definition quantile_freq (p : ptree) (lb rb q : nat) : option (N * nat) :=
  qf_loop (p_L p + 1) p (p_root p) (lb, rb + 1) q.

(* wt_algorithm.hpp:128-151, _interval_symbols_rec *)
Fixpoint ais_rec (f : nat) (p : ptree) (r : rng) (v : nd) (acc : list (N * nat * nat)) : option (list (N * nat * nat)) :=
  match f with
  | 0 => None
  | S f' =>
    if p_leaf p v then Some (acc ++ [(nd_sym v, fst r, snd r)])
    else
      let* c := p_expand p v in
      let* cr := p_expand_r p v r in
      let* acc := (if rempty (fst cr) then Some acc else ais_rec f' p (fst cr) (fst c) acc) in
      if rempty (snd cr) then Some acc else ais_rec f' p (snd cr) (snd c) acc
  end.
(* wt_algorithm.hpp:153-178, _interval_symbols for wm_int; [cap] as in wt_interval_symbols *)
Definition wm_interval_symbols (w : wm) (i j cap : nat) : option (list (N * nat * nat)) :=
  let* r := (if i + 1 =? j then let* r := wm_inverse_select w i in Some [(snd r, fst r, fst r + 1)]
             else if i <? j then ais_rec (wm_L w + 1) (PMat w) (i, j) (p_root (PMat w)) []
             else Some []) in
  if length r <=? cap then Some r else None.

(* wt_algorithm.hpp:319-365, _symbol_lte.  None of the two trees has a method
   symbol_lte.  node == root compares the offsets. *)
Fixpoint lte_loop (f : nat) (p : ptree) (node pred : nd) (c mask : N) : option (bool * N) :=
  match f with
  | 0 => None
  | S f' =>
    if p_leaf p node then Some (true, nd_sym node)
    else
      let* ch := p_expand p node in
      let '(lc, rc) := ch in
      if hit c (shr mask (nd_level node)) then
        if 0 <? nd_size rc then lte_loop f' p rc (if 0 <? nd_size lc then lc else pred) c mask
        else lte_loop f' p lc pred (lo_set 64) mask
      else
        if 0 <? nd_size lc then lte_loop f' p lc pred c mask
        else if nd_off pred =? nd_off (p_root p) then Some (false, 0%N)
        else lte_loop f' p pred pred (lo_set 64) mask
  end.
Definition symbol_lte (p : ptree) (c : N) : option (bool * N) :=
  let* top := shl_c 1 (p_L p) in
  let c := if (top <=? c)%N then lo_set (p_L p) else c in
  let* l1 := csub (p_L p) 1 in
  let* mask := shl_c 1 l1 in
  lte_loop (2 * p_L p + 2) p (p_root p) (p_root p) c mask.
(* wt_algorithm.hpp:375-416, _symbol_gte *)
Fixpoint gte_loop (f : nat) (p : ptree) (node succ : nd) (c mask : N) : option (bool * N) :=
  match f with
  | 0 => None
  | S f' =>
    if p_leaf p node then Some (true, nd_sym node)
    else
      let* ch := p_expand p node in
      let '(lc, rc) := ch in
      if hit c (shr mask (nd_level node)) then
        if 0 <? nd_size rc then gte_loop f' p rc succ c mask
        else if nd_off succ =? nd_off (p_root p) then Some (false, 0%N)
        else gte_loop f' p succ succ 0 mask
      else
        if 0 <? nd_size lc then gte_loop f' p lc (if 0 <? nd_size rc then rc else succ) c mask
        else gte_loop f' p rc succ 0 mask
  end.
Definition symbol_gte (p : ptree) (c : N) : option (bool * N) :=
  let* top := shl_c 1 (p_L p) in
  if (top <=? c)%N then Some (false, 0%N)
  else
    let* l1 := csub (p_L p) 1 in
    let* mask := shl_c 1 l1 in
    gte_loop (2 * p_L p + 2) p (p_root p) (p_root p) c mask.

(* wt_algorithm.hpp:30-86, intersect: the stack (top first) and the result.
   push_node keeps the non-empty ranges and pushes if there are at least t of
   them (end > begin+t-1). *)
Definition isx_push (t : nat) (c : nd) (rs : list rng) (st : list (nd * list rng)) : list (nd * list rng) :=
  let keep := filter (fun r => negb (rempty r)) rs in
  if t <=? length keep then (c, keep) :: st else st.
Fixpoint isx_loop (f : nat) (p : ptree) (t : nat) (st : list (nd * list rng)) (res : list (N * nat)) : option (list (N * nat)) :=
  match f with
  | 0 => None
  | S f' =>
    match st with
    | [] => Some res
    | (v, rs) :: st' =>
      if p_leaf p v then
        isx_loop f' p t st' (if t <=? length rs then res ++ [(nd_sym v, list_sum (map rsize rs))] else res)
      else
        let* c := p_expand p v in
        let* cr := p_expand_rs p v rs in
        isx_loop f' p t (isx_push t (fst c) (fst cr) (isx_push t (snd c) (snd cr) st')) res
    end
  end.
Definition intersect (p : ptree) (rs : list rng) (t : nat) : option (list (N * nat)) :=
  match rs with
  | [] => Some []
  | _ => let t := if t =? 0 then length rs else t in
         isx_loop (2 + list_sum (map rsize rs) * p_L p) p t [(p_root p, rs)] []
  end.

(* wt_algorithm.hpp:536-551, compare_path; path(c) = {m_max_level, c}: wt_int.hpp:906-908, wm_int.hpp:767-770 *)
Definition compare_path (node_path : N) (node_len : nat) (bound : nat * N) : option comparison :=
  let* b := (if node_len <? fst bound then shr_c (snd bound) (fst bound - node_len) else Some (snd bound)) in
  let* b := (if fst bound <? node_len then shl_c b (node_len - fst bound) else Some b) in
  Some (N.compare node_path b).
(* wt_algorithm.hpp:553-581: the stack of (node, range, node_path, node_level) *)
Definition rur_push (c : nd) (r : rng) (path : N) (lv : nat) (ok : bool) (st : list (nd * rng * N * nat)) :=
  if ok && negb (rempty r) then (c, r, path, lv) :: st else st.
Fixpoint rur_loop (f : nat) (p : ptree) (lo hi : nat * N) (st : list (nd * rng * N * nat)) (res : list N) : option (list N) :=
  match f with
  | 0 => None
  | S f' =>
    match st with
    | [] => Some res
    | (v, r, path, lv) :: st' =>
      if p_leaf p v then rur_loop f' p lo hi st' (res ++ [nd_sym v])
      else
        let* c := p_expand p v in
        let lp := shl path 1 in
        let rp := N.lor (shl path 1) 1 in
        let* cr := p_expand_r p v r in
        let* c1 := compare_path rp (lv + 1) hi in
        let* c0 := compare_path lp (lv + 1) lo in
        let st' := rur_push (snd c) (snd cr) rp (lv + 1) (match c1 with Gt => false | _ => true end) st' in
        rur_loop f' p lo hi (rur_push (fst c) (fst cr) lp (lv + 1) (match c0 with Lt => false | _ => true end) st') res
    end
  end.
(* wt_algorithm.hpp:507-585, restricted_unique_range_values *)
Definition restricted_unique (p : ptree) (xi xj : nat) (yi yj : N) : option (list N) :=
  let* n1 := csub (p_n p) 1 in
  let xj := if n1 <? xj then n1 else xj in
  if (xj <? xi) || (yj <? yi)%N then Some []
  else
    let* lo := symbol_gte p yi in
    let* hi := symbol_lte p yj in
    if negb (fst lo) || negb (fst hi) || (snd hi <? snd lo)%N then Some []
    else rur_loop (2 + (xj + 1 - xi) * p_L p) p (p_L p, snd lo) (p_L p, snd hi) [(p_root p, (xi, xj + 1), 0%N, 0)] [].

(** ** range_search_2d of wm_int, wm_int.hpp:428-505 *)
(* wm_int.hpp:471-486; the inner loop is the one of wt_int (r2_up) *)
Fixpoint m2_report (w : wm) (js : list nat) (sym : N) (is ro : list nat) (pts : list (nat * N)) : option (list (nat * N)) :=
  match js with
  | [] => Some pts
  | j :: js' =>
    let* i := r2_up (wm_w w) (wm_L w) j sym is ro in
    let* is0 := nth_error is 0 in
    let* p := csub (is0 + i) 1 in
    m2_report w js' sym is ro (pts ++ [(p, sym)])
  end.
(* wm_int.hpp:459-505; [d] = m_max_level - v.level; the vectors is and rank_off,
   the points and the counter are the state *)
Fixpoint m2_rec (w : wm) (d : nat) (v : nd) (r : rng) (vlb vrb ilb : N) (report : bool) (s : r2st) : option r2st :=
  if snd r <=? fst r then Some s else
  let* is := aset (r2_offs s) (nd_level v) (nd_off v + fst r) in
  match d with
  | 0 =>
    let* pts := (if report then m2_report w (seq 1 (rsize r)) (nd_sym v) is (r2_oos s) (r2_pts s) else Some (r2_pts s)) in
    Some (mkr2 is (r2_oos s) pts (r2_cnt s + rsize r))
  | S d' =>
    let* rk := t_rank (wm_tree w) (nd_off v + fst r) in
    let* ro := aset (r2_oos s) (nd_level v) rk in
    let* span := shl_c 1 d in
    let irb := wadd ilb span in
    let mid := shr (wadd irb ilb) 1 in
    let* c := wm_expand w v in
    let* cr := p_expand_r (PMat w) v r in
    let s := mkr2 is ro (r2_pts s) (r2_cnt s) in
    let* s := (if negb (rempty (fst cr)) && (vlb <? mid)%N && negb (mid =? 0)%N
               then m2_rec w d' (fst c) (fst cr) vlb (N.min vrb (wsub mid 1)) ilb report s else Some s) in
    if negb (rempty (snd cr)) && (mid <=? vrb)%N
    then m2_rec w d' (snd c) (snd cr) (N.max mid vlb) vrb mid report s else Some s
  end.
Definition wm_range_search_2d (w : wm) (lb rb : nat) (vlb vrb : N) (report : bool) : option (nat * list (nat * N)) :=
  let* top := shl_c 1 (wm_L w) in
  let vrb := if (top <? vrb)%N then top else vrb in
  if (vrb <? vlb)%N then Some (0, [])
  else if lb <=? rb then
    let* s := m2_rec w (wm_L w) (p_root (PMat w)) (lb, rb + 1) vlb vrb 0 report
                (mkr2 (repeat 0 (wm_L w + 1)) (repeat 0 (wm_L w + 1)) [] 0) in
    Some (r2_cnt s, r2_pts s)
  else Some (0, []).
