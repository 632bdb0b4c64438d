(** * wt_int (include/sdsl/wt_int.hpp) *)
From Coq Require Import NArith ZArith List Lia Bool Arith.
From Verif Require Import Base SpecBits AbsVec WtBase.
Import ListNotations.

(* the members m_size, m_sigma, m_tree, m_max_level: wt_int.hpp:84-90; the rank and
   select supports are those of m_tree *)
Record wt : Type := mkwt { wt_n : nat; wt_sigma : nat; wt_tree : list bool; wt_L : nat }.

(* wt_int.hpp:155-157, the default constructor *)
Definition wt_empty : wt := mkwt 0 0 [] 0.

(* x & mask *)
Definition hit (x mask : N) : bool := negb (N.land x mask =? 0)%N.

(* wt_int.hpp:187-193: the biggest value, at least 1 *)
Definition max_value (S : list N) : N := fold_left (fun x v => if (x <? v)%N then v else x) S 1%N.

(* wt_int.hpp:222-236: while (i < m_size and ((x=rac[i])&mask_old)==start_value).
   Arguments: rac, buf1, cnt0, cnt1, i and the tree output *)
Fixpoint ci_scan (fuel : nat) (rac buf : list N) (start cnt0 cnt1 i : nat) (mold sv mnew : N) (t : twr)
    : option (list N * list N * nat * nat * twr) :=
  match fuel with
  | 0 => None
  | S f =>
    if i <? length rac then
      let* x := nth_error rac i in
      if (N.land x mold =? sv)%N then
        let* t' := tw_emit t (hit x mnew) in
        if hit x mnew then ci_scan f rac (bput buf cnt1 x) start cnt0 (cnt1 + 1) (i + 1) mold sv mnew t'
        else let* rac' := aset rac (start + cnt0) x in
             ci_scan f rac' buf start (cnt0 + 1) cnt1 (i + 1) mold sv mnew t'
      else Some (rac, buf, cnt0, cnt1, t)
    else Some (rac, buf, cnt0, cnt1, t)
  end.

(* wt_int.hpp:238-240: for (j=0; j<cnt1; ++j) rac[start+cnt0+j] = buf1[j] *)
Fixpoint ci_copy (rac buf : list N) (dst : nat) (js : list nat) : option (list N) :=
  match js with
  | [] => Some rac
  | j :: js' => let* x := nth_error buf j in let* rac' := aset rac (dst + j) x in ci_copy rac' buf dst js'
  end.

(* wt_int.hpp:216-245: do { ... } while (start < m_size); [last] is k+1 == m_max_level *)
Fixpoint ci_level (fuel : nat) (rac buf : list N) (start : nat) (mold mnew : N) (last : bool) (sigma : nat) (t : twr)
    : option (list N * list N * nat * twr) :=
  match fuel with
  | 0 => None
  | S f =>
    let* x := nth_error rac start in
    let* r := ci_scan (length rac + 1) rac buf start 0 0 start mold (N.land x mold) mnew t in
    let '(rac, buf, cnt0, cnt1, t) := r in
    let* rac := (if last then Some rac else ci_copy rac buf (start + cnt0) (seq 0 cnt1)) in
    let sigma := if last then sigma + b2nat (0 <? cnt0) + b2nat (0 <? cnt1) else sigma in
    let start := start + (cnt0 + cnt1) in
    if start <? length rac then ci_level f rac buf start mold mnew last sigma t
    else Some (rac, buf, sigma, t)
  end.

(* wt_int.hpp:213-247: for (k=0; k<m_max_level; ++k); [d] is m_max_level-k *)
Fixpoint ci_levels (d : nat) (rac buf : list N) (mold : N) (sigma : nat) (t : twr)
    : option (list N * nat * twr) :=
  match d with
  | 0 => Some (rac, sigma, t)
  | S d' =>
    let* mnew := shl_c 1 d' in
    let* r := ci_level (length rac + 1) rac buf 0 mold mnew (d' =? 0) sigma t in
    let '(rac, buf, sigma, t) := r in
    ci_levels d' rac buf (wadd mold mnew) sigma t
  end.

(* wt_int.hpp:170-261, the constructor for the sequence S (the elements 0..size-1
   of the buffer; fewer elements than [size] throw in the code and are not
   modelled).  [ml] is the parameter max_level, 0 = determined automatically. *)
Definition wt_make (S : list N) (ml : nat) : option wt :=
  if length S =? 0 then Some wt_empty
  else
    let L := if ml =? 0 then hiw (max_value S) else ml in
    let* mold := shl_c 1 L in
    let* r := ci_levels L S [] mold 0 tw_new in
    let '(_, sigma, t) := r in
    let* tree := tw_close t (length S * L) in
    Some (mkwt (length S) sigma tree L).

(** ** Queries *)
(* wt_int.hpp:334-356, operator[]: [d] is m_max_level-k *)
Fixpoint acc_loop (w : wt) (d : nat) (offset i node_size : nat) (res : N) : option N :=
  match d with
  | 0 => Some res
  | S d' =>
    let t := wt_tree w in
    let* oo := t_rank t offset in
    let* ri := t_rank t (offset + i) in
    let* oi := csub ri oo in
    let* re := t_rank t (offset + node_size) in
    let* oe := csub re oo in
    let* zs := csub node_size oe in
    let* b := t_get t (offset + i) in
    if b then acc_loop w d' (offset + zs + wt_n w) oi oe (N.lor (shl res 1) 1)
    else let* i' := csub i oi in acc_loop w d' (offset + wt_n w) i' zs (shl res 1)
  end.
Definition wt_access (w : wt) (i : nat) : option N := acc_loop w (wt_L w) 0 i (wt_n w) 0.

(* wt_int.hpp:368-394, rank *)
Fixpoint rank_loop (w : wt) (d : nat) (offset i node_size : nat) (c mask : N) : option nat :=
  match d with
  | 0 => Some i
  | S d' =>
    if i =? 0 then Some i else
    let t := wt_tree w in
    let* oo := t_rank t offset in
    let* ri := t_rank t (offset + i) in
    let* oi := csub ri oo in
    let* re := t_rank t (offset + node_size) in
    let* oe := csub re oo in
    let* zs := csub node_size oe in
    if hit c mask then rank_loop w d' (offset + zs + wt_n w) oi oe c (shr mask 1)
    else let* i' := csub i oi in rank_loop w d' (offset + wt_n w) i' zs c (shr mask 1)
  end.
Definition wt_rank (w : wt) (i : nat) (c : N) : option nat :=
  let* top := shl_c 1 (wt_L w) in
  if (top <=? c)%N then Some 0
  else let* l1 := csub (wt_L w) 1 in let* mask := shl_c 1 l1 in rank_loop w (wt_L w) 0 i (wt_n w) c mask.

(* wt_int.hpp:405-429, inverse_select *)
Fixpoint isel_loop (w : wt) (d : nat) (offset i node_size : nat) (c : N) : option (nat * N) :=
  match d with
  | 0 => Some (i, c)
  | S d' =>
    let t := wt_tree w in
    let* oo := t_rank t offset in
    let* ri := t_rank t (offset + i) in
    let* oi := csub ri oo in
    let* re := t_rank t (offset + node_size) in
    let* oe := csub re oo in
    let* zs := csub node_size oe in
    let* b := t_get t (offset + i) in
    if b then isel_loop w d' (offset + zs + wt_n w) oi oe (N.lor (shl c 1) 1)
    else let* i' := csub i oi in isel_loop w d' (offset + wt_n w) i' zs (shl c 1)
  end.
Definition wt_inverse_select (w : wt) (i : nat) : option (nat * N) := isel_loop w (wt_L w) 0 i (wt_n w) 0.

(* wt_int.hpp:447-464, the first loop of select; [k] counts up, [d] = m_max_level-k;
   returns node_size, m_path_off and m_path_rank_off *)
Fixpoint sel_down (w : wt) (d k : nat) (offset node_size : nat) (c mask : N) (po pr : list nat)
    : option (nat * list nat * list nat) :=
  match d with
  | 0 => Some (node_size, po, pr)
  | S d' =>
    if node_size =? 0 then Some (node_size, po, pr) else
    let t := wt_tree w in
    let* oo := t_rank t offset in
    let* pr := aset pr k oo in
    let* re := t_rank t (offset + node_size) in
    let* oe := csub re oo in
    let* zs := csub node_size oe in
    let offset' := if hit c mask then offset + zs + wt_n w else offset + wt_n w in
    let* po := aset po (k + 1) offset' in
    sel_down w d' (k + 1) offset' (if hit c mask then oe else zs) c (shr mask 1) po pr
  end.
(* wt_int.hpp:470-481, the second loop: k = m_max_level .. 1 *)
Fixpoint sel_up (w : wt) (k : nat) (i : nat) (c mask : N) (po pr : list nat) : option nat :=
  match k with
  | 0 => Some i
  | S k' =>
    let* offset := nth_error po k' in
    let* oo := nth_error pr k' in
    let* p := (if hit c mask then t_sel1 (wt_tree w) (oo + i)
               else let* zo := csub offset oo in t_sel0 (wt_tree w) (zo + i)) in
    let* q := csub p offset in
    sel_up w k' (q + 1) c (shl mask 1) po pr
  end.
(* the result of select: a position or the exception of wt_int.hpp:466 *)
Inductive sres : Type := SPos (p : nat) | SThrow.
Definition wt_select (w : wt) (i : nat) (c : N) : option sres :=
  let* l1 := csub (wt_L w) 1 in
  let* mask := shl_c 1 l1 in
  let* r := sel_down w (wt_L w) 0 0 (wt_n w) c mask (repeat 0 (wt_L w + 1)) (repeat 0 (wt_L w + 1)) in
  let '(node_size, po, pr) := r in
  if (node_size =? 0) || (node_size <? i) then Some SThrow
  else let* j := sel_up w (wt_L w) i c 1 po pr in let* p := csub j 1 in Some (SPos p).

(* wt_int.hpp:109-149, _interval_symbols; the three output vectors and k are the
   list of (symbol, rank_c_i, rank_c_j) triples in the order of the entries *)
Fixpoint isym_rec (w : wt) (d : nat) (i j : nat) (path : N) (node_size offset : nat) (acc : list (N * nat * nat))
    : option (list (N * nat * nat)) :=
  match d with
  | 0 => Some (acc ++ [(path, i, j)])
  | S d' =>
    let t := wt_tree w in
    let* oo := t_rank t offset in
    let* ri := t_rank t (offset + i) in
    let* oi := csub ri oo in
    let* rj := t_rank t (offset + j) in
    let* oj := csub rj oo in
    let* re := t_rank t (offset + node_size) in
    let* oe := csub re oo in
    let* zs := csub node_size oe in
    let* len := csub j i in
    let* ones := csub oj oi in
    let* zeros := csub len ones in
    let* acc := (if 0 <? zeros then
                   let* i' := csub i oi in let* j' := csub j oj in
                   isym_rec w d' i' j' (shl path 1) zs (offset + wt_n w) acc
                 else Some acc) in
    if 0 <? ones then isym_rec w d' oi oj (N.lor (shl path 1) 1) oe (offset + zs + wt_n w) acc
    else Some acc
  end.
(* wt_int.hpp:504-525, interval_symbols.  The output vectors must have room for
   all triples: [cap] is the smallest of their sizes (an entry at or behind it is
   out of bounds) *)
Definition wt_interval_symbols (w : wt) (i j cap : nat) : option (list (N * nat * nat)) :=
  if i =? j then Some []
  else
    let* r := (if i + 1 =? j then
                 let* r := wt_inverse_select w i in Some [(snd r, fst r, fst r + 1)]
               else isym_rec w (wt_L w) i j 0 (wt_n w) 0 []) in
    if length r <=? cap then Some r else None.

(* wt_int.hpp:540-571, lex_count *)
Fixpoint lex_loop (w : wt) (d : nat) (offset i j node_size smaller greater : nat) (c mask : N) : option (nat * nat * nat) :=
  match d with
  | 0 => Some (i, smaller, greater)
  | S d' =>
    let t := wt_tree w in
    let* oo := t_rank t offset in
    let* ri := t_rank t (offset + i) in
    let* oi := csub ri oo in
    let* rj := t_rank t (offset + j) in
    let* oj := csub rj oo in
    let* re := t_rank t (offset + node_size) in
    let* oe := csub re oo in
    let* zs := csub node_size oe in
    if hit c mask then
      (* j-i-ones_before_j+ones_before_i: the intermediate value may wrap, the sum does not *)
      let* len := csub j i in let* r := csub (len + oi) oj in
      lex_loop w d' (offset + zs + wt_n w) oi oj oe (smaller + r) greater c (shr mask 1)
    else
      let* g := csub oj oi in let* i' := csub i oi in let* j' := csub j oj in
      lex_loop w d' (offset + wt_n w) i' j' zs smaller (greater + g) c (shr mask 1)
  end.
Definition wt_lex_count (w : wt) (i j : nat) (c : N) : option (nat * nat * nat) :=
  let* top := shl_c 1 (wt_L w) in
  if (top <=? c)%N then let* s := csub j i in Some (0, s, 0)
  else let* l1 := csub (wt_L w) 1 in let* mask := shl_c 1 l1 in lex_loop w (wt_L w) 0 i j (wt_n w) 0 0 c mask.

(* wt_int.hpp:584-612, lex_smaller_count *)
Fixpoint lsc_loop (w : wt) (d : nat) (offset i node_size result : nat) (c mask : N) : option (nat * nat) :=
  match d with
  | 0 => Some (i, result)
  | S d' =>
    if i =? 0 then Some (i, result) else
    let t := wt_tree w in
    let* oo := t_rank t offset in
    let* ri := t_rank t (offset + i) in
    let* oi := csub ri oo in
    let* re := t_rank t (offset + node_size) in
    let* oe := csub re oo in
    let* zs := csub node_size oe in
    let* i' := csub i oi in
    if hit c mask then lsc_loop w d' (offset + zs + wt_n w) oi oe (result + i') c (shr mask 1)
    else lsc_loop w d' (offset + wt_n w) i' zs result c (shr mask 1)
  end.
Definition wt_lex_smaller_count (w : wt) (i : nat) (c : N) : option (nat * nat) :=
  let* top := shl_c 1 (wt_L w) in
  if (top <=? c)%N then Some (0, i)
  else let* l1 := csub (wt_L w) 1 in let* mask := shl_c 1 l1 in lsc_loop w (wt_L w) 0 i (wt_n w) 0 c mask.

(** ** range_search_2d, wt_int.hpp:614-703 *)
(* wt_int.hpp:645-660: the position of the j-th (1-based) element of the leaf [path] *)
Fixpoint r2_up (w : wt) (k : nat) (i : nat) (c : N) (offs oos : list nat) : option nat :=
  match k with
  | 0 => Some i
  | S k' =>
    let* offset := nth_error offs k' in
    let* oo := nth_error oos k' in
    let* p := (if hit c 1 then t_sel1 (wt_tree w) (oo + i)
               else let* zo := csub offset oo in t_sel0 (wt_tree w) (zo + i)) in
    let* q := csub p offset in
    r2_up w k' (q + 1) (shr c 1) offs oos
  end.
Fixpoint r2_report (w : wt) (js : list nat) (path : N) (offs oos : list nat) (pts : list (nat * N))
    : option (list (nat * N)) :=
  match js with
  | [] => Some pts
  | j :: js' =>
    let* i := r2_up w (wt_L w) j path offs oos in
    let* p := csub i 1 in
    r2_report w js' path offs oos (pts ++ [(p, path)])
  end.
(* wt_int.hpp:637-703, _range_search_2d; [d] = m_max_level-level; the vectors
   offsets and ones_before_os, the points and the counter are the state *)
Record r2st : Type := mkr2 { r2_offs : list nat; r2_oos : list nat; r2_pts : list (nat * N); r2_cnt : nat }.
Fixpoint r2_rec (w : wt) (d level : nat) (lb rb : nat) (vlb vrb : N) (ilb : N) (node_size : nat) (path : N)
    (report : bool) (s : r2st) : option r2st :=
  if rb <? lb then Some s else
  match d with
  | 0 =>
    let* pts := (if report then r2_report w (seq (lb + 1) (rb + 1 - lb)) path (r2_offs s) (r2_oos s) (r2_pts s)
                 else Some (r2_pts s)) in
    Some (mkr2 (r2_offs s) (r2_oos s) pts (r2_cnt s + (rb - lb + 1)))
  | S d' =>
    let t := wt_tree w in
    let* span := shl_c 1 d in
    let irb := wadd ilb span in
    let mid := shr (wadd irb ilb) 1 in
    let* offset := nth_error (r2_offs s) level in
    let* oo := t_rank t offset in
    let* oos := aset (r2_oos s) level oo in
    let* ol := t_rank t (offset + lb) in
    let* or := t_rank t (offset + rb + 1) in
    let* oe := t_rank t (offset + node_size) in
    let* zo := csub offset oo in
    let* zl := csub (offset + lb) ol in
    let* zr := csub (offset + rb + 1) or in
    let* ze := csub (offset + node_size) oe in
    let* zs := csub ze zo in
    let s := mkr2 (r2_offs s) oos (r2_pts s) (r2_cnt s) in
    let* s := (if (vlb <? mid)%N && negb (mid =? 0)%N then
                 let* nlb := csub zl zo in let* nrb := csub zr zo in
                 let* offs := aset (r2_offs s) (level + 1) (offset + wt_n w) in
                 let s := mkr2 offs (r2_oos s) (r2_pts s) (r2_cnt s) in
                 if 0 <? nrb then r2_rec w d' (level + 1) nlb (nrb - 1) vlb (N.min vrb (wsub mid 1)) ilb zs (shl path 1) report s
                 else Some s
               else Some s) in
    if (mid <=? vrb)%N then
      let* nlb := csub ol oo in let* nrb := csub or oo in
      let* offs := aset (r2_offs s) (level + 1) (offset + wt_n w + zs) in
      let s := mkr2 offs (r2_oos s) (r2_pts s) (r2_cnt s) in
      let* os := csub oe oo in
      if 0 <? nrb then r2_rec w d' (level + 1) nlb (nrb - 1) (N.max mid vlb) vrb mid os (wadd (shl path 1) 1) report s
      else Some s
    else Some s
  end.
Definition wt_range_search_2d (w : wt) (lb rb : nat) (vlb vrb : N) (report : bool) : option (nat * list (nat * N)) :=
  let* top := shl_c 1 (wt_L w) in
  let vrb := if (top <? vrb)%N then top else vrb in
  if (vrb <? vlb)%N then Some (0, [])
  else
    let* s := r2_rec w (wt_L w) 0 lb rb vlb vrb 0 (wt_n w) 0 report
                (mkr2 (repeat 0 (wt_L w + 1)) (repeat 0 (wt_L w + 1)) [] 0) in
    Some (r2_cnt s, r2_pts s).
