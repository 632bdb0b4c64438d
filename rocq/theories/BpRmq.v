(** * Model of rmq, rmq_open, rr_enclose and double_enclose of bp_support_sada, and of rmq_succinct_sct

    Conventions and the block structure: Bp.v. *)
From Coq Require Import NArith ZArith List Bool Arith.
From Verif Require Import Base SpecBits AbsVec WtBase Bp.
Import ListNotations.
Open Scope Z_scope.

(** ** near_rmq, bp_support_algorithm.cpp:212-254 *)
(** lines 221-231 and 244-252: (excess, min_rel_ex, min_pos) *)
Fixpoint nr_scan (g : padding) (bp : list bool) (js : list nat) (e mn : Z) (mp : nat) : option (Z * Z * nat) :=
  match js with
  | [] => Some (e, mn, mp)
  | j :: js =>
    let* b := rd g bp j in
    if b then nr_scan g bp js (e + 1) mn mp
    else let e := e - 1 in if e <=? mn then nr_scan g bp js e e j else nr_scan g bp js e mn mp
  end.
(** lines 234-243; [k] bytes from position j *)
Fixpoint nr_bytes (g : padding) (bp : list bool) (k j : nat) (e mn : Z) (mp : nat) : option (Z * Z * nat) :=
  match k with
  | O => Some (e, mn, mp)
  | S k =>
    let* w := rd8 g bp j in
    let '(x, p) := min_info w in
    if e + x <=? mn then nr_bytes g bp k (j + 8) (e + word_sum w) (e + x) (j + p)
    else nr_bytes g bp k (j + 8) (e + word_sum w) mn mp
  end.
(** the position of the minimum and its excess relative to that of l *)
Definition near_rmq (g : padding) (bp : list bool) (l r : nat) : option (nat * Z) :=
  let l8 := ((l + 1 + 7) / 8 * 8)%nat in
  let r8 := (r / 8 * 8)%nat in
  let* q := nr_scan g bp (seq (l + 1) (Nat.min l8 (r + 1) - (l + 1))) 0 0 l in
  let '(e, mn, mp) := q in
  let* q := nr_bytes g bp ((r8 - l8) / 8) l8 e mn mp in
  let '(e, mn, mp) := q in
  let* q := nr_scan g bp (seq (Nat.max l8 r8) (r + 1 - Nat.max l8 r8)) e mn mp in
  let '(e, mn, mp) := q in
  Some (mp, mn).

(** ** rmq, bp_support_sada.hpp:676-815 *)
(** min_pos together with pos_type: a position, a small block or a node of the tree *)
Inductive loc : Type := POS (p : nat) | SML (s : nat) | MED (v : nat).
(** median_block_rmq, lines 676-698; the state is (min_ex, min_pos); a result different from -1 is stored as SML *)
Fixpoint med_loop (B : nat) (bp : list bool) (t : bps) (is : list nat) (s : Z * loc) : option (Z * loc) :=
  match is with
  | [] => Some s
  | i :: is =>
    let* e := exc bp (i * B) in
    let* a := nth_error (b_sml t) (2 * i) in
    med_loop B bp t is (if e + (1 - a) <=? fst s then (e + (1 - a), SML i) else s)
  end.
Definition med_rmq (B : nat) (bp : list bool) (t : bps) (l r : nat) (s : Z * loc) : option (Z * loc) :=
  if (l =? 0)%nat then
    let* a := nth_error (b_sml t) 0 in
    med_loop B bp t (seq 1 (r + 1 - 1)) (if 1 - a <=? fst s then (1 - a, SML 0) else s)
  else med_loop B bp t (seq l (r + 1 - l)) s.
(** if (min_value(v) <= min_ex) ... *)
Definition upd (n : nat) (t : bps) (v : nat) (s : Z * loc) : option (Z * loc) :=
  let* a := min_value n (b_med t) v in Some (if a <=? fst s then (a, MED v) else s).
(** lines 745-760: up the tree until the rightmost covered block is >= [tgt] = mbr-1 *)
Fixpoint up_min (fuel n : nat) (t : bps) (tgt v rcb hh : nat) (s : Z * loc) : option (nat * nat * nat * (Z * loc)) :=
  match fuel with
  | O => None
  | S f =>
    if (rcb <? tgt)%nat then
      let* s := upd n t v s in
      let* u := csub v 1 in
      if (v mod 2 =? 0)%nat then up_min f n t tgt (u / 2 + 1) (rcb + 2 ^ (hh + 1)) (hh + 1) s
      else up_min f n t tgt (u / 2) (rcb + 2 ^ hh) (hh + 1) s
    else Some (v, rcb, hh, s)
  end.
(** lines 767-782: down the tree until the rightmost covered block is [tgt] *)
Fixpoint down_min (fuel n : nat) (t : bps) (tgt v rcb hh : nat) (s : Z * loc) : option (Z * loc) :=
  match fuel with
  | O => None
  | S f =>
    if (rcb =? tgt)%nat then Some s
    else
      let* hh := csub hh 1 in
      let* q := (if (tgt <? rcb)%nat then let* rcb := csub rcb (2 ^ hh) in Some (rcb, (2 * v + 1)%nat)
                 else Some ((rcb + 2 ^ hh)%nat, (2 * v + 2 + 1)%nat)) in
      let '(rcb, v) := q in
      let* s := (if (rcb <=? tgt)%nat then upd n t v s else Some s) in
      down_min f n t tgt v rcb hh s
  end.
(** lines 783-789: the rightmost leaf below [v] with the minimum [e] *)
Fixpoint desc_min (fuel n : nat) (t : bps) (v : nat) (e : Z) : option nat :=
  match fuel with
  | O => None
  | S f =>
    if (b_inner t <=? v)%nat then Some v
    else
      let r := (2 * v + 2)%nat in
      let* lft := (if (r <? b_inner t + b_meds t)%nat then let* a := min_value n (b_med t) r in Some (e <? a) else Some true) in
      desc_min f n t (if lft then r - 1 else r)%nat e
  end.
(** lines 740-790 *)
Definition tree_rmq (n : nat) (t : bps) (mbl mbr : nat) (s : Z * loc) : option (Z * loc) :=
  if (1 <? mbr - mbl)%nat then
    let* q := up_min (mbr - mbl + 1) n t (mbr - 1) (mbl + 1 + b_inner t) (mbl + 1) 0 s in
    let '(v, rcb, hh, s) := q in
    let* s := (if (rcb <=? mbr - 1)%nat then upd n t v s else Some s) in
    let* s := down_min (hh + 1) n t (mbr - 1) v rcb hh s in
    match snd s with
    | MED v => let* v := desc_min (b_inner t + 1) n t v (fst s) in Some (fst s, MED v)
    | _ => Some s
    end
  else Some s.
Definition bp_rmq (g : padding) (B deg : nat) (bp : list bool) (t : bps) (l r : nat) : option nat :=
  let n := length bp in
  let sbl := (l / B)%nat in
  let sbr := (r / B)%nat in
  if (sbl =? sbr)%nat then let* q := near_rmq g bp l r in Some (fst q)
  else
    let* q := near_rmq g bp l ((sbl + 1) * B - 1) in
    let* e := exc bp (l + 1) in
    let s := (e + snd q, POS (fst q)) in
    let mbl := (l / (B * deg))%nat in
    let mbr := (r / (B * deg))%nat in
    let* k := csub sbr 1 in
    let* s := med_rmq B bp t (sbl + 1) (Nat.min ((mbl + 1) * deg - 1) k) s in
    let* s := tree_rmq n t mbl mbr s in
    let* s := med_rmq B bp t (Nat.max (mbr * deg) (sbl + 1)) k s in
    let* q := near_rmq g bp (sbr * B) r in
    let* e := exc bp (sbr * B + 1) in
    if e + snd q <=? fst s then Some (fst q)
    else
      let* s := (match snd s with
                 | MED v => let* m := csub v (b_inner t) in med_rmq B bp t (m * deg) ((m + 1) * deg - 1) s
                 | _ => Some s
                 end) in
      match snd s with
      | POS p => Some p
      | SML m => let* q := near_rmq g bp (m * B) ((m + 1) * B - 1) in Some (fst q)
      | MED _ => None
      end.

(** rmq_open, bp_support_sada.hpp:645-674; size() = length bp *)
Definition rmq_open (g : padding) (B deg : nat) (bp : list bool) (t : bps) (l r : nat) : option nat :=
  let n := length bp in
  if (r <=? l)%nat then Some n
  else
    let* res := bp_rmq g B deg bp t l (r - 1) in
    let* b := t_get bp res in
    if b then Some res
    else
      let res := (res + 1)%nat in
      if (res <? r)%nat then
        let* ec := enclose g B deg bp t res in
        if (ec <? l)%nat || (ec =? n)%nat then Some res else Some ec
      else if (res =? r)%nat then
        let* ec := enclose g B deg bp t res in
        if (l <=? ec)%nat then Some ec else Some n
      else Some n.
(** rr_enclose, lines 626-634 *)
Definition rr_enclose (g : padding) (B deg : nat) (bp : list bool) (t : bps) (i j : nat) : option nat :=
  let* m := find_close g B deg bp t i in
  if (j <=? m + 1)%nat then Some (length bp) else rmq_open g B deg bp t (m + 1) j.
(** double_enclose, lines 852-861 *)
Definition double_enclose (g : padding) (B deg : nat) (bp : list bool) (t : bps) (i j : nat) : option nat :=
  let* k := rr_enclose g B deg bp t i j in
  if (k =? length bp)%nat then enclose g B deg bp t j else enclose g B deg bp t k.

(** ** construct_supercartesian_tree_bp_succinct, suffix_tree_helper.hpp:129-165

    The sorted_stack_support is a stack of indices, top first (C36); [spush] checks its preconditions: the pushed value
    is larger than the top and at most [n]. *)
Open Scope nat_scope.
Definition spush (n : nat) (st : list nat) (x : nat) : option (list nat) :=
  if (x <=? n) && match st with [] => true | y :: _ => y <? x end then Some (x :: st) else None.
(** vec[i] < vec[j] for minimum, > otherwise *)
Definition vless (t_min : bool) (v : list N) (i j : nat) : option bool :=
  let* a := nth_error v i in let* b := nth_error v j in Some (if t_min then N.ltb a b else N.ltb b a).
(** lines 144-146 and 155-157: the while loop; (k, stack) *)
Fixpoint pops (t_min : bool) (v : list N) (i : nat) (st : list nat) (k : nat) : option (nat * list nat) :=
  match st with
  | [] => Some (k, [])
  | j :: st' => let* b := vless t_min v i j in if b then pops t_min v i st' (k + 1) else Some (k, st)
  end.
(** lines 141-151 *)
Fixpoint sct_min (v : list N) (is : list nat) (k : nat) (st : list nat) (bp : list bool) : option (list bool) :=
  match is with
  | [] => Some bp
  | i :: is =>
    let* b := vless true v i (i - 1) in
    let* q := (if b then pops true v i st (k + 1) else let* st := spush (length v) st (i - 1) in Some (k, st)) in
    let* bp := aset bp (fst q) true in
    sct_min v is (fst q + 1) (snd q) bp
  end.
(** lines 154-160 *)
Fixpoint sct_max (v : list N) (is : list nat) (k : nat) (st : list nat) (bp : list bool) : option (list bool) :=
  match is with
  | [] => Some bp
  | i :: is =>
    let* q := pops false v i st k in
    let* st := spush (length v) (snd q) i in
    let* bp := aset bp (fst q) true in
    sct_max v is (fst q + 1) st bp
  end.
Definition sct_bp (t_min : bool) (v : list N) : option (list bool) :=
  let bp := repeat false (2 * length v) in
  if length v =? 0 then Some bp
  else if t_min then let* bp := aset bp 0 true in sct_min v (seq 1 (length v - 1)) 1 [] bp
  else sct_max v (seq 0 (length v)) 0 [] bp.

(** construct_supercartesian_tree_bp, lines 88-118, used with RMQ_SCT_BUILD_BP_NOT_SUCCINCT: a stack of values *)
Fixpoint vpops (t_min : bool) (x : N) (st : list N) (k : nat) : nat * list N :=
  match st with
  | [] => (k, [])
  | y :: st' => if (if t_min then N.ltb x y else N.ltb y x) then vpops t_min x st' (k + 1) else (k, st)
  end.
Fixpoint sct_vals (t_min : bool) (v : list N) (k : nat) (st : list N) (bp : list bool) : option (nat * list N * list bool) :=
  match v with
  | [] => Some (k, st, bp)
  | x :: v => let q := vpops t_min x st k in let* bp := aset bp (fst q) true in sct_vals t_min v (fst q + 1) (x :: snd q) bp
  end.
Fixpoint sct_close (k : nat) (st : list N) (bp : list bool) : option (list bool) :=
  match st with
  | [] => Some bp
  | _ :: st => let* bp := aset bp k false in sct_close (k + 1) st bp
  end.
Definition sct_bp_simple (t_min : bool) (v : list N) : option (list bool) :=
  let* q := sct_vals t_min v 0 [] (repeat false (2 * length v)) in let '(k, st, bp) := q in sct_close k st bp.

(** ** rmq_succinct_sct::operator(), rmq_succinct_sct.hpp:134-152 *)
Definition sct_query (g : padding) (B deg : nat) (bp : list bool) (t : bps) (l r : nat) : option nat :=
  if l =? r then Some l
  else
    let* i := bp_select bp (l + 1) in
    let* j := bp_select bp (r + 1) in
    let* fc := find_close g B deg bp t i in
    if j <? fc then Some l
    else
      let* ec := rr_enclose g B deg bp t i j in
      if ec =? length bp then Some r else let* k := bp_rank bp ec in csub k 1.
