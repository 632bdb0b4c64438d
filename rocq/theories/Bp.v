(** * Model of bp_support_sada (include/sdsl/bp_support_sada.hpp) and of the scans in lib/bp_support_algorithm.cpp

    The parentheses sequence is the list of its bits (true = opening).  [B] is t_sml_blk, [deg] is t_med_deg.  Excess
    values are integers.  int_vectors are lists (elements modulo 2^width), the rank support is t_rank (PropRank.v).
    Behind the end of the sequence the bit_vector's memory goes on to the end of its last 64-bit word ((n+64)/64 words are
    allocated, C05); the bits there are [g]; reading behind that is undefined. *)
From Coq Require Import NArith ZArith List Bool Arith.
From Verif Require Import Base SpecBits AbsVec WtBase.
Import ListNotations.
Open Scope Z_scope.

Notation padding := (nat -> bool).
(** bp[j] *)
Definition rd (g : padding) (bp : list bool) (j : nat) : option bool :=
  if (j <? 64 * ((length bp + 64) / 64))%nat then Some (nth j bp (g j)) else None.
(** (( *(b+(j>>6)))>>(j&0x3F))&0xFF for j a multiple of 8: the bits j..j+7, in this order *)
Definition rd8 (g : padding) (bp : list bool) (j : nat) : option (list bool) :=
  if (j <? 64 * ((length bp + 64) / 64))%nat then Some (map (fun k => nth k bp (g k)) (seq j 8)) else None.
(** +1 for an opening, -1 for a closing parenthesis *)
Definition stp (b : bool) : Z := if b then 1 else -1.

(** ** The tables of struct excess, bp_support_algorithm.hpp:34-158, as functions of the byte's bits *)
(** near_fwd_pos, lines 88-98: the first position where the excess is x, or 8 *)
Fixpoint fwd_pos (bits : list bool) (p : nat) (ex x : Z) : nat :=
  match bits with
  | [] => 8
  | b :: bits => if (ex + stp b =? x) then p else fwd_pos bits (p + 1) (ex + stp b) x
  end.
(** near_bwd_pos, lines 100-110; [bits] in reverse order, p counts down *)
Fixpoint bwd_pos (bits : list bool) (p : nat) (ex x : Z) : nat :=
  match bits with
  | [] => 8
  | b :: bits => if (ex - stp b =? x) then p else bwd_pos bits (p - 1) (ex - stp b) x
  end.
(** near_fwd_pos[(e<<8) + w] and near_bwd_pos[(e<<8) + w]: the arrays have 16*256 entries, x = e-8 *)
Definition near_fwd_pos (e : Z) (bits : list bool) : option nat := if (0 <=? e) && (e <? 16) then Some (fwd_pos bits 0 0 (e - 8)) else None.
Definition near_bwd_pos (e : Z) (bits : list bool) : option nat := if (0 <=? e) && (e <? 16) then Some (bwd_pos (rev bits) 7 0 (e - 8)) else None.
(** word_sum, line 147 *)
Definition word_sum (bits : list bool) : Z := fold_left (fun e b => e + stp b) bits 0.
(** min and min_pos_max, lines 121, 131-135: the minimal excess and its last position *)
Fixpoint min_scan (bits : list bool) (p : nat) (ex mn : Z) (mp : nat) : Z * nat :=
  match bits with
  | [] => (mn, mp)
  | b :: bits => let ex := ex + stp b in if ex <=? mn then min_scan bits (p + 1) ex ex p else min_scan bits (p + 1) ex mn mp
  end.
Definition min_info (bits : list bool) : Z * nat := min_scan bits 0 0 8 0.

(** ** Scans inside a block *)
(** result of a scan: a position, or the value of the variable excess at its end *)
Inductive sres : Type := Fnd (j : nat) | Go (e : Z).
(** bp_support_algorithm.cpp:185-190 and 202-207 *)
Fixpoint nf_scan (g : padding) (bp : list bool) (js : list nat) (e : Z) : option sres :=
  match js with
  | [] => Some (Go e)
  | j :: js => let* b := rd g bp j in let e := e - stp b in if e =? 0 then Some (Fnd j) else nf_scan g bp js e
  end.
(** lines 193-201; [k] bytes from position j *)
Fixpoint nf_bytes (g : padding) (bp : list bool) (k j : nat) (e : Z) : option sres :=
  match k with
  | O => Some (Go e)
  | S k =>
    let* w := rd8 g bp j in
    let* x := (if (0 <=? e) && (e <=? 16) then near_fwd_pos e w else Some 8%nat) in
    if (x <? 8)%nat then Some (Fnd (j + x)) else nf_bytes g bp k (j + 8) (e - word_sum w)
  end.
(** bp_support_algorithm.cpp:176-210: near_fwd_excess; if nothing is found the result is i-1 *)
Definition near_fwd_excess (g : padding) (bp : list bool) (i : nat) (rel : Z) (B : nat) : option nat :=
  let en := ((i / B + 1) * B)%nat in
  let l := ((i + 7) / 8 * 8)%nat in
  let r := (en / 8 * 8)%nat in
  let* s := nf_scan g bp (seq i (Nat.min en l - i)) rel in
  match s with
  | Fnd j => Some j
  | Go e =>
    let* s := nf_bytes g bp ((r - l) / 8) l (e + 8) in
    match s with
    | Fnd j => Some j
    | Go e =>
      let* s := nf_scan g bp (seq (Nat.max l r) (en - Nat.max l r)) (e - 8) in
      match s with Fnd j => Some j | Go _ => csub i 1 end
    end
  end.
(** bp_support_algorithm.cpp:264-270 and 284-290; the result of a hit at j is j-1, the model keeps j *)
Fixpoint nb_scan (g : padding) (bp : list bool) (js : list nat) (e : Z) : option sres :=
  match js with
  | [] => Some (Go e)
  | j :: js => let* b := rd g bp j in let e := e + stp b in if e =? 0 then Some (Fnd j) else nb_scan g bp js e
  end.
(** lines 274-282; [k] bytes, the first one at position j *)
Fixpoint nb_bytes (g : padding) (bp : list bool) (k j : nat) (e : Z) : option sres :=
  match k with
  | O => Some (Go e)
  | S k =>
    let* w := rd8 g bp j in
    let* x := (if (0 <=? e) && (e <=? 16) then near_bwd_pos e w else Some 8%nat) in
    if (x <? 8)%nat then Some (Fnd (j + x)) else nb_bytes g bp k (j - 8) (e + word_sum w)
  end.
(** bp_support_algorithm.cpp:256-295: near_bwd_excess; the result may be -1 *)
Definition near_bwd_excess (g : padding) (bp : list bool) (i : nat) (rel : Z) (B : nat) : option Z :=
  let bg := (i / B * B)%nat in
  let r := (i / 8 * 8)%nat in
  let l := ((bg + 7) / 8 * 8)%nat in
  let* s := nb_scan g bp (rev (seq (Nat.max r bg) (i + 2 - Nat.max r bg))) rel in
  match s with
  | Fnd j => Some (Z.of_nat j - 1)
  | Go e =>
    let* s := nb_bytes g bp ((r - l) / 8) (r - 8) (e + 8) in
    match s with
    | Fnd j => Some (Z.of_nat j - 1)
    | Go e =>
      let* s := nb_scan g bp (rev (seq (bg + 1) (Nat.min l r - bg))) (e - 8) in
      match s with
      | Fnd j => Some (Z.of_nat j - 1)
      | Go _ => if (bg =? 0)%nat && (rel =? -1) then Some (-1) else Some (Z.of_nat i + 1)
      end
    end
  end.

(** ** The support *)
(** bp_support_sada.hpp:83-95: m_sml_block_min_max, m_med_block_min_max, m_sml_blocks, m_med_blocks, m_med_inner_blocks *)
Record bps : Type := mkbps { b_sml : list Z; b_med : list Z; b_smls : nat; b_meds : nat; b_inner : nat }.

(** bp_support_sada.hpp:521-524: excess(i) for i = p-1; for p = 0 the code's i is 2^64-1 and the result 0 as well *)
Definition exc (bp : list bool) (p : nat) : option Z := let* r := t_rank bp p in Some (2 * Z.of_nat r - Z.of_nat p).

(** min_value and max_value, lines 180-188 *)
Definition min_value (n : nat) (med : list Z) (v : nat) : option Z := let* x := nth_error med (2 * v) in Some (Z.of_nat n - x).
Definition max_value (n : nat) (med : list Z) (v : nat) : option Z := let* x := nth_error med (2 * v + 1) in Some (x - Z.of_nat n).

(** lines 379-383: the smallest power of two that is >= m_med_blocks, minus 1 *)
Fixpoint inner_loop (fuel meds x : nat) : option nat :=
  match fuel with
  | O => None
  | S f => if (x <? meds)%nat then inner_loop f meds (2 * x) else Some (x - 1)%nat
  end.
(** lines 392-419: one parenthesis after the other *)
Record cst : Type := mkcst { c_min : Z; c_max : Z; c_rel : Z; c_abs : Z; c_sml : list Z; c_med : list Z }.
Fixpoint fill_loop (n B deg inner : nat) (ws wm : nat) (bits : list bool) (i : nat) (s : cst) : option cst :=
  match bits with
  | [] => Some s
  | b :: bits =>
    let rel := c_rel s + stp b in
    let mx := Z.max (c_max s) rel in
    let mn := Z.min (c_min s) rel in
    if ((i + 1) mod B =? 0)%nat || (i + 1 =? n)%nat then
      let sidx := (i / B)%nat in
      let* sml := aset (c_sml s) (2 * sidx) (- (mn - 1) mod 2 ^ Z.of_nat ws) in
      let* sml := aset sml (2 * sidx + 1) ((mx + 1) mod 2 ^ Z.of_nat ws) in
      let v := (inner + sidx / deg)%nat in
      let* a := nth_error (c_med s) (2 * v) in
      let* med := (if (a <? - (c_abs s + mn) + Z.of_nat n) then aset (c_med s) (2 * v) ((- (c_abs s + mn) + Z.of_nat n) mod 2 ^ Z.of_nat wm) else Some (c_med s)) in
      let* b := nth_error med (2 * v + 1) in
      let* med := (if (b <? c_abs s + mx + Z.of_nat n) then aset med (2 * v + 1) ((c_abs s + mx + Z.of_nat n) mod 2 ^ Z.of_nat wm) else Some med) in
      fill_loop n B deg inner ws wm bits (i + 1) (mkcst 1 (-1) 0 (c_abs s + rel) sml med)
    else fill_loop n B deg inner ws wm bits (i + 1) (mkcst mn mx rel (c_abs s) (c_sml s) (c_med s))
  end.
(** lines 421-427: from the last node to node 1 *)
Fixpoint tree_loop (n : nat) (v : nat) (med : list Z) : option (list Z) :=
  match v with
  | O => Some med
  | S u =>
    let p := (u / 2)%nat in
    let* a := min_value n med v in
    let* b := min_value n med p in
    let* med := (if a <? b then let* x := nth_error med (2 * v) in aset med (2 * p) x else Some med) in
    let* a := max_value n med v in
    let* b := max_value n med p in
    let* med := (if b <? a then let* x := nth_error med (2 * v + 1) in aset med (2 * p + 1) x else Some med) in
    tree_loop n u med
  end.
(** bp_support_sada.hpp:364-428: the constructor for a non-empty sequence *)
Definition bp_make (B deg : nat) (bp : list bool) : option bps :=
  let n := length bp in
  let smls := ((n + B - 1) / B)%nat in
  let meds := ((n + B * deg - 1) / (B * deg))%nat in
  if (n =? 0)%nat then Some (mkbps [] [] smls meds 0)
  else
    let* inner := inner_loop (meds + 1) meds 1 in
    let ws := (Nat.log2 (B + 2) + 1)%nat in
    let wm := (Nat.log2 (2 * n + 2) + 1)%nat in
    let* s := fill_loop n B deg inner ws wm bp 0 (mkcst 1 (-1) 0 0 (repeat 0 (2 * smls)) (repeat 0 (2 * (meds + inner)))) in
    let* med := tree_loop n (meds + inner - 1) (c_med s) in
    Some (mkbps (c_sml s) med smls meds inner).

(** bp_support_sada.hpp:326-345: fwd_excess_in_med_block *)
Fixpoint fwd_med_loop (fuel : nat) (g : padding) (B : nat) (bp : list bool) (t : bps) (s last : nat) (want : Z) : option nat :=
  match fuel with
  | O => None
  | S f =>
    if (s <? last)%nat then
      let* ex := exc bp (s * B) in
      let* a := nth_error (b_sml t) (2 * s) in
      let* b := nth_error (b_sml t) (2 * s + 1) in
      if (ex + (1 - a) <=? want) && (want <=? ex + b - 1) then near_fwd_excess g bp (s * B) (want - ex) B
      else fwd_med_loop f g B bp t (s + 1) last want
    else Some (length bp)
  end.
Definition fwd_excess_in_med_block (g : padding) (B deg : nat) (bp : list bool) (t : bps) (s : nat) (want : Z) : option nat :=
  let last := Nat.min ((s * B / (B * deg) + 1) * deg) (b_smls t) in
  fwd_med_loop (last - s + 1) g B bp t s last want.
(** lines 242-249: up the tree; the result is the root or a node whose range contains the value *)
Definition contains (n : nat) (t : bps) (v : nat) (want : Z) : option bool :=
  let* a := min_value n (b_med t) v in let* b := max_value n (b_med t) v in Some ((a <=? want) && (want <=? b)).
Fixpoint up_right (fuel n : nat) (t : bps) (v : nat) (want : Z) : option nat :=
  match fuel with
  | O => None
  | S f =>
    if (v =? 0)%nat then Some v
    else if (v mod 2 =? 1)%nat then
      let* c := contains n t (v + 1) want in
      if c then Some (v + 1)%nat else up_right f n t (v / 2) want
    else up_right f n t ((v - 1) / 2) want
  end.
(** lines 252-258: down the tree *)
Fixpoint down_left (fuel n : nat) (t : bps) (v : nat) (want : Z) : option nat :=
  match fuel with
  | O => None
  | S f =>
    if (b_inner t <=? v)%nat then Some v
    else let* c := contains n t (2 * v + 1) want in
         down_left f n t (if c then 2 * v + 1 else 2 * v + 2) want
  end.
(** bp_support_sada.hpp:222-263: fwd_excess *)
Definition fwd_excess (g : padding) (B deg : nat) (bp : list bool) (t : bps) (i : nat) (rel : Z) : option nat :=
  let n := length bp in
  let* j := near_fwd_excess g bp (i + 1) rel B in
  if (i <? j)%nat then Some j
  else
    let* ex := exc bp (i + 1) in
    let want := ex + rel in
    let* j := fwd_excess_in_med_block g B deg bp t (i / B + 1) want in
    if negb (j =? n)%nat then Some j
    else if (i / (B * deg) =? b_meds t)%nat then Some n
    else
      let* v := up_right (b_inner t + b_meds t + 1) n t (b_inner t + i / (B * deg)) want in
      if negb (v =? 0)%nat then
        let* v := down_left (b_inner t + 1) n t v want in
        let* k := csub v (b_inner t) in
        fwd_excess_in_med_block g B deg bp t (k * deg) want
      else Some n.

(** bp_support_sada.hpp:304-324: bwd_excess_in_med_block; the small block index s is -1 at the end, [s] = s+1 here *)
Fixpoint bwd_med_loop (g : padding) (B : nat) (bp : list bool) (t : bps) (s1 first : nat) (want : Z) : option Z :=
  match s1 with
  | O => Some (Z.of_nat (length bp))
  | S s =>
    if (first <=? s)%nat then
      let* ex := exc bp (s * B) in
      let* a := nth_error (b_sml t) (2 * s) in
      let* b := nth_error (b_sml t) (2 * s + 1) in
      if (ex + (1 - a) <=? want) && (want <=? ex + (b - 1)) then
        let* e := exc bp ((s + 1) * B + 1) in
        near_bwd_excess g bp ((s + 1) * B - 1) (want - e) B
      else bwd_med_loop g B bp t s first want
    else Some (if (s =? 0)%nat && (want =? 0) then -1 else Z.of_nat (length bp))
  end.
(** called with s = 2^64-1 (s1 = 0) the loop does not start *)
Definition bwd_excess_in_med_block (g : padding) (B deg : nat) (bp : list bool) (t : bps) (s1 : nat) (want : Z) : option Z :=
  bwd_med_loop g B bp t s1 ((s1 - 1) * B / (B * deg) * deg) want.
(** lines 290-297 *)
Fixpoint up_left (fuel n : nat) (t : bps) (v : nat) (want : Z) : option nat :=
  match fuel with
  | O => None
  | S f =>
    if (v =? 0)%nat then Some v
    else if (v mod 2 =? 0)%nat then
      let* c := contains n t (v - 1) want in
      if c then Some (v - 1)%nat else up_left f n t ((v - 1 - 1) / 2) want
    else up_left f n t ((v - 1) / 2) want
  end.
(** lines 300-307 *)
Fixpoint down_right (fuel n : nat) (t : bps) (v : nat) (want : Z) : option nat :=
  match fuel with
  | O => None
  | S f =>
    if (b_inner t <=? v)%nat then Some v
    else let* c := contains n t (2 * v + 2) want in
         down_right f n t (if c then 2 * v + 2 else 2 * v + 1) want
  end.
(** bp_support_sada.hpp:272-315: bwd_excess *)
Definition bwd_excess (g : padding) (B deg : nat) (bp : list bool) (t : bps) (i : nat) (rel : Z) : option Z :=
  let n := length bp in
  if (i =? 0)%nat then Some (if rel =? 0 then -1 else Z.of_nat n)
  else
    let* j := near_bwd_excess g bp (i - 1) rel B in
    if (j <? Z.of_nat i) || (j =? -1) then Some j
    else
      let* ex := exc bp (i + 1) in
      let want := ex + rel in
      let* j := bwd_excess_in_med_block g B deg bp t (i / B) want in
      if negb (j =? Z.of_nat n) then Some j
      else if (i / (B * deg) =? 0)%nat then Some (if want =? 0 then -1 else Z.of_nat n)
      else
        let* v := up_left (b_inner t + b_meds t + 1) n t (b_inner t + i / (B * deg)) want in
        if negb (v =? 0)%nat then
          let* v := down_right (b_inner t + 1) n t v want in
          let* k := csub v (b_inner t) in
          bwd_excess_in_med_block g B deg bp t (k * deg + (deg - 1) + 1) want
        else Some (if want =? 0 then -1 else Z.of_nat n).

(** bp_support_sada.hpp:529-532: rank *)
Definition bp_rank (bp : list bool) (i : nat) : option nat := t_rank bp (i + 1).
(** lines 539-553: select *)
Definition bp_select (bp : list bool) (i : nat) : option nat := t_sel1 bp i.
(** lines 561-579: find_close *)
Definition find_close (g : padding) (B deg : nat) (bp : list bool) (t : bps) (i : nat) : option nat :=
  let* b := t_get bp i in
  if negb b then Some i else fwd_excess g B deg bp t i (-1).
(** bwd_ex == size() ? size() : bwd_ex+1 *)
Definition bwd_result (n : nat) (x : Z) : nat := if x =? Z.of_nat n then n else Z.to_nat (x + 1).
(** lines 587-611: find_open *)
Definition find_open (g : padding) (B deg : nat) (bp : list bool) (t : bps) (i : nat) : option nat :=
  let* b := t_get bp i in
  if b then Some i else let* x := bwd_excess g B deg bp t i 0 in Some (bwd_result (length bp) x).
(** lines 618-629: enclose *)
Definition enclose (g : padding) (B deg : nat) (bp : list bool) (t : bps) (i : nat) : option nat :=
  let* b := t_get bp i in
  if negb b then find_open g B deg bp t i else let* x := bwd_excess g B deg bp t i (-2) in Some (bwd_result (length bp) x).
(** lines 885-893: level_anc *)
Definition level_anc (g : padding) (B deg : nat) (bp : list bool) (t : bps) (i d : nat) : option nat :=
  let* x := bwd_excess g B deg bp t i (- Z.of_nat d - 1) in Some (bwd_result (length bp) x).
