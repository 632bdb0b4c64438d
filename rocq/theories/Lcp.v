(** * LCP construction and LCP representations

    construct_lcp_kasai and construct_lcp_PHI (include/sdsl/construct_lcp.hpp), construct_lcp_semi_extern_PHI
    (lib/construct_lcp.cpp), _lcp_support_sada, lcp_byte and lcp_wt.
    Texts, arrays in memory and cache files are lists of [nat]; an int_vector of width w keeps values modulo 2^w ([tr]);
    reading or writing outside a list is undefined behaviour ([None]). *)
From Coq Require Import NArith List Arith Bool Lia.
From Verif Require Import Base SpecBits AbsVec WtBase CsaSample WtPc.
Import ListNotations.

Definition tr (w v : nat) : nat := v mod 2 ^ w.
(* while (text[i+l]==text[j+l]) ++l; construct_lcp.hpp:84-86, 149-151 *)
Fixpoint scan (fuel : nat) (T : list nat) (i j l : nat) : option nat :=
  match fuel with
  | 0 => None
  | S f => let* a := nth_error T (i + l) in let* b := nth_error T (j + l) in if a =? b then scan f T i j (l + 1) else Some l
  end.

(** ** construct_lcp_kasai, construct_lcp.hpp:62-105 *)
(* the loop 78-93: [k] positions to go, [i] the next one; sa is overwritten *)
Fixpoint kasai_loop (k i l : nat) (T isa sa : list nat) (w : nat) : option (list nat) :=
  match k with
  | 0 => Some sa
  | S k' =>
    let* sa_1 := nth_error isa i in
    if negb (sa_1 =? 0) then
      let* j := nth_error sa (sa_1 - 1) in
      let l := if negb (l =? 0) then l - 1 else l in
      let* l := scan (S (length T)) T i j l in
      let* sa := aset sa (sa_1 - 1) (tr w l) in
      kasai_loop k' (i + 1) l T isa sa w
    else
      let* m := csub (length isa) 1 in
      let* sa := aset sa m 0 in
      kasai_loop k' (i + 1) 0 T isa sa w
  end.
(* for (i=sa.size(); i>1; --i) sa[i-1] = sa[i-2]; 95-97 *)
Fixpoint shift_loop (i : nat) (sa : list nat) : option (list nat) :=
  match i with
  | 0 => Some sa
  | S i' => if i' =? 0 then Some sa else let* x := nth_error sa (i - 2) in let* sa := aset sa (i - 1) x in shift_loop i' sa
  end.
Definition lcp_kasai (T sa : list nat) (w : nat) : option (list nat) :=
  let* isa := construct_isa sa in
  let* a := kasai_loop (length isa) 0 0 T isa sa w in
  let* a := shift_loop (length a) a in
  aset a 0 0.

(** ** construct_lcp_PHI, construct_lcp.hpp:123-180 *)
(* (1), 139-143 *)
Fixpoint phi_loop (sa : list nat) (sai_1 : nat) (plcp : list nat) (w : nat) : option (list nat) :=
  match sa with [] => Some plcp | s :: sa' => let* plcp := aset plcp s (tr w sai_1) in phi_loop sa' s plcp w end.
(* (3), 151-162: returns plcp and max_l *)
Fixpoint plcp_loop (k i l max_l : nat) (T plcp : list nat) (w : nat) : option (list nat * nat) :=
  match k with
  | 0 => Some (plcp, max_l)
  | S k' =>
    let* phii := nth_error plcp i in
    let* l := scan (S (length T)) T i phii l in
    let* plcp := aset plcp i (tr w l) in
    if negb (l =? 0) then plcp_loop k' (i + 1) (l - 1) (Nat.max max_l l) T plcp w
    else plcp_loop k' (i + 1) l max_l T plcp w
  end.
(* (4), 166-176: lcp_buf[i] = plcp[sa[i]] into a buffer of width [lw] *)
Fixpoint perm_loop (sa plcp : list nat) (lw : nat) : option (list nat) :=
  match sa with [] => Some [] | s :: sa' => let* x := nth_error plcp s in let* r := perm_loop sa' plcp lw in Some (tr lw x :: r) end.
Definition lcp_PHI (T sa : list nat) (w : nat) : option (list nat) :=
  let n := length sa in
  if n =? 1 then Some [0]
  else
    let* plcp := phi_loop sa 0 (repeat 0 n) w in
    let* m := csub n 1 in
    let* r := plcp_loop m 0 0 0 T plcp w in
    let '(plcp, max_l) := r in
    let lw := Nat.log2 max_l + 1 in
    let* r := perm_loop (tl sa) plcp lw in
    Some (0 :: r).

(** ** construct_lcp_semi_extern_PHI, lib/construct_lcp.cpp:14-95.  [q] is the sampling distance, 64 in the code; the
    shifts and masks by log_q are division, product and remainder; the 64 bit plcp entries are not truncated. *)
(* 31-43 *)
Fixpoint semi_phi (q : nat) (sa : list nat) (sai_1 : nat) (plcp : list nat) : option (list nat) :=
  match sa with
  | [] => Some plcp
  | s :: sa' => let* plcp := (if s mod q =? 0 then aset plcp (s / q) sai_1 else Some plcp) in semi_phi q sa' s plcp
  end.
(* 48-59 *)
Fixpoint semi_plcp (q k i l : nat) (T plcp : list nat) : option (list nat) :=
  match k with
  | 0 => Some plcp
  | S k' =>
    let* x := nth_error plcp i in
    let* l := scan (S (length T)) T (i * q) x l in
    let* plcp := aset plcp i l in
    semi_plcp q k' (i + 1) (if q <=? l then l - q else 0) T plcp
  end.
(* 65-91 *)
Fixpoint semi_out (q : nat) (sa : list nat) (sai_1 : nat) (T plcp : list nat) (w : nat) : option (list nat) :=
  match sa with
  | [] => Some []
  | s :: sa' =>
    let* l := nth_error plcp (s / q) in
    let* l := (if s mod q =? 0 then Some l
               else let iq := s / q * q in
                    let l := if s - iq <? l then l - (s - iq) else 0 in
                    scan (S (length T)) T s sai_1 l) in
    let* r := semi_out q sa' s T plcp w in Some (tr w l :: r)
  end.
Definition lcp_semi (T sa : list nat) (w : nat) : option (list nat) :=
  let n := length sa in
  if n =? 1 then Some [0]
  else
    let q := 64 in
    let sz := (n - 1 + q) / q in
    let* plcp := semi_phi q sa 0 (repeat 0 sz) in
    let* plcp := semi_plcp q sz 0 0 T plcp in
    semi_out q sa 0 T plcp w.

(** ** _lcp_support_sada, lcp_support_sada.hpp:120-145, 201-206 *)
(* the loop 134-139: data_cnt += l + 1 - old_l (modulo 2^64 in the code); data[data_cnt++] = 1 *)
Fixpoint sada_loop (isa lcp : list nat) (old_l cnt : nat) (data : list bool) : option (list bool * nat) :=
  match isa with
  | [] => Some (data, cnt)
  | r :: isa' =>
    let* l := nth_error lcp r in
    let* cnt := csub (cnt + l + 1) old_l in
    let* data := aset data cnt true in
    sada_loop isa' lcp l (cnt + 1) data
  end.
Definition sada_make (isa lcp : list nat) : option (list bool) :=
  let* r := sada_loop isa lcp 1 0 (repeat false (2 * length lcp)) in
  let '(data, cnt) := r in Some (firstn cnt data ++ repeat false (cnt - length data)).
(* operator[]: [csa] is the suffix array access *)
Definition sada_at (csa : nat -> option nat) (data : list bool) (i : nat) : option nat :=
  let* j := csa i in
  let* s := t_sel1 data (j + 1) in
  csub s (2 * j).

(** ** lcp_byte, lcp_byte.hpp:86-113, 148-160 *)
Record lbyte := mklb { lb_small : list nat; lb_big : list nat; lb_idx : list nat }.
(* the first loop 93-102: the bytes, max_l, max_big_idx; 8-bit elements *)
Fixpoint small_loop (lcp : list nat) (i max_l max_i : nat) : list nat * nat * nat :=
  match lcp with
  | [] => ([], max_l, max_i)
  | l :: lcp' =>
    if l <? 255 then let '(s, m, x) := small_loop lcp' (i + 1) max_l max_i in (tr 8 l :: s, m, x)
    else let '(s, m, x) := small_loop lcp' (i + 1) (Nat.max l max_l) i in (255 :: s, m, x)
  end.
(* the second loop 106-112 *)
Fixpoint big_loop (lcp : list nat) (i wl wi : nat) : list nat * list nat :=
  match lcp with
  | [] => ([], [])
  | l :: lcp' => let '(b, x) := big_loop lcp' (i + 1) wl wi in if 255 <=? l then (tr wl l :: b, tr wi i :: x) else (b, x)
  end.
Definition lb_make (lcp : list nat) : lbyte :=
  let '(s, m, x) := small_loop lcp 0 0 0 in
  let '(b, y) := big_loop lcp 0 (Nat.log2 m + 1) (Nat.log2 x + 1) in mklb s b y.
(* std::lower_bound on a sorted range: the first element that is not smaller *)
Fixpoint lower_bound (l : list nat) (x : nat) : nat := match l with [] => 0 | a :: l' => if a <? x then S (lower_bound l' x) else 0 end.
Definition lb_at (v : lbyte) (i : nat) : option nat :=
  let* s := nth_error (lb_small v) i in
  if negb (s =? 255) then Some s else nth_error (lb_big v) (lower_bound (lb_idx v) i).

(** ** lcp_wt, lcp_wt.hpp:96-134, 178-186: the bytes are in a Huffman shaped wavelet tree, the large values in text order *)
(* the second loop 121-125 *)
Fixpoint big_vals (lcp : list nat) (wl : nat) : list nat :=
  match lcp with [] => [] | l :: lcp' => if 255 <=? l then tr wl l :: big_vals lcp' wl else big_vals lcp' wl end.
Record lwt := mklw { lw_small : wtpc; lw_big : list nat }.
(* nothing is built for an empty array; [Throw]: the constructor of wt_huff throws *)
Definition lw_make (lcp : list nat) : option (res lwt) :=
  let '(s, m, _) := small_loop lcp 0 0 0 in
  let* w := wp_make Huff true false (map N.of_nat s) in
  match w with
  | Throw => Some Throw
  | Ok w => Some (Ok (mklw w (big_vals lcp (Nat.log2 m + 1))))
  end.
Definition lw_at (v : lwt) (i : nat) : option nat :=
  let* c := wp_access (lw_small v) i in
  if negb (c =? 255)%N then Some (N.to_nat c)
  else let* r := wp_rank (lw_small v) i 255 in nth_error (lw_big v) r.
