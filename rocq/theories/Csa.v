(** * Compressed suffix arrays (csa_wt.hpp, csa_sada.hpp, csa_bitcompressed.hpp, suffix_array_helper.hpp,
      suffix_array_algorithm.hpp, construct_bwt.hpp; all in include/sdsl)

    Positions, rows and symbols are [nat] (the sizes fit 64 bits).  Every right border r of the code is represented by
    r+1 (exclusive); the code only ever uses r+1, computed modulo 2^64, so l = 0, r = -1 is the empty interval [0, 0).
    The wavelet tree is the sequence it stores, with the rank, select and inverse_select answers that PropWt.v and
    PropWm.v prove; the enc_vector of csa_sada is the sequence of psi values (PropEnc.v).  [None] is undefined behaviour. *)
From Coq Require Import List Arith Bool Lia.
From Verif Require Import Base SpecBits AbsVec WtBase Alphabet.
Import ListNotations.

(** ** The sequence behind a wavelet tree *)
Definition is_sym (s : list nat) (c j : nat) : bool := match nth_error s j with Some x => x =? c | None => false end.
(* wt.rank(i, c), wt.select(i, c), wt.inverse_select(i) *)
Definition w_rank (s : list nat) (i c : nat) : option nat := if i <=? length s then Some (rank_of (is_sym s c) i) else None.
Definition w_select (s : list nat) (i c : nat) : option nat :=
  if i =? 0 then None else nth_error (positions (is_sym s c) (length s)) (i - 1).
Definition w_isel (s : list nat) (i : nat) : option (nat * nat) := let* c := nth_error s i in Some (rank_of (is_sym s c) i, c).

(* construct_bwt, construct_bwt.hpp:71-75: to_add[0] = -1, to_add[1] = n-1 *)
Fixpoint bwt_loop (T sa : list nat) : option (list nat) :=
  match sa with
  | [] => Some []
  | p :: sa' =>
    let* q := (if p =? 0 then Some (p + (length T - 1)) else csub p 1) in
    let* c := nth_error T q in
    let* r := bwt_loop T sa' in Some (c :: r)
  end.
Definition construct_bwt (T sa : list nat) : option (list nat) := bwt_loop T sa.

(** ** First row: first_row_symbol, suffix_array_helper.hpp:40-65 *)
(* the linear search 44-48 *)
Fixpoint frs_lin (f : nat) (al : alph) (i res : nat) : option nat :=
  match f with
  | 0 => None
  | S f' =>
    if res <? al_sigma al then
      let* x := nth_error (al_C al) res in
      if x <=? i then frs_lin f' al i (res + 1) else let* k := csub res 1 in al_c2ch al k
    else let* k := csub res 1 in al_c2ch al k
  end.
(* the binary search 50-62 (do ... while) *)
Fixpoint frs_bin (f : nat) (al : alph) (i lower upper : nat) : option nat :=
  match f with
  | 0 => None
  | S f' =>
    let res := (upper + lower) / 2 in
    let* a := nth_error (al_C al) res in
    let* b := nth_error (al_C al) (res + 1) in
    if i <? a then frs_bin f' al i lower res
    else if b <=? i then frs_bin f' al i (res + 1) upper
    else al_c2ch al res
  end.
Definition first_row_symbol (al : alph) (i : nat) : option nat :=
  if al_sigma al <? 16 then frs_lin 17 al i 1 else frs_bin (S (al_sigma al)) al i 0 (al_sigma al).

(** ** Samplings as the CSAs use them: is_sampled(i), operator[](i) *)
Record smp := mksmp { sm_is : nat -> option bool; sm_at : nat -> option nat }.
(* sample_leq(i) and sample_qeq(i): the sampled ISA value and its position *)
Record ismp := mkismp { im_leq : nat -> option (nat * nat); im_qeq : nat -> option (nat * nat) }.

(** a CSA as the algorithms see it *)
Record csa := mkcsa {
  c_n : nat; c_al : alph;
  c_rank : nat -> nat -> option nat;   (* bwt.rank(i, c) *)
  c_lf : nat -> option nat; c_psi : nat -> option nat;
  c_sa : nat -> option nat; c_isa : nat -> option nat }.

(* C[char2comp[c]] *)
Definition c_begin (al : alph) (c : nat) : option nat := let* k := al_c2c al c in nth_error (al_C al) k.

(** ** csa_wt *)
(* lf[i]: traverse_csa_wt_traits<false>::access, suffix_array_helper.hpp:341-348 *)
Definition wt_lf (s : list nat) (al : alph) (i : nat) : option nat :=
  let* jc := w_isel s i in let* b := c_begin al (snd jc) in Some (b + fst jc).
(* psi[i]: traverse_csa_wt_traits<true>::access, suffix_array_helper.hpp:328-332 *)
Definition wt_psi (s : list nat) (al : alph) (i : nat) : option nat :=
  let* c := first_row_symbol al i in let* b := c_begin al c in let* d := csub i b in w_select s (d + 1) c.

(* csa_wt::operator[], csa_wt.hpp:335-348; [fuel] steps *)
Fixpoint wt_sa_loop (fuel : nat) (lf : nat -> option nat) (sm : smp) (n i off : nat) : option nat :=
  match fuel with
  | 0 => None
  | S f =>
    let* b := sm_is sm i in
    if b then
      let* r := sm_at sm i in
      Some (if r + off <? n then r + off else r + off - n)
    else let* i' := lf i in wt_sa_loop f lf sm n i' (off + 1)
  end.

(* while (i--) result = f[result] *)
Fixpoint walk (f : nat -> option nat) (k r : nat) : option nat :=
  match k with 0 => Some r | S k' => let* r' := f r in walk f k' r' end.
(* isa_of_csa_wt::operator[], suffix_array_helper.hpp:500-515 *)
Definition wt_isa (lf : nat -> option nat) (im : ismp) (n i : nat) : option nat :=
  let* s := im_qeq im i in
  let* k := (if snd s <? i then csub (snd s + n) i else csub (snd s) i) in
  walk lf k (fst s).

(* the csa_wt object of a BWT [s], an alphabet and samplings *)
Definition csa_wt (s : list nat) (al : alph) (sm : smp) (im : ismp) : csa :=
  let n := length s in
  mkcsa n al (w_rank s) (wt_lf s al) (wt_psi s al) (fun i => wt_sa_loop (S n) (wt_lf s al) sm n i 0) (wt_isa (wt_lf s al) im n).

(* csa_wt::select_bwt, csa_wt.hpp:285-297 *)
Definition wt_select_bwt (s : list nat) (al : alph) (i c : nat) : option nat :=
  let* cc := al_c2c al c in
  if (cc =? 0) && negb (c =? 0) then Some (length s)
  else
    let* a := nth_error (al_C al) cc in
    let* b := nth_error (al_C al) (cc + 1) in
    let* q := csub (a + i) 1 in
    if q <? b then w_select s i c else Some (length s).

(** ** csa_sada *)
(* the construction of psi, csa_sada.hpp:405-418: [cnt] is cnt_chr, a copy of C without its last entry *)
Fixpoint psi_loop (s : list nat) (al : alph) (i : nat) (cnt psi : list nat) : option (list nat) :=
  match s with
  | [] => Some psi
  | c :: s' =>
    let* k := al_c2c al c in
    let* q := nth_error cnt k in
    let* cnt' := aset cnt k (q + 1) in
    let* psi' := aset psi q i in
    psi_loop s' al (S i) cnt' psi'
  end.
Definition construct_psi (s : list nat) (al : alph) : option (list nat) :=
  psi_loop s al 0 (firstn (al_sigma al) (al_C al)) (repeat 0 (length s)).

(* csa_sada::operator[], csa_sada.hpp:445-459 *)
Fixpoint sada_sa_loop (fuel : nat) (psi : nat -> option nat) (sm : smp) (n i off : nat) : option nat :=
  match fuel with
  | 0 => None
  | S f =>
    let* b := sm_is sm i in
    if b then
      let* r := sm_at sm i in
      if r <? off then let* d := csub off r in csub n d else Some (r - off)
    else let* i' := psi i in sada_sa_loop f psi sm n i' (off + 1)
  end.
(* isa_of_csa_psi::operator[], suffix_array_helper.hpp:558-569; i - position must not wrap *)
Definition psi_isa (psi : nat -> option nat) (im : ismp) (i : nat) : option nat :=
  let* s := im_leq im i in let* k := csub i (snd s) in walk psi k (fst s).
(* traverse_csa_psi_trait<false>::access, suffix_array_helper.hpp:83-89, and traverse_csa_saisa_trait, 148-170 *)
Definition lf_saisa (sa isa : nat -> option nat) (n i : nat) : option nat :=
  let* x := sa i in if n =? 0 then None else isa ((x + n - 1) mod n).
Definition psi_saisa (sa isa : nat -> option nat) (n i : nat) : option nat :=
  let* x := sa i in if n =? 0 then None else isa ((x + 1) mod n).

(* binary search while (lower+1 < upper) on psi, csa_sada.hpp:356-362; also csa_bitcompressed.hpp:286-292 *)
Fixpoint bs_psi (f : nat) (psi : nat -> option nat) (i lower upper : nat) : option nat :=
  match f with
  | 0 => None
  | S f' =>
    if lower + 1 <? upper then
      let mid := (lower + upper) / 2 in
      let* x := psi mid in
      if i <=? x then bs_psi f' psi i lower mid else bs_psi f' psi i mid upper
    else Some lower
  end.
(* csa_sada.hpp:363-367 *)
Definition bs_finish (psi : nat -> option nat) (b i lower upper : nat) : option nat :=
  let* l := bs_psi (S upper) psi i lower upper in
  if b <? l then Some (l - b + 1) else let* x := psi l in Some (if x <? i then 1 else 0).
(* the search on the samples, csa_sada.hpp:312-318; sample(mid) = psi[mid*sd] *)
Fixpoint bs_smp (f : nat) (psi : nat -> option nat) (sd i lower upper : nat) : option (nat * nat) :=
  match f with
  | 0 => None
  | S f' =>
    if lower + 1 <? upper then
      let mid := (lower + upper) / 2 in
      let* x := psi (mid * sd) in
      if i <=? x then bs_smp f' psi sd i lower mid else bs_smp f' psi sd i mid upper
    else Some (lower, upper)
  end.
(* the linear search over the buffer, csa_sada.hpp:341: returns the index of the first entry that is not smaller.  get_inter_sampled_values
   wrote psi[lower_b + k] - smpl at k, and entry [e] is overwritten with size() - smpl; the differences and the sum are
   taken modulo 2^64 (C27), so entry k + smpl is psi[lower_b + k].  [f] is the size of the buffer. *)
Fixpoint lin_buf (f : nat) (psi : nat -> option nat) (n lower_b e i k : nat) : option nat :=
  match f with
  | 0 => None
  | S f' =>
    let* x := (if k =? e then Some n else psi (lower_b + k)) in
    if x <? i then lin_buf f' psi n lower_b e i (k + 1) else Some k
  end.
(* csa_sada::rank_bwt, csa_sada.hpp:298-368; [buf] tells whether m_psi_buf is allocated (sample_dens < 100000) *)
Definition sada_rank (al : alph) (psi : nat -> option nat) (n sd : nat) (buf : bool) (i c : nat) : option nat :=
  let* cc := al_c2c al c in
  if (cc =? 0) && negb (c =? 0) then Some 0
  else if i =? 0 then Some 0
  else
    let* a := nth_error (al_C al) cc in
    let* b := nth_error (al_C al) (cc + 1) in
    let lo0 := (a + sd - 1) / sd in
    let hi0 := (b + sd - 1) / sd in
    let* lh := bs_smp (S hi0) psi sd i lo0 hi0 in
    let '(lo, hi) := lh in
    if lo =? hi then bs_finish psi a i a b
    else if lo0 <? lo then
      if negb buf then bs_finish psi a i (lo * sd) (Nat.min (hi * sd) b)
      else
        let e := if b <=? lo * sd + sd then b - lo * sd else sd in
        let* k := lin_buf (sd + 1) psi n (lo * sd) e i 0 in
        csub (k + lo * sd) a
    else
      let* x := psi (lo * sd) in
      if i <=? x then bs_finish psi a i a (lo * sd + 1)
      else bs_finish psi a i (lo * sd) (Nat.min (hi * sd) b).
(* csa_sada::select_bwt, csa_sada.hpp:378-390 *)
Definition psi_select_bwt (al : alph) (psi : nat -> option nat) (n i c : nat) : option nat :=
  let* cc := al_c2c al c in
  if (cc =? 0) && negb (c =? 0) then Some n
  else
    let* a := nth_error (al_C al) cc in
    let* b := nth_error (al_C al) (cc + 1) in
    let* q := csub (a + i) 1 in
    if q <? b then psi q else Some n.
(* bwt[i] of the psi based CSAs: bwt_of_csa_psi::operator[], suffix_array_helper.hpp:258-263 *)
Definition psi_bwt (al : alph) (lf : nat -> option nat) (i : nat) : option nat := let* p := lf i in first_row_symbol al p.

Definition csa_sada (psi : list nat) (al : alph) (sd : nat) (buf : bool) (sm : smp) (im : ismp) : csa :=
  let n := length psi in
  let ps := nth_error psi in
  let sa := fun i => sada_sa_loop (S n) ps sm n i 0 in
  let isa := psi_isa ps im in
  mkcsa n al (sada_rank al ps n sd buf) (lf_saisa sa isa n) ps sa isa.

(** ** csa_bitcompressed: the plain suffix array and its inverse (csa_bitcompressed.hpp:134-152, 275-298) *)
Definition bc_rank (al : alph) (psi : nat -> option nat) (i c : nat) : option nat :=
  let* cc := al_c2c al c in
  if (cc =? 0) && negb (c =? 0) then Some 0
  else
    let* a := nth_error (al_C al) cc in
    let* b := nth_error (al_C al) (1 + cc) in
    bs_finish psi a i a b.
Definition csa_bitcompressed (sa isa : list nat) (al : alph) : csa :=
  let n := length sa in
  let s := nth_error sa in let t := nth_error isa in
  mkcsa n al (bc_rank al (psi_saisa s t n)) (lf_saisa s t n) (psi_saisa s t n) s t.

(** ** suffix_array_algorithm.hpp *)
(* backward_search for a symbol, 164-187 *)
Definition bsearch1 (x : csa) (l r c : nat) : option (nat * nat) :=
  let al := c_al x in
  let* cc := al_c2c al c in
  if (cc =? 0) && (0 <? c) then Some (1, 1)
  else
    let* b := nth_error (al_C al) cc in
    if (l =? 0) && (r =? c_n x) then let* e := nth_error (al_C al) (cc + 1) in Some (b, e)
    else
      let* p := c_rank x l c in
      let* q := c_rank x r c in
      Some (b + p, b + q).
(* backward_search for a pattern, 220-239; the pattern is given reversed *)
Fixpoint bsearch_rev (x : csa) (l r : nat) (rp : list nat) : option (nat * nat) :=
  match rp with
  | [] => Some (l, r)
  | c :: rp' =>
    let* d := csub r l in
    if d =? 0 then Some (l, r) else let* lr := bsearch1 x l r c in bsearch_rev x (fst lr) (snd lr) rp'
  end.
Definition bsearch (x : csa) (l r : nat) (P : list nat) : option (nat * nat) := bsearch_rev x l r (rev P).
(* count, 430-442 *)
Definition count (x : csa) (P : list nat) : option nat :=
  if c_n x <? length P then Some 0 else let* lr := bsearch x 0 (c_n x) P in csub (snd lr) (fst lr).
(* locate, 518-532 *)
Fixpoint loc_loop (x : csa) (k i : nat) : option (list nat) :=
  match k with 0 => Some [] | S k' => let* p := c_sa x i in let* r := loc_loop x k' (S i) in Some (p :: r) end.
Definition locate (x : csa) (P : list nat) : option (list nat) :=
  let* lr := bsearch x 0 (c_n x) P in let* k := csub (snd lr) (fst lr) in loc_loop x k (fst lr).

(* text[i]: text_of_csa::operator[], suffix_array_helper.hpp:663-667 *)
Definition text_at (x : csa) (i : nat) : option nat := let* r := c_isa x i in first_row_symbol (c_al x) r.
(* extract (lf_tag), 587-610: [k] symbols still to write in front of [acc]; inverse_select gives the symbol and the rank *)
Fixpoint ex_lf_loop (s : list nat) (al : alph) (k order : nat) (acc : list nat) : option (list nat) :=
  match k with
  | 0 => Some acc
  | S k' =>
    let* jc := w_isel s order in
    let* b := c_begin al (snd jc) in
    ex_lf_loop s al k' (b + fst jc) (snd jc :: acc)
  end.
Definition extract_lf (s : list nat) (x : csa) (b e : nat) : option (list nat) :=
  let* steps := csub (e + 1) b in
  if steps =? 0 then Some []
  else
    let* order := c_isa x e in
    let* c := first_row_symbol (c_al x) order in
    ex_lf_loop s (c_al x) (steps - 1) order [c].
(* extract (psi_tag), 614-632 *)
Fixpoint ex_psi_loop (x : csa) (k order : nat) : option (list nat) :=
  match k with
  | 0 => Some []
  | S k' =>
    let* c := first_row_symbol (c_al x) order in
    let* order' := c_psi x order in
    let* r := ex_psi_loop x k' order' in Some (c :: r)
  end.
Definition extract_psi (x : csa) (b e : nat) : option (list nat) :=
  let* steps := csub (e + 1) b in
  let* order := c_isa x b in
  ex_psi_loop x steps order.

(* forward_search, 47-108.  The lambda compare: 1 = row before the pattern, -1 = after *)
Fixpoint fs_compare (x : csa) (P : list nat) (i : nat) : option comparison :=
  match P with
  | [] => Some Eq
  | c :: P' =>
    let* k := al_c2c (c_al x) c in
    if k =? 0 then Some Lt
    else
      let* b := nth_error (al_C (c_al x)) (k + 1) in
      let* b1 := csub b 1 in
      if b1 <? i then Some Lt
      else
        let* a := nth_error (al_C (c_al x)) k in
        if i <? a then Some Gt else let* i' := c_psi x i in fs_compare x P' i'
  end.
Fixpoint fs_min (f : nat) (x : csa) (P : list nat) (l u : nat) : option nat :=
  match f with
  | 0 => None
  | S f' =>
    if l <? u then
      let m := l + (u - l) / 2 in
      let* r := fs_compare x P m in
      match r with Gt => fs_min f' x P (m + 1) u | _ => fs_min f' x P l m end
    else Some l
  end.
(* r is the exclusive border (r_res + 1): sample = r_res + (r_res_upper - r_res)/2 *)
Fixpoint fs_max (f : nat) (x : csa) (P : list nat) (r u : nat) : option nat :=
  match f with
  | 0 => None
  | S f' =>
    if r <? u then
      let m := r + (u + 1 - r) / 2 - 1 in
      let* c := fs_compare x P m in
      match c with Lt => fs_max f' x P r m | _ => fs_max f' x P (m + 1) u end
    else Some r
  end.
Definition forward_search (x : csa) (l r : nat) (P : list nat) : option (nat * nat) :=
  if c_n x <=? length P then Some (l, l)
  else
    let* l' := fs_min (S (r - l)) x P l r in
    let* r' := fs_max (S (r - l)) x P l r in
    Some (l', r').
