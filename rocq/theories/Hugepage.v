(** * Model of hugepage_allocator (include/sdsl/memory_management.hpp, lib/memory_management.cpp)

    The arena is a memory of 64-bit words; addresses are word indices relative to m_base (all block sizes are multiples of
    8 bytes, so every block and data pointer is word aligned; [wofs] makes a misaligned pointer an error).  Sizes are
    bytes, 64-bit numbers.  Headers and footers live in the arena, between the users' data.  m_first_block = m_base = 0.
    Outcomes: a result, the exception ENOMEM (with no state: see C39_nomem), or undefined behaviour. *)
From Coq Require Import NArith List Bool Arith.
From Verif Require Import Base WtBase.
Import ListNotations.

Inductive res (A : Type) : Type := Ok (a : A) | Nomem | Ub.
Arguments Ok {A}. Arguments Nomem {A}. Arguments Ub {A}.
Definition rbind {A B} (r : res A) (f : A -> res B) : res B := match r with Ok a => f a | Nomem => Nomem | Ub => Ub end.
Definition lift {A} (o : option A) : res A := match o with Some a => Ok a | None => Ub end.
Notation "'let!' x ':=' e 'in' f" := (rbind e (fun x => f)) (at level 200, x pattern, e at level 100, f at level 200).

(** memory_management.hpp:219-222: m_top, m_total_size, m_free_large (in the order of the multimap) and the arena itself *)
Record hp := mkhp { h_mem : mem; h_top : nat; h_tot : N; h_free : list (N * nat) }.
Definition h_setmem (h : hp) (m : mem) : hp := mkhp m (h_top h) (h_tot h) (h_free h).
Definition h_setfree (h : hp) (f : list (N * nat)) : hp := mkhp (h_mem h) (h_top h) (h_tot h) f.

(** memory_management.cpp:184-190: the macros.  ~1 and ~0x7 are sign-extended to 64 bits *)
Definition unmask (x : N) : N := N.land x (W64 - 2).
Definition isfree (x : N) : bool := N.odd x.
Definition setfree (x : N) : N := N.lor x 1.
Definition alignsplit (x : N) : N := N.land x (W64 - 8).
Definition align (x : N) : N := N.land (wadd x 7) (W64 - 8).
(** MM_BLOCK_OVERHEAD, MIN_BLOCKSIZE = SPLIT_THRESHOLD (186-191) *)
Definition overhead : N := 16.
Definition min_block : N := 32.
(** byte distance to word distance *)
Definition wofs (x : N) : option nat := if (x mod 8 =? 0)%N then Some (N.to_nat (x / 8)) else None.

(** memory_management.cpp:207-216: block_prev *)
Definition block_prev (m : mem) (cur : nat) : option (option nat) :=
  if cur =? 0 then Some None
  else let* f := ld m (cur - 1) in
       let* w := wofs (unmask f) in
       let* p := csub cur w in Some (Some p).
(** memory_management.cpp:219-228: block_next *)
Definition block_next (m : mem) (top cur : nat) : option (option nat) :=
  let* s := ld m cur in
  let* w := wofs (unmask s) in
  if top <=? cur + w then Some None else Some (Some (cur + w)).
(** memory_management.cpp:245-252, 255-262: block_nextfree, block_prevfree *)
Definition free_at (m : mem) (o : option nat) : option bool :=
  match o with None => Some false | Some p => let* s := ld m p in Some (isfree s) end.
(** memory_management.cpp:265-279: foot_update, block_update *)
Definition block_update (m : mem) (p : nat) (size : N) : option mem :=
  let* m1 := st m p size in
  let* w := wofs (unmask size) in
  let* q := csub (p + w) 1 in st m1 q size.
(** memory_management.cpp:287-293: block_getdatasize *)
Definition block_datasize (m : mem) (p : nat) : option N :=
  let* s := ld m p in Some (wsub (wsub (unmask s) 8) 8).
(** memory_management.cpp:296-307: block_markfree, block_markused *)
Definition block_markfree (m : mem) (p : nat) : option mem := let* s := ld m p in block_update m p (setfree s).
Definition block_markused (m : mem) (p : nat) : option mem := let* s := ld m p in block_update m p (unmask s).

(** std::multimap: insert puts the pair behind the pairs with the same key *)
Fixpoint fs_insert (k : N) (p : nat) (l : list (N * nat)) : list (N * nat) :=
  match l with
  | [] => [(k, p)]
  | (k', p') :: t => if (k' <=? k)%N then (k', p') :: fs_insert k p t else (k, p) :: l
  end.
(** std::multimap::lower_bound followed by erase: the first pair whose key is not less than k *)
Fixpoint fs_find (k : N) (l : list (N * nat)) : option (nat * list (N * nat)) :=
  match l with
  | [] => None
  | (k', p') :: t => if (k <=? k')%N then Some (p', t)
                     else match fs_find k t with Some (p, t') => Some (p, (k', p') :: t') | None => None end
  end.
(** memory_management.cpp:407-425: remove_from_free_set.  The pair (block->size, block) is erased; if it is missing the
    code erases whatever follows the equal range, or end(): modelled as undefined. *)
Fixpoint fs_remove (k : N) (p : nat) (l : list (N * nat)) : option (list (N * nat)) :=
  match l with
  | [] => None
  | (k', p') :: t => if (k' =? k)%N && (p' =? p) then Some t
                     else let* t' := fs_remove k p t in Some ((k', p') :: t')
  end.
Definition remove_free (h : hp) (p : nat) : option hp :=
  let* s := ld (h_mem h) p in
  let* f := fs_remove s p (h_free h) in Some (h_setfree h f).
(** memory_management.cpp:427-433 *)
Definition insert_free (h : hp) (p : nat) : option hp :=
  let* s := ld (h_mem h) p in Some (h_setfree h (fs_insert s p (h_free h))).

(** memory_management.cpp:310-334: coalesce_block *)
Definition coalesce (h : hp) (block : nat) : option hp :=
  let* nx := block_next (h_mem h) (h_top h) block in
  let* nf := free_at (h_mem h) nx in
  let* h1 := (match nx, nf with
              | Some next, true =>
                let* h' := remove_free h next in
                let* s := ld (h_mem h') block in
                let* s2 := ld (h_mem h') next in
                let* m := block_update (h_mem h') block (wadd (unmask s) (unmask s2)) in Some (h_setmem h' m)
              | _, _ => Some h end) in
  let* pv := block_prev (h_mem h1) block in
  let* pf := free_at (h_mem h1) pv in
  let* r := (match pv, pf with
             | Some prev, true =>
               let* h' := remove_free h1 prev in
               let* s := ld (h_mem h') prev in
               let* s2 := ld (h_mem h') block in
               let* m := block_update (h_mem h') prev (wadd (unmask s) (unmask s2)) in Some (h_setmem h' m, prev)
             | _, _ => Some (h1, block) end) in
  let* m := block_markfree (h_mem (fst r)) (snd r) in
  insert_free (h_setmem (fst r) m) (snd r).
(** memory_management.cpp:337-356: split_block; newblocksize is compared as a signed number *)
Definition split_block (h : hp) (p : nat) (size : N) : option hp :=
  let* s := ld (h_mem h) p in
  let bs := unmask s in
  let nbs := alignsplit (wsub bs (align (wadd size overhead))) in
  if (nbs <? 2 ^ 63)%N && (min_block <=? nbs)%N then
    let* m1 := block_update (h_mem h) p (wsub bs nbs) in
    let* w := wofs (wsub bs nbs) in
    let* m2 := block_update m1 (p + w) nbs in
    coalesce (h_setmem h m2) (p + w)
  else Some h.
(** memory_management.cpp:359-370: hsbrk; the comparison is signed *)
Definition hsbrk (h : hp) (size : N) : res (nat * hp) :=
  let left := (h_tot h - 8 * N.of_nat (h_top h))%N in
  if (size <? 2 ^ 63)%N && (left <? size)%N then Nomem
  else let! w := lift (wofs size) in Ok (h_top h, mkhp (h_mem h) (h_top h + w) (h_tot h) (h_free h)).
(** memory_management.cpp:372-381: new_block *)
Definition new_block (h : hp) (size : N) : res (nat * hp) :=
  let size := align (wadd size overhead) in
  let size := if (size <? min_block)%N then min_block else size in
  let! r := hsbrk h size in
  let! m := lift (block_update (h_mem (snd r)) (fst r) size) in
  Ok (fst r, h_setmem (snd r) m).
(** memory_management.cpp:383-398: last_block *)
Definition last_block (h : hp) : option (option nat) :=
  if h_top h =? 0 then Some None
  else let* f := ld (h_mem h) (h_top h - 1) in
       let* w := wofs (unmask f) in
       let* p := csub (h_top h) w in Some (Some p).
(** memory_management.cpp:450-482: mm_alloc; the result is the data pointer *)
Definition mm_alloc (h : hp) (n : N) : res (nat * hp) :=
  match fs_find (wadd n overhead) (h_free h) with
  | Some (p, f) =>
    let h := h_setfree h f in
    let! m := lift (block_markused (h_mem h) p) in
    let! h := lift (split_block (h_setmem h m) p n) in
    Ok (p + 1, h)
  | None =>
    let! lb := lift (last_block h) in
    let! lf := lift (free_at (h_mem h) lb) in
    match lb, lf with
    | Some p, true =>
      let! d := lift (block_datasize (h_mem h) p) in
      let needed := align (wsub n d) in
      let! r := hsbrk h needed in
      let! h := lift (remove_free (snd r) p) in
      let! m := lift (block_update (h_mem h) p (wadd (wadd d needed) 16)) in
      let! m := lift (block_markused m p) in
      Ok (p + 1, h_setmem h m)
    | _, _ => let! r := new_block h n in Ok (fst r + 1, snd r)
    end
  end.
(** memory_management.cpp:484-497: mm_free of a pointer that is not null *)
Definition mm_free (h : hp) (ptr : nat) : option hp :=
  let* p := csub ptr 1 in
  let* m := block_markfree (h_mem h) p in
  coalesce (h_setmem h m) p.

(** copy of [k] words, all read before the first is written; reads outside the arena give the values [g] *)
Fixpoint put_words (m : mem) (dst : nat) (l : list N) : option mem :=
  match l with [] => Some m | x :: t => let* m' := st m dst x in put_words m' (dst + 1) t end.
Definition get_words (g : nat -> N) (m : mem) (src k : nat) : list N := map (fun i => nth (src + i) m (g i)) (seq 0 k).
(** memcpy/memmove of n bytes: whole words, and the low n mod 8 bytes of one more word.
    With [strict] the copy is undefined if it leaves the arena or if the two ranges overlap, as for std::memcpy. *)
Definition copy_bytes (strict : bool) (g : nat -> N) (m : mem) (dst src : nat) (n : N) : option mem :=
  let k := N.to_nat (n / 8) in
  let r := N.to_nat (n mod 8) in
  let c := N.to_nat ((n + 7) / 8) in
  if strict && negb ((src + c <=? length m) && (dst + c <=? length m) && ((src + c <=? dst) || (dst + c <=? src))) then None
  else let l := get_words g m src k in
       let x := nth (src + k) m (g k) in
       let* m' := put_words m dst l in
       if r =? 0 then Some m'
       else let* old := ld m' (dst + k) in st m' (dst + k) (N.lor (N.land x (lo_set (8 * r))) (N.ldiff old (lo_set (8 * r)))).

(** memory_management.cpp:499-582: mm_realloc.  memmove (562) is the copy without [strict], memcpy (577) with the flag
    [strict]. *)
Definition mm_realloc (strict : bool) (g : nat -> N) (h : hp) (ptr : option nat) (n : N) : res (option nat * hp) :=
  match ptr with
  | None => let! r := mm_alloc h n in Ok (Some (fst r), snd r)
  | Some ptr =>
    if (n =? 0)%N then let! h := lift (mm_free h ptr) in Ok (None, h)
    else
      let! p := lift (csub ptr 1) in
      let! d := lift (block_datasize (h_mem h) p) in
      let via_alloc :=
        (let! r := mm_alloc h n in
         let! m := lift (copy_bytes strict g (h_mem (snd r)) (fst r) ptr n) in
         let! h := lift (mm_free (h_setmem (snd r) m) ptr) in
         Ok (Some (fst r), h)) in
      if (n =? d)%N then Ok (Some ptr, h)
      else if (n <? d)%N then let! h := lift (split_block h p n) in Ok (Some ptr, h)
      else
        let! nx := lift (block_next (h_mem h) (h_top h) p) in
        match nx with
        | None =>
          let needed := align (wsub n d) in
          let! r := hsbrk h needed in
          let! s := lift (ld (h_mem (snd r)) p) in
          let! m := lift (block_update (h_mem (snd r)) p (wadd (unmask s) needed)) in
          Ok (Some (p + 1), h_setmem (snd r) m)
        | Some next =>
          let! s2 := lift (ld (h_mem h) next) in
          if isfree s2 then
            if (n <=? wadd d (unmask s2))%N then
              let! h := lift (remove_free h next) in
              let! s := lift (ld (h_mem h) p) in
              let! s2 := lift (ld (h_mem h) next) in
              let! m := lift (block_update (h_mem h) p (wadd (unmask s) (unmask s2))) in
              Ok (Some ptr, h_setmem h m)
            else via_alloc
          else
            let! pv := lift (block_prev (h_mem h) p) in
            let! pf := lift (free_at (h_mem h) pv) in
            match pv, pf with
            | Some prev, true =>
              let! s1 := lift (ld (h_mem h) prev) in
              if (n <=? wadd d (unmask s1))%N then
                let! h := lift (remove_free h prev) in
                let! s := lift (ld (h_mem h) p) in
                let! m := lift (block_update (h_mem h) prev (wadd (unmask s1) (unmask s))) in
                let! m := lift (block_markused m prev) in
                let! m := lift (copy_bytes false g m (prev + 1) ptr d) in
                Ok (Some (prev + 1), h_setmem h m)
              else via_alloc
            | _, _ => via_alloc
            end
        end
  end.
(** memory_management.hpp:238-257: init with a mapped arena *)
Definition hp_init (m : mem) : hp := mkhp m 0 (8 * N.of_nat (length m)) [].
