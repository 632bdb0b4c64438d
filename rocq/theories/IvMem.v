(** * Model of the memory management of int_vector: constructors, assignments, swap, resize, destructor, memory_monitor count

    An int_vector keeps its size in bits, its width and an owning pointer m_data.  The memory is a map from block numbers to
    lists of words; freeing or accessing a block which is not allocated, and accessing a word outside of it, are undefined
    ([None]).  [cnt] is the number of bytes the memory_monitor has been told about (memory_monitor::record).

    Simplifications: words are of an arbitrary type, [mask k w] is w with the bits from k on cleared; realloc always returns a
    new block, whose words beyond the old ones are [junk]; allocation does not fail; the width is a plain member (t_width = 0). *)
From Coq Require Import List Bool Arith ZArith.
From Verif Require Import Base Life.
Import ListNotations.

Definition words (bits : nat) : nat := (bits + 63) / 64.

Section IvMem.
Variable W : Type.
Variable w0 junk : W.
Variable mask : nat -> W -> W.

Record iv := mkiv { sz : nat; wd : nat; dt : option nat }.
Record ivm := mkivm { blk : nat -> option (list W); nxt : nat; objs : nat -> option iv; cnt : Z }.
Definition seto (st : ivm) n o := mkivm (blk st) (nxt st) (fupd (objs st) n o) (cnt st).
Definition setb (st : ivm) b x := mkivm (fupd (blk st) b x) (nxt st) (objs st) (cnt st).
Definition setc (st : ivm) c := mkivm (blk st) (nxt st) (objs st) c.

(** free(ptr) of memory_management.hpp:307-317; free(nullptr) does nothing *)
Definition free_mem (st : ivm) (p : option nat) : option ivm :=
  match p with
  | None => Some st
  | Some b => let* _ := blk st b in Some (setb st b None)
  end.
(** realloc_mem, memory_management.hpp:318-335, to [k] words *)
Definition fit (k : nat) (ws : list W) : list W := firstn k ws ++ repeat junk (k - length ws).
Definition realloc_mem (st : ivm) (p : option nat) (k : nat) : option (ivm * nat) :=
  let* ws := match p with None => Some [] | Some b => blk st b end in
  let* st := free_mem st p in
  Some (mkivm (fupd (blk st) (nxt st) (Some (fit k ws))) (S (nxt st)) (objs st) (cnt st), nxt st).
(** an access to word [i] of the data of object [n] *)
Definition modw (st : ivm) (n i : nat) (f : W -> W) : option ivm :=
  let* o := objs st n in
  let* b := dt o in
  let* ws := blk st b in
  let* w := nth_error ws i in
  Some (setb st b (Some (firstn i ws ++ f w :: skipn (S i) ws))).
(** memory_manager::resize, memory_management.hpp:344-375 *)
Definition resize (st : ivm) (n size : nat) : option ivm :=
  let* o := objs st n in
  let do_realloc := negb (words (sz o) =? words size) in
  if do_realloc || (match dt o with None => true | Some _ => false end) then
    let* p := realloc_mem st (dt o) ((size + 64) / 64) in
    let st := seto (fst p) n (Some (mkiv size (wd o) (Some (snd p)))) in
    let* st := if size <? 64 * words size then modw st n (size / 64) (mask (size mod 64)) else Some st in
    let* st := if size mod 64 =? 0 then modw st n (size / 64) (fun _ => w0) else Some st in
    Some (if do_realloc then setc st (cnt st + (8 * Z.of_nat (words size) - 8 * Z.of_nat (words (sz o))))%Z else st)
  else Some (seto st n (Some (mkiv size (wd o) (dt o)))).
(** memory_manager::clear, memory_management.hpp:376-388 *)
Definition clear (st : ivm) (n : nat) : option ivm :=
  let* o := objs st n in
  let* st := free_mem st (dt o) in
  let st := seto st n (Some (mkiv (sz o) (wd o) None)) in
  Some (if words (sz o) =? 0 then st else setc st (cnt st + 8 * Z.of_nat (words (sz o)) * -1)%Z).
(** memcpy of [k] words from the data of [m] to the data of [n] *)
Definition memcpy (st : ivm) (n m k : nat) : option ivm :=
  let* o := objs st n in let* b := dt o in let* ws := blk st b in
  let* o' := objs st m in let* b' := dt o' in let* ws' := blk st b' in
  if (k <=? length ws) && (k <=? length ws') then Some (setb st b (Some (firstn k ws' ++ skipn k ws))) else None.
Definition set_width (st : ivm) (n w : nat) : option ivm :=
  let* o := objs st n in Some (seto st n (Some (mkiv (sz o) w (dt o)))).
(** the copy constructor, int_vector.hpp:1266-1277 *)
Definition copy_ctor (st : ivm) (n m : nat) : option ivm :=
  let* v := objs st m in
  let* st := resize (seto st n (Some (mkiv 0 (wd v) None))) n (sz v) in
  let* st := if 0 <? 64 * words (sz v) then memcpy st n m (words (sz v)) else Some st in
  set_width st n (wd v).
(** operator=(const int_vector&), int_vector.hpp:1279-1292 *)
Definition copy_assign (st : ivm) (n m : nat) : option ivm :=
  if n =? m then Some st else
  let* v := objs st m in
  let* st := resize st n (sz v) in
  let* st := if 0 <? sz v then memcpy st n m (words (sz v)) else Some st in
  set_width st n (wd v).
(** the move constructor, int_vector.hpp:1257-1264 *)
Definition move_ctor (st : ivm) (n m : nat) : option ivm :=
  let* v := objs st m in
  Some (seto (seto st n (Some (mkiv (sz v) (wd v) (dt v)))) m (Some (mkiv 0 (wd v) None))).
(** swap, int_vector.hpp:1308-1323 *)
Definition swap (st : ivm) (n m : nat) : option ivm :=
  if n =? m then Some st else
  let* x := objs st n in
  let* y := objs st m in
  Some (seto (seto st n (Some y)) m (Some x)).

(** what a user does; [Fill] is a constructor with the given words (int_vector.hpp:1249-1255: resize, then every entry is
    written), [Write] a change of one word through any of the access functions *)
Inductive vop :=
| Fill (n size width : nat) (ws : list W)
| CopyC (n m : nat) | MoveC (n m : nat) | CopyA (n m : nat) | MoveA (n m : nat) | Swap (n m : nat)
| Resize (n size : nat) | Write (n i : nat) (w : W) | Del (n : nat).
Fixpoint fill (st : ivm) (n i : nat) (ws : list W) : option ivm :=
  match ws with
  | [] => Some st
  | w :: ws => let* st := modw st n i (fun _ => w) in fill st n (S i) ws
  end.
Definition vexec (st : ivm) (o : vop) : option ivm :=
  match o with
  | Fill n size width ws => let* st := resize (seto st n (Some (mkiv 0 width None))) n size in fill st n 0 ws
  | CopyC n m => copy_ctor st n m
  | MoveC n m => move_ctor st n m
  | CopyA n m => copy_assign st n m
  | MoveA n m => swap st n m               (* int_vector.hpp:1294-1299 *)
  | Swap n m => swap st n m
  | Resize n size => resize st n size
  | Write n i w => modw st n i (fun _ => w)
  | Del n => let* st := clear st n in Some (seto st n None)
  end.
Fixpoint vexecs (st : ivm) (l : list vop) : option ivm :=
  match l with
  | [] => Some st
  | o :: l => let* st := vexec st o in vexecs st l
  end.
Definition no_vectors : ivm := mkivm (fun _ => None) 0 (fun _ => None) 0.

(** what a user sees: size in bits, width, and the words of the data *)
Definition view (st : ivm) (n : nat) : option (nat * nat * list W) :=
  let* o := objs st n in
  match dt o with
  | None => if words (sz o) =? 0 then Some (sz o, wd o, []) else None
  | Some b => let* ws := blk st b in if words (sz o) <=? length ws then Some (sz o, wd o, firstn (words (sz o)) ws) else None
  end.
End IvMem.
