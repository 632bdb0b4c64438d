(** * Model of the memory owned by select_support_mcl and by the depth first iterator

    select_support_mcl owns two arrays through raw pointers (m_longsuperblock, m_miniblock), cst_dfs_const_forward_iterator one
    (m_stack_cache).  The memory is a map from block numbers to contents; deleting a block which is not allocated and reading
    one are undefined ([None]).  Pointer 0 is m_longsuperblock or m_stack_cache, pointer 1 is m_miniblock.

    Simplifications: an array is one block with one content of an arbitrary type; the other members (counters, m_superblock,
    the node of the iterator) are one value, also of an arbitrary type.  The pointer m_v of a support to the vector it supports
    is the [s_ptr] of Life.v. *)
From Coq Require Import List Bool Arith.
From Verif Require Import Base Life.
Import ListNotations.

Section Own.
Variable B : Type.
Variable left : option B -> option B.      (* what std::move leaves behind in the other members *)

Record oobj := mkoobj { sc : option B; pt : nat -> option nat }.
Record mem := mkmem { blk : nat -> option B; nxt : nat; objs : nat -> option oobj }.
Definition seto (st : mem) (n : nat) (o : option oobj) : mem := mkmem (blk st) (nxt st) (fupd (objs st) n o).
Definition setp (o : oobj) (p : nat) (x : option nat) : oobj := mkoobj (sc o) (fupd (pt o) p x).
Definition sets (o : oobj) (x : option B) : oobj := mkoobj x (pt o).

(** the statements, with [*this] named [n] and the other object [m] *)
Inductive ostmt :=
| CpS                 (* the other members are copied *)
| MvS                 (* the other members are moved *)
| SwS                 (* the other members are swapped *)
| DelP (p : nat)      (* delete [] m_p; *)
| Null (p : nat)      (* m_p = nullptr; *)
| NullO (p : nat)     (* o.m_p = nullptr; *)
| PtrP (p : nat)      (* m_p = o.m_p; *)
| SwP (p : nat)       (* std::swap(m_p, o.m_p); *)
| NewCp (p : nat).    (* if (o.m_p != nullptr) \{ m_p = new ...; copy the elements of o.m_p \} *)

Definition alloc (st : mem) (x : B) : mem := mkmem (fupd (blk st) (nxt st) (Some x)) (S (nxt st)) (objs st).
Definition odo (i : ostmt) (st : mem) (n m : nat) : option mem :=
  let* x := objs st n in
  let* y := objs st m in
  match i with
  | CpS => Some (seto st n (Some (sets x (sc y))))
  | MvS => let st := seto st n (Some (sets x (sc y))) in
           let* y := objs st m in Some (seto st m (Some (sets y (left (sc y)))))
  | SwS => let st := seto st n (Some (sets x (sc y))) in
           let* y := objs st m in Some (seto st m (Some (sets y (sc x))))
  | DelP p =>
    match pt x p with
    | None => Some st
    | Some b => match blk st b with None => None | Some _ => Some (mkmem (fupd (blk st) b None) (nxt st) (objs st)) end
    end
  | Null p => Some (seto st n (Some (setp x p None)))
  | NullO p => Some (seto st m (Some (setp y p None)))
  | PtrP p => Some (seto st n (Some (setp x p (pt y p))))
  | SwP p => let st := seto st n (Some (setp x p (pt y p))) in
             let* y := objs st m in Some (seto st m (Some (setp y p (pt x p))))
  | NewCp p =>
    match pt y p with
    | None => Some st
    | Some b => let* z := blk st b in Some (seto (alloc st z) n (Some (setp x p (Some (nxt st)))))
    end
  end.
Fixpoint orun (l : list ostmt) (st : mem) (n m : nat) : option mem :=
  match l with
  | [] => Some st
  | i :: l => let* st := odo i st n m in orun l st n m
  end.
Definition oguard (k : mem -> nat -> nat -> option mem) st n m : option mem := if n =? m then Some st else k st n m.
Definition octor (k : mem -> nat -> nat -> option mem) st n m : option mem :=
  k (seto st n (Some (mkoobj None (fun _ => None)))) n m.

(** number of owned pointers, special members; the last one is the destructor *)
Record oclass := mkoclass { np : nat; o_cc : list ostmt; o_ca : list ostmt; o_mc : list ostmt; o_ma : list ostmt; o_sw : list ostmt; o_dt : list ostmt }.

(** select_support_mcl.hpp:117-206: the copy constructor calls copy(), the move constructor the move assignment, the
    assignments are guarded, swap is not *)
Definition o_mcl :=
  let cp := [CpS; DelP 0; Null 0; NewCp 0; DelP 1; Null 1; NewCp 1] in
  let mv := [MvS; DelP 0; PtrP 0; NullO 0; DelP 1; PtrP 1; NullO 1] in
  mkoclass 2 cp cp mv mv [SwS; SwP 0; SwP 1] [DelP 0; DelP 1].
(** cst_iterators.hpp:46-109: the destructor deletes the cache; the copy members are those of the compiler, and there are no
    move members, so std::move copies.  There is no swap *)
Definition o_dfs := mkoclass 1 [CpS; PtrP 0] [CpS; PtrP 0] [CpS; PtrP 0] [CpS; PtrP 0] [] [DelP 0].

(** a constructed object: the value [v p] of a pointer is the content of its array, if it has one; [v np] are the other
    members *)
Fixpoint made_ptrs (p : nat) (st : mem) (n : nat) (v : nat -> option B) : option mem :=
  match p with
  | 0 => Some st
  | S p =>
    let* st := made_ptrs p st n v in
    match v p with
    | None => Some st
    | Some x => let* o := objs st n in Some (seto (alloc st x) n (Some (setp o p (Some (nxt st)))))
    end
  end.
Definition oexec (c : oclass) (st : mem) (o : op (option B)) : option mem :=
  match o with
  | New _ n v => made_ptrs (np c) (seto st n (Some (mkoobj (v (np c)) (fun _ => None)))) n v
  | CopyC _ n m => octor (orun (o_cc c)) st n m
  | MoveC _ n m => octor (orun (o_mc c)) st n m
  | CopyA _ n m => oguard (orun (o_ca c)) st n m
  | MoveA _ n m => oguard (orun (o_ma c)) st n m
  | Swap _ n m => orun (o_sw c) st n m
  | Del _ n => let* st := orun (o_dt c) st n n in Some (seto st n None)
  end.
Fixpoint oexecs (c : oclass) (st : mem) (l : list (op (option B))) : option mem :=
  match l with
  | [] => Some st
  | o :: l => let* st := oexec c st o in oexecs c st l
  end.
Definition no_mem : mem := mkmem (fun _ => None) 0 (fun _ => None).

(** what a query reads: the content of array [p] (a dangling pointer is [None]), and the other members *)
Definition oread (st : mem) (n p : nat) : option (option B) :=
  let* o := objs st n in
  match pt o p with
  | None => Some None
  | Some b => let* x := blk st b in Some (Some x)
  end.
Definition oscalar (st : mem) (n : nat) : option (option B) := let* o := objs st n in Some (sc o).
End Own.
