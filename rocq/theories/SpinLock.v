(** * Model of threads that use util::spin_lock, and of concurrent memory_monitor::record

    Each thread makes a list of calls; a call locks the spin lock, runs the steps of its body on the shared state, one at a
    time, and unlocks (std::lock_guard).  A schedule is a list of thread numbers: the thread whose turn it is makes one step.
    Simplification: steps are sequentially consistent; the acquire/release order of the flag makes the steps between lock and
    unlock visible to the next thread that locks. *)
From Coq Require Import List Bool Arith ZArith.
From Verif Require Import Base MemMon.
Import ListNotations.

Section SpinLock.
Variable S L C : Type.              (* the shared state, the locals of a call, the calls *)
Variable l0 : L.
Variable body : C -> list (S -> L -> S * L).

(** a thread between calls, or inside the locked part of call [c] with the steps [fs] to go; [cs] are the calls to come *)
Inductive thread := Idle (cs : list C) | Inside (c : C) (l : L) (fs : list (S -> L -> S * L)) (cs : list C).
Record sys := mksys { flag : bool; sh : S; ths : list thread }.
Definition set_nth {A} (i : nat) (x : A) (l : list A) : list A := firstn i l ++ x :: skipn (i + 1) l.
(** one step of thread [i]: lock() is one test_and_set (util.hpp:332-337), unlock() one clear (util.hpp:338-341) *)
Definition step (y : sys) (i : nat) : sys :=
  match nth_error (ths y) i with
  | None => y
  | Some (Idle []) => y
  | Some (Idle (c :: cs)) =>
    if flag y then y                                                      (* spin *)
    else mksys true (sh y) (set_nth i (Inside c l0 (body c) cs) (ths y))
  | Some (Inside c l (f :: fs) cs) =>
    let r := f (sh y) l in mksys (flag y) (fst r) (set_nth i (Inside c (snd r) fs cs) (ths y))
  | Some (Inside c l [] cs) => mksys false (sh y) (set_nth i (Idle cs) (ths y))
  end.
Definition run (y : sys) (schedule : list nat) : sys := fold_left step schedule y.
Definition boot (s : S) (progs : list (list C)) : sys := mksys false s (map Idle progs).
Definition inside (t : thread) : bool := match t with Inside _ _ _ _ => true | Idle _ => false end.
Definition finished (t : thread) : bool := match t with Idle [] => true | _ => false end.
End SpinLock.

(** ** the locked part of memory_monitor::record, memory_management.hpp:175-189, step by step; the locals are the usage read and
    whether the granularity has passed.  (back() of an empty log does nothing here, as the code tests for it.) *)
Local Open Scope Z_scope.
Definition on_top (f : ev -> ev) (m : mon) : mon :=
  match stack m with
  | [] => m
  | e :: s => mkmon (usage m) (track m) (f e :: s) (completed m) (last_event m) (prox m)
  end.
Definition set_usage (m : mon) (u : Z) : mon := mkmon u (track m) (stack m) (completed m) (last_event m) (prox m).
Definition set_last (m : mon) (t : Z) : mon := mkmon (usage m) (track m) (stack m) (completed m) t (prox m).
Definition record_body (gran : Z) (c : Z * Z) : list (mon -> Z * bool -> mon * (Z * bool)) :=
  let (t, delta) := c in
  [ (fun (m : mon) (_ : Z * bool) => (m, (usage m, last_event m + gran <? t)));
    (fun (m : mon) (l : Z * bool) => (if snd l then on_top (fun e => emplace e (t, fst l)) m else m, l));
    (fun (m : mon) (l : Z * bool) => (m, (usage m, snd l)));
    (fun (m : mon) (l : Z * bool) => (set_usage m (fst l + delta), l));
    (fun (m : mon) (l : Z * bool) => (on_top (fun e => if snd l then emplace e (t, fst l + delta)
                                  else mkev (ename e) (removelast (allocs e) ++ [(t, fst l + delta)])) m, l));
    (fun (m : mon) (l : Z * bool) => (if snd l then set_last m t else m, l)) ].
