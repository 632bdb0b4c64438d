(** * Model of memory_monitor: start, stop, record, nested events, peak

    Simplifications: a call of timer::now() is an argument [t] of the operation, any integer; event names are numbers, 0 is
    "unknown"; the event proxies of a program live on a stack, as scoped objects do, and [prox] holds their [add] members.
    [top()] or [pop()] of an empty std::stack is undefined ([None]).  One thread (the spin lock is not modelled). *)
From Coq Require Import List Bool Arith ZArith.
From Verif Require Import Base.
Import ListNotations.
Local Open Scope Z_scope.

Section MemMon.
Variable gran : Z.      (* log_granularity *)

(** mm_event, memory_management.hpp:50-56; an mm_alloc is a pair (timestamp, usage) *)
Record ev := mkev { ename : nat; allocs : list (Z * Z) }.
(** the members, memory_management.hpp:101-108; the top of event_stack is the head of [stack], completed_events is in order *)
Record mon := mkmon { usage : Z; track : bool; stack : list ev; completed : list ev; last_event : Z; prox : list bool }.
Definition emplace (e : ev) (p : Z * Z) : ev := mkev (ename e) (allocs e ++ [p]).

(** start, memory_management.hpp:146-162 *)
Definition start (m : mon) (t : Z) : mon := mkmon 0 true [mkev 0 [(t, 0)]] [] t (prox m).
(** stop, memory_management.hpp:163-171 *)
Definition stop (m : mon) : mon := mkmon (usage m) false [] (completed m ++ stack m) (last_event m) (prox m).
(** record, memory_management.hpp:172-191 *)
Definition record (m : mon) (t delta : Z) : option mon :=
  if track m then
    if last_event m + gran <? t then
      match stack m with
      | [] => None
      | e :: s =>
        let u := usage m + delta in
        Some (mkmon u (track m) (emplace (emplace e (t, usage m)) (t, u) :: s) (completed m) t (prox m))
      end
    else
      match stack m with
      | [] => None
      | e :: s =>
        match allocs e with
        | [] => Some m
        | _ => let u := usage m + delta in
               Some (mkmon u (track m) (mkev (ename e) (removelast (allocs e) ++ [(t, u)]) :: s) (completed m) (last_event m) (prox m))
        end
      end
  else Some m.
(** event and the constructor of mm_event_proxy, memory_management.hpp:71-78, 192-199 *)
Definition open_event (m : mon) (t : Z) (name : nat) : mon :=
  if track m then mkmon (usage m) (track m) (mkev name [(t, usage m)] :: stack m) (completed m) (last_event m) (true :: prox m)
  else mkmon (usage m) (track m) (stack m) (completed m) (last_event m) (false :: prox m).
(** the destructor of mm_event_proxy, memory_management.hpp:79-98 *)
Definition close_event (m : mon) (t : Z) : option mon :=
  match prox m with
  | [] => None
  | false :: p => Some (mkmon (usage m) (track m) (stack m) (completed m) (last_event m) p)
  | true :: p =>
    match stack m with
    | [] => None
    | cur :: s =>
      let done := completed m ++ [emplace cur (t, usage m)] in
      let s := match s with
               | [] => []
               | e :: s' => match rev (allocs e) with [] => s | (_, last_usage) :: _ => emplace e (t, last_usage) :: s' end
               end in
      Some (mkmon (usage m) (track m) s done (last_event m) p)
    end
  end.
(** peak, memory_management.hpp:132-144 *)
Definition peak (m : mon) : Z :=
  fold_left (fun mx e => fold_left (fun mx a => if mx <? snd a then snd a else mx) (allocs e) mx) (completed m) 0.

(** what a program does; an int_vector calls [MRecord] when its memory changes *)
Inductive mop := MStart (t : Z) | MStop | MRecord (t delta : Z) | MOpen (t : Z) (name : nat) | MClose (t : Z).
Definition mexec (m : mon) (o : mop) : option mon :=
  match o with
  | MStart t => Some (start m t)
  | MStop => Some (stop m)
  | MRecord t d => record m t d
  | MOpen t name => Some (open_event m t name)
  | MClose t => close_event m t
  end.
Fixpoint mexecs (m : mon) (l : list mop) : option mon :=
  match l with
  | [] => Some m
  | o :: l => let* m := mexec m o in mexecs m l
  end.
Definition mon0 : mon := mkmon 0 false [] [] 0 [].
End MemMon.
