(** * Models of sorted_int_stack, sorted_stack_support and sorted_multi_stack_support

    size_type values are [nat]; the arrays int_vector<64> are lists of words, and an access outside
    them is the outcome [None].  The three classes share the code that keeps one bit per element in
    63-bit blocks: [blk_push] and [blk_pop]. *)
From Coq Require Import NArith List Bool Arith.
From Verif Require Import Base Bits AbsVec SpecStack.
Import ListNotations.

(** the flag of a pointer, sorted_int_stack.hpp:120 *)
Definition top63 : N := 0x8000000000000000%N.

(** sorted_int_stack.hpp:117-122, sorted_stack_support.hpp:115-120, sorted_multi_stack_support.hpp:113-119:
    set the bit of [x], and store a pointer in the block before if that is empty.  The test bn > 0
    of the two support classes always holds in sorted_int_stack, whose values start at 63 *)
Definition blk_push (ws : list N) (top x : nat) : option (list N) :=
  let bn := x / 63 in
  let* w := nth_error ws bn in
  let* ws := aset ws bn (N.lxor w (2 ^ N.of_nat (x mod 63))) in
  if bn =? 0 then Some ws
  else
    let* p := nth_error ws (bn - 1) in
    if (p =? 0)%N then aset ws (bn - 1) (N.lor top63 (N.of_nat top)) else Some ws.
(** sorted_int_stack.hpp:136-153, sorted_stack_support.hpp:127-144, sorted_multi_stack_support.hpp:140-157:
    the words and the new top *)
Definition blk_pop (ws : list N) (top : nat) : option (list N * nat) :=
  let bn := top / 63 in
  let* w := nth_error ws bn in
  let w := N.lxor w (2 ^ N.of_nat (top mod 63)) in
  let* ws := aset ws bn w in
  if (0 <? w)%N then Some (ws, bn * 63 + N.to_nat (hi w))
  else
    if bn =? 0 then None
    else
      let* p := nth_error ws (bn - 1) in
      if (N.shiftr p 63 =? 0)%N then Some (ws, (bn - 1) * 63 + N.to_nat (hi p))
      else
        let* ws := aset ws (bn - 1) 0%N in
        Some (ws, N.to_nat (N.land p 0x7FFFFFFFFFFFFFFF)).

(** ** sorted_stack_support *)
Record sst := mksst { ss_n : nat; ss_cnt : nat; ss_top : nat; ss_ws : list N }.
(** sorted_stack_support.hpp:98-102 *)
Definition ss_new (n : nat) : option sst :=
  let* ws := aset (repeat 0%N ((n + 1) / 63 + 1)) 0 1%N in Some (mksst n 0 0 ws).
(** sorted_stack_support.hpp:66-68 *)
Definition ss_empty (s : sst) : bool := 0 =? ss_cnt s.
(** sorted_stack_support.hpp:104-108 *)
Definition ss_get_top (s : sst) : nat := ss_top s - 1.
(** sorted_stack_support.hpp:110-121 *)
Definition ss_push (s : sst) (x : nat) : option sst :=
  let* ws := blk_push (ss_ws s) (ss_top s) (x + 1) in Some (mksst (ss_n s) (ss_cnt s + 1) (x + 1) ws).
(** sorted_stack_support.hpp:123-146 *)
Definition ss_pop (s : sst) : option sst :=
  if ss_empty s then Some s
  else let* (ws, top) := blk_pop (ss_ws s) (ss_top s) in Some (mksst (ss_n s) (ss_cnt s - 1) top ws).

(** ** sorted_int_stack: m_overflow is a list with its back first *)
Record sis := mksis { si_n : nat; si_cnt : nat; si_top : nat; si_ws : list N; si_ov : list nat }.
(** sorted_int_stack.hpp:94-98 *)
Definition si_new (n : nat) : option sis :=
  let* ws := aset (repeat 0%N (n / 63 + 2)) 0 1%N in Some (mksis n 0 0 ws []).
(** sorted_int_stack.hpp:62-64 *)
Definition si_empty (s : sis) : bool := 0 =? si_cnt s.
(** sorted_int_stack.hpp:100-103 *)
Definition si_get_top (s : sis) : nat := si_top s - 63.
(** sorted_int_stack.hpp:105-124 *)
Definition si_push (s : sis) (x : nat) : option sis :=
  let x := x + 63 in
  if si_n s + 63 <? x then
    let ov := match si_ov s with [] => [si_top s] | o => o end in
    Some (mksis (si_n s) (si_cnt s + 1) x (si_ws s) (x :: ov))
  else
    let* ws := blk_push (si_ws s) (si_top s) x in
    Some (mksis (si_n s) (si_cnt s + 1) x ws (si_ov s)).
(** sorted_int_stack.hpp:126-156; pop_back and back of an empty vector are [None] *)
Definition si_pop (s : sis) : option sis :=
  if si_empty s then Some s
  else if si_n s + 63 <? si_top s then
    match si_ov s with
    | _ :: (top :: r) as o => Some (mksis (si_n s) (si_cnt s - 1) top (si_ws s) (match r with [] => [] | _ => top :: r end))
    | _ => None
    end
  else let* (ws, top) := blk_pop (si_ws s) (si_top s) in Some (mksis (si_n s) (si_cnt s - 1) top ws (si_ov s)).

(** ** sorted_multi_stack_support *)
Record sms := mksms { sm_n : nat; sm_cnt : nat; sm_top : nat; sm_ws : list N; sm_dup : list N }.
(** sorted_multi_stack_support.hpp:97-102 *)
Definition sm_new (n : nat) : option sms :=
  let* ws := aset (repeat 0%N ((n + 1) / 63 + 1)) 0 1%N in Some (mksms n 0 0 ws (repeat 0%N (n / 64 + 1))).
(** sorted_multi_stack_support.hpp:63-65 *)
Definition sm_empty (s : sms) : bool := 0 =? sm_cnt s.
(** sorted_multi_stack_support.hpp:105-108 *)
Definition sm_get_top (s : sms) : nat := sm_top s - 1.
(** sorted_multi_stack_support.hpp:110-130 *)
Definition sm_push (s : sms) (x : nat) : option (sms * bool) :=
  let x := x + 1 in
  let* w := nth_error (sm_ws s) (x / 63) in
  if negb (N.testbit w (N.of_nat (x mod 63))) then
    let* ws := blk_push (sm_ws s) (sm_top s) x in
    Some (mksms (sm_n s) (sm_cnt s + 1) x ws (sm_dup s), true)
  else
    let* d := nth_error (sm_dup s) (sm_cnt s / 64) in
    let* dup := aset (sm_dup s) (sm_cnt s / 64) (N.lxor d (2 ^ N.of_nat (sm_cnt s mod 64))) in
    Some (mksms (sm_n s) (sm_cnt s + 1) (sm_top s) (sm_ws s) dup, false).
(** sorted_multi_stack_support.hpp:132-162 *)
Definition sm_pop (s : sms) : option (sms * bool) :=
  if sm_empty s then Some (s, false)
  else
    let c := sm_cnt s - 1 in
    let* d := nth_error (sm_dup s) (c / 64) in
    if N.testbit d (N.of_nat (c mod 64)) then
      let* dup := aset (sm_dup s) (c / 64) (N.lxor d (2 ^ N.of_nat (c mod 64))) in
      Some (mksms (sm_n s) c (sm_top s) (sm_ws s) dup, false)
    else
      let* (ws, top) := blk_pop (sm_ws s) (sm_top s) in Some (mksms (sm_n s) c top ws (sm_dup s), true).

(** ** Histories: the operations applied in order *)
Definition ss_step (s : sst) (o : op) : option sst := match o with Push x => ss_push s x | Pop => ss_pop s end.
Definition si_step (s : sis) (o : op) : option sis := match o with Push x => si_push s x | Pop => si_pop s end.
Definition sm_step (s : sms) (o : op) : option (sms * bool) := match o with Push x => sm_push s x | Pop => sm_pop s end.
Fixpoint ss_run (s : sst) (ops : list op) : option sst :=
  match ops with [] => Some s | o :: r => let* s := ss_step s o in ss_run s r end.
Fixpoint si_run (s : sis) (ops : list op) : option sis :=
  match ops with [] => Some s | o :: r => let* s := si_step s o in si_run s r end.
(** with the values returned by the operations *)
Fixpoint sm_run (s : sms) (ops : list op) : option (sms * list bool) :=
  match ops with
  | [] => Some (s, [])
  | o :: r => let* (s, b) := sm_step s o in let* (s, bs) := sm_run s r in Some (s, b :: bs)
  end.
