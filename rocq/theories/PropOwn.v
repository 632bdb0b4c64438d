(** * C68: owned arrays are freed exactly once, and read only while allocated

    For every program which constructs, copies, moves, assigns, swaps and destroys objects of a class with raw owning pointers:
    no array is deleted twice or read after its deletion, every object with a specified value finds its own arrays with the
    contents of that value, and every array still allocated belongs to an object which lives -- so nothing is left when all
    objects are gone. *)
From Coq Require Import List Bool Arith.
From Verif Require Import Base Life SpecLife Own OwnProofs.
Import ListNotations.

Definition memory_safe (c : oclass) (allowed : forall B, op (option B) -> bool) : Prop :=
  forall (B : Type) (left : option B -> option B) (history : list (op (option B))) (e : env (option B)),
    forallb (allowed B) history = true ->
    sems _ (no_objects _) history = Some e ->
    exists st, oexecs B left c (no_mem B) history = Some st /\
      (forall n v, e n = Val _ v -> oscalar B st n = Some (v (np c)) /\ forall p, p < np c -> oread B st n p = Some (v p)) /\
      (forall b, blk B st b <> None -> exists n o p, e n <> Dead _ /\ objs B st n = Some o /\ pt B o p = Some b).
Definition everything (B : Type) (o : op (option B)) : bool := true.
Definition no_swap (B : Type) (o : op (option B)) : bool := match o with Swap _ _ _ => false | _ => true end.

(** two supports, the first with both arrays and the second without long blocks; copies, moves, a self swap, and everything is
    destroyed but one object: its array is the only one left *)
Definition va : nat -> option nat := fun p => Some (10 + p).
Definition vb : nat -> option nat := fun p => if p =? 0 then None else Some (20 + p).
Definition demo : list (op (option nat)) :=
  [New _ 0 va; New _ 1 vb; CopyC _ 2 0; CopyA _ 0 1; MoveC _ 3 2; MoveA _ 0 3; Swap _ 0 0; Swap _ 1 0; Del _ 1; CopyA _ 2 3; Del _ 2; Del _ 3].
Example C68_demo_meets :
  match sems _ (no_objects _) demo with Some e => match e 0 with Val _ v => map v [0; 1; 2] | _ => [] end | None => [] end = [None; Some 21; Some 22] /\
  option_map (fun st => (oread nat st 0 0, oread nat st 0 1, length (filter (fun b => match blk nat st b with Some _ => true | None => false end) (seq 0 20)), nxt nat st))
    (oexecs nat (fun _ => None) o_mcl (no_mem nat) demo) = Some (Some None, Some (Some 21), 1, 6).
Proof. vm_compute. auto. Qed.

Theorem C68_select_support_mcl : memory_safe o_mcl everything.
Proof. intros B left l e _ S. exact (mcl_hist left l e S). Qed.
Print Assumptions C68_select_support_mcl.

(** the destructor of the last object leaves nothing behind *)
Theorem C68_select_support_mcl_no_leak : forall (B : Type) (left : option B -> option B) (history : list (op (option B))) (e : env (option B)),
  sems _ (no_objects _) history = Some e -> (forall n, e n = Dead _) ->
  exists st, oexecs B left o_mcl (no_mem B) history = Some st /\ forall b, blk B st b = None.
Proof.
  intros B left l e S D. destruct (mcl_hist left l e S) as (st & E & _ & L). exists st. split; auto.
  intros b. destruct (blk B st b) eqn:X; auto. destruct (L b) as (n & _ & _ & N & _); [congruence|]. now rewrite D in N.
Qed.
Print Assumptions C68_select_support_mcl_no_leak.
Example C68_no_leak_meets :
  match sems _ (no_objects _) (demo ++ [Del _ 0]) with Some e => map (dead (option nat) e) [0; 1; 2; 3] | None => [] end = [true; true; true; true].
Proof. reflexivity. Qed.

(** the depth first iterator: copying begin() of a suffix tree makes two owners of one cache.  The second destructor deletes it
    again *)
Theorem C68_dfs_iterator_refuted : ~ memory_safe o_dfs no_swap.
Proof.
  intros H. destruct (H nat (fun x => x) [New _ 0 va; CopyC _ 1 0; Del _ 0; Del _ 1] _ eq_refl eq_refl) as (st & E & _).
  assert (X : oexecs nat (fun x => x) o_dfs (no_mem nat) [New _ 0 va; CopyC _ 1 0; Del _ 0; Del _ 1] = None) by (vm_compute; reflexivity).
  rewrite X in E. clear - E. discriminate E.
Qed.
Print Assumptions C68_dfs_iterator_refuted.
(** the copy reads a deleted cache; the cache of an iterator which is assigned to is never deleted *)
Theorem C68_dfs_iterator_dangling :
  exists e st, sems _ (no_objects _) [New _ 0 va; CopyC _ 1 0; Del _ 0] = Some e /\ e 1 = Val _ va /\ va 0 = Some 10 /\
    oexecs nat (fun x => x) o_dfs (no_mem nat) [New _ 0 va; CopyC _ 1 0; Del _ 0] = Some st /\ oread nat st 1 0 = None.
Proof.
  assert (Y : option_map (fun st => oread nat st 1 0) (oexecs nat (fun x => x) o_dfs (no_mem nat) [New _ 0 va; CopyC _ 1 0; Del _ 0]) = Some None)
    by (vm_compute; reflexivity).
  destruct (oexecs nat (fun x => x) o_dfs (no_mem nat) [New _ 0 va; CopyC _ 1 0; Del _ 0]) as [st|]; [|discriminate].
  injection Y as Y. eexists _, st. split; [reflexivity|]. split; [reflexivity|]. split; [reflexivity|]. split; [reflexivity|exact Y].
Qed.
Print Assumptions C68_dfs_iterator_dangling.
Definition end_it : nat -> option nat := fun p => if p =? 0 then None else Some 7.
Theorem C68_dfs_iterator_leak :
  exists e st, sems _ (no_objects _) [New _ 0 va; New _ 1 end_it; CopyA _ 0 1; Del _ 0; Del _ 1] = Some e /\ (forall n, e n = Dead _) /\
    oexecs nat (fun x => x) o_dfs (no_mem nat) [New _ 0 va; New _ 1 end_it; CopyA _ 0 1; Del _ 0; Del _ 1] = Some st /\ blk nat st 0 = Some 10.
Proof.
  assert (Y : option_map (fun st => blk nat st 0) (oexecs nat (fun x => x) o_dfs (no_mem nat) [New _ 0 va; New _ 1 end_it; CopyA _ 0 1; Del _ 0; Del _ 1]) = Some (Some 10))
    by (vm_compute; reflexivity).
  destruct (oexecs nat (fun x => x) o_dfs (no_mem nat) [New _ 0 va; New _ 1 end_it; CopyA _ 0 1; Del _ 0; Del _ 1]) as [st|]; [|discriminate].
  injection Y as Y. eexists _, st. split; [reflexivity|]. split; [|split; [reflexivity|exact Y]].
  intros [|[|n]]; reflexivity.
Qed.
Print Assumptions C68_dfs_iterator_leak.
(** iterators without a cache, i.e. all but begin(), may be copied *)
Definition without_cache (B : Type) (o : op (option B)) : bool :=
  match o with New _ _ v => match v 0 with None => true | Some _ => false end | Swap _ _ _ => false | _ => true end.
Theorem C68_dfs_iterator_partial : memory_safe o_dfs without_cache.
Proof.
  intros B left l e NC S. assert (R0 : bare (no_mem B) (no_objects _)) by (split; [reflexivity|intros n; exact I]).
  destruct (dfs_steps left l _ _ e NC R0 S) as (st & E & RB & RO). exists st. split; auto. split.
  - intros n v V. specialize (RO n). rewrite V in RO. destruct RO as (o & O & P & Q1 & Q2). unfold oscalar, oread. rewrite O. cbn [obind np o_dfs].
    split; [now rewrite Q1|]. intros p L. rewrite P. destruct p as [|p]; [now rewrite Q2|]. inversion L as [|? L']; inversion L'.
  - intros b N. now rewrite RB in N.
Qed.
Print Assumptions C68_dfs_iterator_partial.
Example C68_dfs_iterator_partial_meets :
  match sems _ (no_objects _) [New _ 0 end_it; CopyC _ 1 0; MoveC _ 2 1; CopyA _ 1 2; Del _ 0] with
  | Some e => match e 1 with Val _ v => (forallb (without_cache nat) [New _ 0 end_it; CopyC _ 1 0; MoveC _ 2 1; CopyA _ 1 2; Del _ 0], v 1) | _ => (false, None) end
  | None => (false, None)
  end = (true, Some 7).
Proof. reflexivity. Qed.
