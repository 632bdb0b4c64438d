(** * C69: int_vector owns its memory, and the memory_monitor counts it *)
From Coq Require Import List Bool Arith ZArith Lia.
From Verif Require Import Base Life IvMem SpecIvMem IvMemProofs.
Import ListNotations.

(** the bytes of the data of vector [n], as size_in_mega_bytes and the memory_monitor count them (without the padding word) *)
Definition bytes_of {W} (st : ivm W) (n : nat) : Z :=
  match objs W st n with Some o => 8 * Z.of_nat (words (sz o)) | None => 0 end.
Definition total (f : nat -> Z) (l : list nat) : Z := fold_right (fun n s => f n + s)%Z 0%Z l.
Definition owns {W} (st : ivm W) (n b : nat) : Prop := exists o, objs W st n = Some o /\ dt o = Some b.

(** A history of constructions, copies, moves, assignments, swaps, resizes, writes and destructions which uses only living
    vectors runs: no block is freed twice, accessed after it was freed, or accessed out of its bounds.  Afterwards every vector
    has its value, every allocated block belongs to exactly one living vector, and the monitor's count is the sum of the bytes
    of the living vectors. *)
Theorem C69_int_vector_memory : forall (W : Type) (w0 junk : W) (mask : nat -> W -> W) history e,
  vsems W (no_vecs W) history = Some e ->
  exists st, vexecs W w0 junk mask (no_vectors W) history = Some st /\
    (forall n, e n = VDead W <-> objs W st n = None) /\
    (forall n size width ws, e n = VVal W size width ws -> view W st n = Some (size, width, ws)) /\
    (forall b, blk W st b <> None -> exists n, e n <> VDead W /\ owns st n b /\ forall n', owns st n' b -> n' = n) /\
    (forall living, NoDup living -> (forall n, In n living <-> e n <> VDead W) -> cnt W st = total (bytes_of st) living).
Proof.
  intros W w0 junk mask l e S. destruct (steps_ok w0 junk mask l _ _ e rel_start S) as (st & E & I & T & A).
  exists st. split; auto.
  assert (DD : forall n, e n = VDead W <-> objs W st n = None).
  { intros n. specialize (A n). split; [intros D; now rewrite D in A|]. intros D. destruct (e n); auto; cbn [agree1] in A; [congruence|].
    unfold view in A. rewrite D in A. discriminate. }
  split; auto. split; [|split].
  - intros n s w ws V. specialize (A n). now rewrite V in A.
  - intros b B. destruct (iOwn _ I b B) as (n & o & O & D). exists n. split; [|split].
    + rewrite DD. congruence.
    + exists o; auto.
    + intros n' (o' & O' & D'). eapply (iOne _ I); eauto.
  - intros lv ND LV. symmetry. apply T; auto. intros n N. apply LV. rewrite DD. intros X. apply N. unfold bytes. now rewrite X.
Qed.
Print Assumptions C69_int_vector_memory.

(** when all vectors are destroyed, nothing stays allocated and the monitor counts nothing *)
Theorem C69_int_vector_no_leak : forall (W : Type) (w0 junk : W) (mask : nat -> W -> W) history e,
  vsems W (no_vecs W) history = Some e -> (forall n, e n = VDead W) ->
  exists st, vexecs W w0 junk mask (no_vectors W) history = Some st /\ (forall b, blk W st b = None) /\ cnt W st = 0%Z.
Proof.
  intros W w0 junk mask l e S D. destruct (C69_int_vector_memory W w0 junk mask l e S) as (st & E & _ & _ & B & C).
  exists st. split; auto. split.
  - intros b. destruct (blk W st b) eqn:X; auto. destruct (B b) as (n & N & _); [congruence|]. now rewrite D in N.
  - apply (C []); [constructor|]. intros n. split; [intros []|]. rewrite D. congruence.
Qed.
Print Assumptions C69_int_vector_no_leak.

(** resize keeps the words: every word that is still inside is unchanged, except that the bits behind the new size may be
    cleared in the last word.  The new size is as requested and the width stays *)
Theorem C69_int_vector_resize : forall (W : Type) (w0 junk : W) (mask : nat -> W -> W) history e n s w ws size,
  vsems W (no_vecs W) history = Some e -> e n = VVal W s w ws ->
  exists st st' ws', vexecs W w0 junk mask (no_vectors W) history = Some st /\ vexec W w0 junk mask st (Resize W n size) = Some st' /\
    view W st' n = Some (size, w, ws') /\
    forall i x, nth_error ws i = Some x -> i < words size ->
      exists y, nth_error ws' i = Some y /\ (y = x \/ i = size / 64 /\ y = mask (size mod 64) x).
Proof.
  intros W w0 junk mask l e n s w ws size S V. destruct (steps_ok w0 junk mask l _ _ e rel_start S) as (st & E & I & T & A).
  pose proof (A n) as An. rewrite V in An. cbn [agree1] in An.
  destruct (view_words _ _ _ _ _ I An) as [(all & H & ->)|(-> & -> & O)].
  - pose proof H as (b & B1 & B2 & B3). destruct (resize_ok w0 junk mask st n _ size I B1) as (st' & _ & R & _).
    destruct (resize_keeps w0 junk mask _ _ _ _ _ _ _ H R) as (ws' & H' & K).
    exists st, st', (firstn (words size) ws'). split; auto. split; auto. split; [now apply holds_view|].
    assert (F : forall (l : list W) k i, i < k -> nth_error (firstn k l) i = nth_error l i).
    { clear. induction l as [|a l IH]; intros [|k] [|i] L; cbn; auto; try lia. apply IH. lia. }
    intros i x X L. rewrite F by auto. apply K; auto. rewrite <- (F all (words s) i); auto.
    assert (Y : i < length (firstn (words s) all)) by (apply nth_error_Some; congruence). rewrite firstn_length in Y. lia.
  - destruct (resize_ok w0 junk mask st n _ size I O) as (st' & ws' & R & _ & _ & _ & H & _).
    exists st, st', (firstn (words size) ws'). split; auto. split; auto. split; [now apply holds_view|].
    intros [|i] x X; discriminate.
Qed.
Print Assumptions C69_int_vector_resize.
Example C69_resize_meets :
  (match vsems nat (no_vecs nat) [Fill _ 0 130 13 [5; 6; 7]] with Some e => e 0 | None => VDead _ end,
   let* st := vexecs nat 0 99 (fun k w => w mod 2 ^ k) (no_vectors nat) [Fill _ 0 130 13 [5; 6; 7]; Resize _ 0 66] in view nat st 0)
  = (VVal _ 130 13 [5; 6; 7], Some (66, 13, [5; 2])).
Proof. reflexivity. Qed.

(** ** a history meeting the hypotheses: sizes 130, 64 and 0, a self assignment, a moved-from vector that is assigned again *)
Definition ivm_demo : list (vop nat) :=
  [Fill _ 0 130 13 [5; 6; 7]; Fill _ 1 64 8 [9]; CopyC _ 2 0; Write _ 2 1 60; MoveC _ 3 0; CopyA _ 1 2; CopyA _ 1 1;
   Swap _ 1 3; MoveA _ 2 3; Fill _ 4 0 1 []; CopyA _ 0 4; Resize _ 3 1000].
Example C69_meets :
  match vsems nat (no_vecs nat) ivm_demo with
  | Some e => (e 0, e 1, e 2, e 4)
  | None => (VDead _, VDead _, VDead _, VDead _)
  end = (VVal _ 0 1 [], VVal _ 130 13 [5; 6; 7], VVal _ 130 13 [5; 60; 7], VVal _ 0 1 []).
Proof. reflexivity. Qed.
(* 2 vectors of 3 words, one of 16 words, two empty ones *)
Example C69_meets_count :
  option_map (cnt nat) (vexecs nat 0 99 (fun _ w => w) (no_vectors nat) ivm_demo) = Some 176%Z.
Proof. vm_compute. reflexivity. Qed.
Example C69_no_leak_meets :
  match vsems nat (no_vecs nat) (ivm_demo ++ [Del _ 0; Del _ 1; Del _ 2; Del _ 3; Del _ 4]) with
  | Some e => map (vdead nat e) [0; 1; 2; 3; 4; 5]
  | None => []
  end = [true; true; true; true; true; true].
Proof. reflexivity. Qed.
