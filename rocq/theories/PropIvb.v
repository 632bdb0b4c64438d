(** * C35: int_vector_buffer refines a growing vector for every history *)
From Coq Require Import NArith ZArith List Bool Arith Lia.
From Verif Require Import Base Bits IntVector SpecIntVector IntVectorProofs4 IvBuffer SpecIvb IvBufferProofs IvBufferProofs2 IvBufferProofs3.
Import ListNotations.

(** A new buffer, any buffer size n, any history: every read gives the element of the list, size() is its
    length, and close() leaves exactly the bytes that serialize writes for an int_vector with these elements *)
Theorem C35_history : forall sr g tw w B n ops, fresh_ok g -> tw_ok tw w -> sr_ok sr w -> 0 < B -> l_ok w [] ops ->
  exists b b' F v, b_create sr g tw false w n = Some b /\ b_run sr g tw b ops = Some (b', snd (l_run w [] ops)) /\
    b_size b' = length (fst (l_run w [] ops)) /\ b_close tw b' = Some F /\
    iv_ok v /\ iv_width v = w /\ iv_size v = length (fst (l_run w [] ops)) * w /\ reads v (fst (l_run w [] ops)) /\ iv_serialize B tw v false = Some (F, length F).
Proof. exact ivb_history. Qed.
Print Assumptions C35_history.

(** The same on the file of a stored vector v0 whose unused last bits are 0 (as close() leaves them).  Full
    statement: every stored vector; see the refutation *)
Theorem C35_open_partial : forall sr g tw w w0 B n ops v0 l0 F0 len, fresh_ok g -> tw_ok tw w -> sr_ok sr w -> 0 < B -> 1 <= w0 <= 64 ->
  iv_ok v0 -> iv_width v0 = w -> whole v0 -> tail_clean v0 -> reads v0 l0 -> (N.of_nat (iv_size v0) < W64)%N -> iv_serialize B tw v0 false = Some (F0, len) ->
  l_ok w l0 ops ->
  exists b b' F v, b_open sr g tw false F0 w0 n = Some b /\ b_run sr g tw b ops = Some (b', snd (l_run w l0 ops)) /\
    b_size b' = length (fst (l_run w l0 ops)) /\ b_close tw b' = Some F /\
    iv_ok v /\ iv_width v = w /\ iv_size v = length (fst (l_run w l0 ops)) * w /\ reads v (fst (l_run w l0 ops)) /\ iv_serialize B tw v false = Some (F, length F).
Proof. exact ivb_history_open. Qed.
Print Assumptions C35_open_partial.

(** A vector int_vector<8>(1, 255) is stored (all bits of its word are set), opened with a buffer of one
    byte, and element 5 is written: element 2, which was never written, reads 255 instead of 0 *)
Theorem C35_open_refuted : exists v0 F0 b b', iv_new shr_c demo_g 8 1 255 8 = Some v0 /\ reads v0 [255%N] /\
  iv_serialize 1 8 v0 false = Some (F0, 16) /\ b_open shr_c demo_g 8 false F0 8 1 = Some b /\
  l_ok 8 [255%N] [BWrite 5 7; BRead 2] /\ b_run shr_c demo_g 8 b [BWrite 5 7; BRead 2] = Some (b', [255%N]) /\
  snd (l_run 8 [255%N] [BWrite 5 7; BRead 2]) = [0%N].
Proof.
  do 4 eexists. split; [vm_compute; reflexivity|]. split; [apply readsb_ok; vm_compute; reflexivity|]. split; [vm_compute; reflexivity|].
  split; [vm_compute; reflexivity|]. split; [vm_compute; repeat split; lia|]. split; vm_compute; reflexivity.
Qed.
Print Assumptions C35_open_refuted.

(** plain files (no header; widths 8, 16, 32, 64): the file holds the elements, nothing else *)
Theorem C35_plain : forall sr g tw w n ops, fresh_ok g -> tw_ok tw w -> sr_ok sr w -> w mod 8 = 0 -> l_ok w [] ops ->
  exists b b', b_create sr g tw true w n = Some b /\ b_run sr g tw b ops = Some (b', snd (l_run w [] ops)) /\
    b_size b' = length (fst (l_run w [] ops)) /\ b_close tw b' = Some (plain_bytes w (fst (l_run w [] ops))).
Proof. exact ivb_plain. Qed.
Print Assumptions C35_plain.
Theorem C35_plain_open : forall sr g tw w n ops l0, fresh_ok g -> tw_ok tw w -> sr_ok sr w -> w mod 8 = 0 -> Forall (fun x => (x < 2 ^ N.of_nat w)%N) l0 -> l_ok w l0 ops ->
  exists b b', b_open sr g tw true (plain_bytes w l0) w n = Some b /\ b_run sr g tw b ops = Some (b', snd (l_run w l0 ops)) /\
    b_size b' = length (fst (l_run w l0 ops)) /\ b_close tw b' = Some (plain_bytes w (fst (l_run w l0 ops))).
Proof. exact ivb_plain_open. Qed.
Print Assumptions C35_plain_open.

(** non-vacuity: 12-bit integers in blocks of 16, writes behind the end, a change of the buffer size and a reset *)
Definition demo_bops : list b_op :=
  [BPush 4097; BWrite 40 77; BRead 0; BRead 20; BAdd 40 5000; BRead 40; BBuffer 3; BWrite 2 9; BRead 40; BSub 0 2; BRead 0; BReset; BWrite 3 4095; BPush 8; BRead 3; BRead 1].
Example C35_hyp : l_ok 12 [] demo_bops.
Proof. vm_compute. repeat split; lia. Qed.
Example C35_run : (let* b := b_create shr_c demo_g 0 false 12 9 in let* (b, out) := b_run shr_c demo_g 0 b demo_bops in let* F := b_close 0 b in Some (out, F)) =
  Some ([1; 0; 981; 981; 4095; 4095; 0], [60; 0; 0; 0; 0; 0; 0; 0; 12; 0; 0; 0; 0; 240; 255; 8; 0])%N.
Proof. vm_compute. reflexivity. Qed.
