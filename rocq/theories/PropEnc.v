(** * Properties C27 (enc_vector) and C28 (vlc_vector). *)
From Coq Require Import NArith List Bool Arith Lia.
From Verif Require Import Base Bits IntVectorProofs4 SpecCoder Coder CoderComma EncVector SpecEnc EncVectorProofs3 VlcVectorProofs.
Import ListNotations.

(** ** C27.  For both constructors, every coder, sample density and input: operator[], sample and
    get_inter_sampled_values.  [after] is the memory behind the encoded data; the Elias coders need one
    readable word there and, if equal neighbours occur, a platform that defines 1ULL << 64. *)
Theorem C27_enc_vector_partial : forall sh c k dens tb tw l after, shift_like sh -> sdsl_coder sh c k -> 1 < dens -> tw = 0 \/ tw = 64 ->
  enc_input tb l -> fits_memory l -> no_equal_neighbours l \/ shift64_defined sh \/ is_comma_code c ->
  words_ok after -> k <= length after ->
  forall make, make = ev_make c dens tb tw \/ make = ev_make_buf c dens tb tw ->
  exists v, make l = Some v /\ ev_size v = length l /\
    (forall i, i < length l -> ev_get c dens v after i = Some (nth i l 0%N)) /\
    (forall i, dens * i < length l -> ev_sample v i = Some (nth (dens * i) l 0%N)) /\
    (forall i, dens * i < length l -> ev_inter c dens v i =
      Some (map (fun j => tsub 64 (nth j l 0%N) (nth (dens * i) l 0%N)) (seq (dens * i) (Nat.min dens (length l - dens * i))))).
Proof. exact ev_ok. Qed.
Print Assumptions C27_enc_vector_partial.

Definition demo_enc : list N := [5; 3; 2 ^ 64 - 1; 7; 8; 9; 100; 0; 1; 1000000]%N.
Example C27_hyps : enc_input 64 demo_enc /\ fits_memory demo_enc /\ no_equal_neighbours demo_enc /\ sdsl_coder shl_c (elias_delta shl_c) 1 /\ shift_like shl_c.
Proof.
  split; [|split; [|split; [|split]]].
  - left. split; auto. repeat constructor.
  - reflexivity.
  - intros k H. cbn [length demo_enc] in H. do 9 (destruct k as [|k]; [intro E; vm_compute in E; discriminate E|]). lia.
  - constructor.
  - intros k H. unfold shl_c. replace (k <? 64) with true by lia. f_equal. unfold shl. rewrite N.shiftl_1_l. apply N.mod_small.
    apply N.lt_le_trans with (2 ^ 64)%N; [apply N.pow_lt_mono_r; lia|]. discriminate.
Qed.
Example C27_ex : exists v, ev_make (elias_delta shl_c) 4 64 0 demo_enc = Some v /\
  map (ev_get (elias_delta shl_c) 4 v [77%N]) (seq 0 10) = map Some demo_enc /\
  ev_sample v 2 = Some 1%N /\ ev_inter (elias_delta shl_c) 4 v 1 = Some [0; 1; 92; 2 ^ 64 - 8]%N.
Proof. eexists. split; [vm_compute; reflexivity|]. vm_compute. auto. Qed.

(** Finding: without the word behind the data operator[] is out of bounds. *)
Definition demo_run : list N := map N.of_nat (seq 0 57) ++ [65%N].
Theorem C27_read_past_refuted : exists v, ev_make (elias_gamma shl_c) 128 64 0 demo_run = Some v /\ length demo_run = 58 /\ nth 57 demo_run 0%N = 65%N /\
  ev_get (elias_gamma shl_c) 128 v [] 57 = None /\ ev_get (elias_gamma shl_c) 128 v [0%N] 57 = Some 65%N.
Proof. eexists. split; [vm_compute; reflexivity|]. vm_compute. auto. Qed.
(** Finding: a container of 32-bit values that decrease is not restored. *)
Theorem C27_narrow_type_refuted : exists v, ev_make (comma 2) 4 32 0 [5; 3]%N = Some v /\ ev_get (comma 2) 4 v [0%N] 1 = Some (2 ^ 32 + 3)%N.
Proof. eexists. split; [vm_compute; reflexivity|]. vm_compute. auto. Qed.

(** ** C28.  Every value except the largest of the element type is restored; the largest makes the
    constructor throw. *)
Theorem C28_vlc_vector : forall sh, shift_like sh -> forall c k, sdsl_coder sh c k -> forall dens tb, 1 < dens -> tb = 32 \/ tb = 64 ->
  forall g l, (forall i, is_word (g i)) -> Forall (fun x => (x + 1 < 2 ^ N.of_nat tb)%N) l -> fits_memory l ->
  exists v, vv_make c dens tb g l = Some (Some v) /\ vv_size v = length l /\
    forall i, i < length l -> vv_get c dens v i = Some (nth i l 0%N).
Proof. exact vv_ok. Qed.
Print Assumptions C28_vlc_vector.
Theorem C28_vlc_throws : forall c dens tb g l, length l <> 0 -> Exists (fun x => (x + 1 = 2 ^ N.of_nat tb)%N) l -> vv_make c dens tb g l = Some None.
Proof. exact vv_throws. Qed.
Print Assumptions C28_vlc_throws.
Example C28_ex : exists v, vv_make (elias_gamma shl_c) 3 64 demo_g [0; 0; 5; 2 ^ 64 - 2; 17; 0; 9]%N = Some (Some v) /\
  map (vv_get (elias_gamma shl_c) 3 v) (seq 0 7) = map Some [0; 0; 5; 2 ^ 64 - 2; 17; 0; 9]%N.
Proof. eexists. split; [vm_compute; reflexivity|]. vm_compute. auto. Qed.
Example C28_throws_ex : vv_make (elias_gamma shl_c) 3 64 demo_g [0; 2 ^ 64 - 1]%N = Some None.
Proof. vm_compute. auto. Qed.
