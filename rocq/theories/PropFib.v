(** * Property C25: the Fibonacci code. *)
From Coq Require Import NArith List Bool Arith Lia.
From Verif Require Import Base Bits IntVectorProofs4 SpecCoder SpecFib Coder CoderFib CoderFibProofs5.
Import ListNotations.

(** Values [xs ++ ys ++ zs] written one after the other from bit 64*w+off of any memory large enough:
    the code ends where encoding_length says, nothing else changes, decoding [ys] from its start gives
    the values, their running sums and (table driven, up to 2^31 bits) their sum.  Missing from the full
    statement: the encoder handles only the values that are [fib_encodable] (the rest are refuted below). *)
Theorem C25_fibonacci_sequence_partial : forall xs ys zs m w off,
  words_ok m -> off < 64 -> Forall is_word (xs ++ ys ++ zs) -> Forall fib_encodable (xs ++ ys ++ zs) ->
  64 * w + off + list_sum (map fib_len (xs ++ ys ++ zs)) <= 64 * length m ->
  let start := 64 * w + off + list_sum (map fib_len xs) in
  let stop := start + list_sum (map fib_len ys) in
  let endp := 64 * w + off + list_sum (map fib_len (xs ++ ys ++ zs)) in
  exists m' w' off', enc_all fib_enc1 m w off (xs ++ ys ++ zs) = Some (m', w', off') /\
    64 * w' + off' = endp /\ off' < 64 /\ length m' = length m /\ words_ok m' /\
    same_outside (64 * w + off) endp (mbit m') (mbit m) /\
    fib_decode_n false m' start (length ys) = Some ys /\
    fib_decode_n true m' start (length ys) = Some (running_sums ys) /\
    ((N.of_nat (stop - start) < 2 ^ 31)%N -> fib_prefix_sum m' start (length ys) = Some (sum_list ys mod 2 ^ 64)%N).
Proof. exact fib_seq. Qed.
Print Assumptions C25_fibonacci_sequence_partial.
Example C25_fibonacci_sequence_ex : exists m' w' off', enc_all fib_enc1 [7; 0; 0; 0; 9]%N 0 3 ([5] ++ [1; 1; 1; 1; 300; 2; 1; 2 ^ 40; 0] ++ [77777])%N = Some (m', w', off') /\
  fib_decode_n false m' (3 + 5) 9 = Some [1; 1; 1; 1; 300; 2; 1; 2 ^ 40; 0]%N /\
  fib_decode_n true m' (3 + 5) 9 = Some [1; 2; 3; 4; 304; 306; 307; 307 + 2 ^ 40; 307 + 2 ^ 40]%N /\
  fib_prefix_sum m' (3 + 5) 9 = Some (307 + 2 ^ 40)%N.
Proof. do 3 eexists. split; [vm_compute; reflexivity|]. vm_compute. auto. Qed.

(** Whole vectors: encode(v, z) then decode(z, w). *)
Theorem C25_fibonacci_roundtrip_partial : forall g width xs, 1 <= width <= 64 ->
  Forall (fun x => (x < 2 ^ N.of_nat width)%N) xs -> Forall (fun x => fib_encodable (cd_zero width x)) xs -> (forall i, is_word (g i)) ->
  exists m bits, fib_encode g width xs = Some (m, bits) /\ length m = bits / 64 + 1 /\ fib_decode width m bits = Some xs.
Proof. exact fib_roundtrip. Qed.
Print Assumptions C25_fibonacci_roundtrip_partial.
Example C25_fibonacci_roundtrip_ex : exists m bits, fib_encode demo_g 13 [0; 8191; 17; 1; 0; 4096]%N = Some (m, bits) /\ bits = 87 /\
  fib_decode 13 m bits = Some [0; 8191; 17; 1; 0; 4096]%N.
Proof. do 2 eexists. split; [vm_compute; reflexivity|]. vm_compute. auto. Qed.

Theorem C25_fibonacci_length : forall x, is_word x -> is_fib_len x (fib_len x).
Proof. exact fib_len_spec. Qed.
Print Assumptions C25_fibonacci_length.
(** In particular every nonzero value below fib 65 = 44945570212853, and 0, can be encoded. *)
Theorem C25_fibonacci_small_encodable : forall x, (x < 44945570212853)%N -> fib_encodable x.
Proof.
  intros x H. destruct (N.eq_dec x 0) as [->|]; [vm_compute; discriminate|]. apply fib_small_encodable.
  change (fib 65) with 44945570212853%N. lia.
Qed.
Print Assumptions C25_fibonacci_small_encodable.
(** Finding: encode shifts by a negative distance (undefined) for 44945570212853, and the same happens
    for every other value whose greedy Fibonacci representation uses no number below that one. *)
Theorem C25_fibonacci_shift_refuted : exists x, is_word x /\ fib_enc1 (repeat 0%N 3) 0 0 x = None.
Proof. exists 44945570212853%N. split; vm_compute; auto. Qed.
