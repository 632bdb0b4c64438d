(** * Properties C23, C24, C26: the Elias gamma, Elias delta and comma codes. *)
From Coq Require Import NArith List Bool Arith Lia.
From Verif Require Import Base Bits IntVectorProofs4 SpecCoder Coder CoderComma CoderProofs4.
Import ListNotations.

(** ** C23: Elias gamma *)
(** Values [xs ++ ys ++ zs] written one after the other from bit 64*w+off of any memory large enough:
    the code ends where encoding_length says, nothing else changes, decoding [ys] from its start gives
    the values, their running sums and (table driven) their sum.  Missing from the full statement: a
    64-bit value 0 needs the platform to define 1ULL << 64, and decode_prefix_sum needs one readable
    word behind the code (both refuted below without that). *)
Theorem C23_gamma_sequence_partial : forall sh, shift_like sh -> forall xs ys zs m w off,
  words_ok m -> off < 64 -> Forall is_word (xs ++ ys ++ zs) ->
  64 * w + off + list_sum (map eg_len (xs ++ ys ++ zs)) <= 64 * length m ->
  let start := 64 * w + off + list_sum (map eg_len xs) in
  let stop := start + list_sum (map eg_len ys) in
  let endp := 64 * w + off + list_sum (map eg_len (xs ++ ys ++ zs)) in
  exists m' w' off', enc_all eg_enc1 m w off (xs ++ ys ++ zs) = Some (m', w', off') /\
    64 * w' + off' = endp /\ off' < 64 /\ length m' = length m /\ words_ok m' /\
    same_outside (64 * w + off) endp (mbit m') (mbit m) /\
    (no_zero ys \/ shift64_defined sh ->
      cd_decode_n (eg_dec1 sh) false m' start (length ys) = Some ys /\
      cd_decode_n (eg_dec1 sh) true m' start (length ys) = Some (running_sums ys) /\
      (stop + 64 <= 64 * length m -> eg_prefix_sum sh m' start (length ys) = Some (sum_list ys mod 2 ^ 64)%N)).
Proof. exact eg_seq. Qed.
Print Assumptions C23_gamma_sequence_partial.
Example C23_gamma_sequence_ex : exists m' w' off', enc_all eg_enc1 [7; 0; 0; 0; 9]%N 0 3 [5; 1; 1; 1; 1; 300; 2; 1; 77777]%N = Some (m', w', off') /\
  cd_decode_n (eg_dec1 shl_c) false m' (3 + 5) 7 = Some [1; 1; 1; 1; 300; 2; 1]%N /\
  cd_decode_n (eg_dec1 shl_c) true m' (3 + 5) 7 = Some [1; 2; 3; 4; 304; 306; 307]%N /\
  eg_prefix_sum shl_c m' (3 + 5) 7 = Some 307%N.
Proof. do 3 eexists. split; [vm_compute; reflexivity|]. vm_compute. auto. Qed.

(** Whole vectors: encode(v, z) then decode(z, w). *)
Theorem C23_gamma_roundtrip_partial : forall sh g width xs, shift_like sh -> 1 <= width <= 64 ->
  Forall (fun x => (x < 2 ^ N.of_nat width)%N) xs ->
  (forall i, is_word (g i)) -> (width < 64 \/ no_zero xs \/ shift64_defined sh) ->
  exists m bits, eg_encode g width xs = Some (m, bits) /\ length m = bits / 64 + 1 /\ eg_decode sh width m bits = Some xs.
Proof. exact eg_roundtrip. Qed.
Print Assumptions C23_gamma_roundtrip_partial.
Example C23_gamma_roundtrip_ex : exists m bits, eg_encode demo_g 13 [0; 8191; 17; 1; 0; 4096]%N = Some (m, bits) /\ bits = 114 /\
  eg_decode shl_c 13 m bits = Some [0; 8191; 17; 1; 0; 4096]%N.
Proof. do 2 eexists. split; [vm_compute; reflexivity|]. vm_compute. auto. Qed.

Theorem C23_gamma_length : forall x, is_word x -> x <> 0%N -> eg_len x = 2 * N.to_nat (N.log2 x) + 1.
Proof. exact eg_len_ok. Qed.
Print Assumptions C23_gamma_length.

(** Finding: a 64-bit zero makes decode evaluate 1ULL << 64, which C++ leaves undefined. *)
Theorem C23_gamma_zero64_refuted : exists m bits, eg_encode demo_g 64 [0%N] = Some (m, bits) /\ eg_decode shl_c 64 m bits = None.
Proof. do 2 eexists. split; [vm_compute; reflexivity|]. vm_compute. auto. Qed.
(** Finding: decode_prefix_sum looks up 16 bits at a time, so it reads the word behind the last word
    of an exactly allocated vector (bits/64 + 1 words). *)
Theorem C23_gamma_prefix_sum_refuted : exists m w off, enc_all eg_enc1 [0%N] 0 0 (repeat 1%N 56 ++ [9%N]) = Some (m, w, off) /\
  64 * w + off = 63 /\ length m = 63 / 64 + 1 /\ eg_prefix_sum shl_c m 56 1 = None /\ cd_decode_n (eg_dec1 shl_c) false m 56 1 = Some [9%N].
Proof. do 3 eexists. split; [vm_compute; reflexivity|]. vm_compute. auto. Qed.

(** ** C24: Elias delta *)
Theorem C24_delta_sequence_partial : forall sh, shift_like sh -> forall xs ys zs m w off,
  words_ok m -> off < 64 -> Forall is_word (xs ++ ys ++ zs) ->
  64 * w + off + list_sum (map ed_len (xs ++ ys ++ zs)) <= 64 * length m ->
  let start := 64 * w + off + list_sum (map ed_len xs) in
  let stop := start + list_sum (map ed_len ys) in
  let endp := 64 * w + off + list_sum (map ed_len (xs ++ ys ++ zs)) in
  exists m' w' off', enc_all ed_enc1 m w off (xs ++ ys ++ zs) = Some (m', w', off') /\
    64 * w' + off' = endp /\ off' < 64 /\ length m' = length m /\ words_ok m' /\
    same_outside (64 * w + off) endp (mbit m') (mbit m) /\
    (no_zero ys \/ shift64_defined sh ->
      cd_decode_n (ed_dec1 sh) false m' start (length ys) = Some ys /\
      cd_decode_n (ed_dec1 sh) true m' start (length ys) = Some (running_sums ys) /\
      (stop + 64 <= 64 * length m -> ed_prefix_sum sh m' start (length ys) = Some (sum_list ys mod 2 ^ 64)%N)).
Proof. exact ed_seq. Qed.
Print Assumptions C24_delta_sequence_partial.
Example C24_delta_sequence_ex : exists m' w' off', enc_all ed_enc1 [7; 0; 0; 0; 9]%N 0 3 [5; 1; 1; 1; 1; 300; 2; 1; 77777]%N = Some (m', w', off') /\
  cd_decode_n (ed_dec1 shl_c) false m' (3 + 5) 7 = Some [1; 1; 1; 1; 300; 2; 1]%N /\
  cd_decode_n (ed_dec1 shl_c) true m' (3 + 5) 7 = Some [1; 2; 3; 4; 304; 306; 307]%N /\
  ed_prefix_sum shl_c m' (3 + 5) 7 = Some 307%N.
Proof. do 3 eexists. split; [vm_compute; reflexivity|]. vm_compute. auto. Qed.

Theorem C24_delta_roundtrip_partial : forall sh g width xs, shift_like sh -> 1 <= width <= 64 ->
  Forall (fun x => (x < 2 ^ N.of_nat width)%N) xs ->
  (forall i, is_word (g i)) -> (width < 64 \/ no_zero xs \/ shift64_defined sh) ->
  exists m bits, ed_encode g width xs = Some (m, bits) /\ length m = bits / 64 + 1 /\ ed_decode sh width m bits = Some xs.
Proof. exact ed_roundtrip. Qed.
Print Assumptions C24_delta_roundtrip_partial.
Example C24_delta_roundtrip_ex : exists m bits, ed_encode demo_g 13 [0; 8191; 17; 1; 0; 4096]%N = Some (m, bits) /\
  ed_decode shl_c 13 m bits = Some [0; 8191; 17; 1; 0; 4096]%N.
Proof. do 2 eexists. split; [vm_compute; reflexivity|]. vm_compute. auto. Qed.

Theorem C24_delta_length : forall x, is_word x -> x <> 0%N ->
  ed_len x = N.to_nat (N.log2 x) + 2 * N.to_nat (N.log2 (N.log2 x + 1)) + 1.
Proof. exact ed_len_ok. Qed.
Print Assumptions C24_delta_length.

Theorem C24_delta_zero64_refuted : exists m bits, ed_encode demo_g 64 [0%N] = Some (m, bits) /\ ed_decode shl_c 64 m bits = None.
Proof. do 2 eexists. split; [vm_compute; reflexivity|]. vm_compute. auto. Qed.
Theorem C24_delta_prefix_sum_refuted : exists m w off, enc_all ed_enc1 [0%N] 0 0 (repeat 1%N 55 ++ [9%N]) = Some (m, w, off) /\
  64 * w + off = 63 /\ length m = 63 / 64 + 1 /\ ed_prefix_sum shl_c m 55 1 = None /\ cd_decode_n (ed_dec1 shl_c) false m 55 1 = Some [9%N].
Proof. do 3 eexists. split; [vm_compute; reflexivity|]. vm_compute. auto. Qed.

(** ** C26: comma code, digit width t *)
Theorem C26_comma_sequence : forall t, 2 <= t <= 30 -> forall xs ys zs m w off,
  words_ok m -> off < 64 -> Forall is_word (xs ++ ys ++ zs) ->
  64 * w + off + list_sum (map (cm_len t) (xs ++ ys ++ zs)) <= 64 * length m ->
  let start := 64 * w + off + list_sum (map (cm_len t) xs) in
  let endp := 64 * w + off + list_sum (map (cm_len t) (xs ++ ys ++ zs)) in
  exists m' w' off', enc_all (cm_enc1 t) m w off (xs ++ ys ++ zs) = Some (m', w', off') /\
    64 * w' + off' = endp /\ off' < 64 /\ length m' = length m /\ words_ok m' /\
    same_outside (64 * w + off) endp (mbit m') (mbit m) /\
    cd_decode_n (cm_dec1 t) false m' start (length ys) = Some ys /\
    cd_decode_n (cm_dec1 t) true m' start (length ys) = Some (running_sums ys) /\
    cm_prefix_sum t m' start (length ys) = Some (sum_list ys mod 2 ^ 64)%N.
Proof. exact cm_seq. Qed.
Print Assumptions C26_comma_sequence.
Theorem C26_comma_roundtrip : forall t g width xs, 2 <= t <= 30 -> 1 <= width <= 64 ->
  Forall (fun x => (x < 2 ^ N.of_nat width)%N) xs -> (forall i, is_word (g i)) ->
  exists m bits, cm_encode t g xs = Some (m, bits) /\ length m = bits / 64 + 1 /\ cm_decode t width m bits = Some (Some xs).
Proof. exact cm_roundtrip'. Qed.
Print Assumptions C26_comma_roundtrip.
(** encoding_length is (number of base 2^t - 1 digits + 1) * t *)
Theorem C26_comma_length : forall t x, 2 <= t <= 30 -> is_word x -> exists k, cm_len t x = (k + 1) * t /\
  (x < (2 ^ N.of_nat t - 1) ^ N.of_nat k)%N /\ (x <> 0%N -> ((2 ^ N.of_nat t - 1) ^ N.of_nat (k - 1) <= x)%N) /\ (x = 0%N -> k = 0).
Proof. exact cm_len_spec. Qed.
Print Assumptions C26_comma_length.
Example C26_ex : exists m bits, cm_encode 2 demo_g [15; 0; 2 ^ 64 - 1; 2]%N = Some (m, bits) /\
  cm_decode 2 64 m bits = Some (Some [15; 0; 2 ^ 64 - 1; 2]%N) /\ cm_prefix_sum 2 m 8 3 = Some 1%N.
Proof. do 2 eexists. split; [vm_compute; reflexivity|]. vm_compute. auto. Qed.
