(** * C49: uint128_t and uint256_t compute modulo 2^128 and 2^256 *)
From Coq Require Import NArith List Bool Arith Lia.
From Verif Require Import Base Bits SpecBits Wide SpecWide WideProofs WideProofs2.
Import ListNotations.
Local Open Scope N_scope.

(** [val128], [val256]: the number an object stands for, read off its words ([words_val], SpecWide.v);
    [ok128], [ok256]: every word below 2^64.  Portable class uint128_t. *)
Theorem C49_u128_add : forall a b, ok128 a -> ok128 b -> ok128 (u_add a b) /\ val128 (u_add a b) = (val128 a + val128 b) mod 2 ^ 128.
Proof. exact u_add_m. Qed.
Print Assumptions C49_u128_add.
Theorem C49_u128_add64 : forall a x, ok128 a -> is_word x -> ok128 (u_add64 a x) /\ val128 (u_add64 a x) = (val128 a + x) mod 2 ^ 128.
Proof. exact u_add64_m. Qed.
Print Assumptions C49_u128_add64.
Theorem C49_u128_sub : forall a b, ok128 a -> ok128 b -> ok128 (u_sub a b) /\ val128 (u_sub a b) = (val128 a + (2 ^ 128 - val128 b)) mod 2 ^ 128.
Proof. exact u_sub_m. Qed.
Print Assumptions C49_u128_sub.
Theorem C49_u128_bitops : forall a b, ok128 a -> ok128 b ->
  (ok128 (u_not a) /\ val128 (u_not a) = 2 ^ 128 - 1 - val128 a) /\
  (ok128 (u_or a b) /\ val128 (u_or a b) = N.lor (val128 a) (val128 b)) /\
  (ok128 (u_and a b) /\ val128 (u_and a b) = N.land (val128 a) (val128 b)) /\
  (forall x, is_word x -> ok128 (u_or64 a x) /\ val128 (u_or64 a x) = N.lor (val128 a) x).
Proof. exact (fun a b A B => conj (u_not_m a A) (conj (u_or_m a b A B) (conj (u_and_m a b A B) (fun x => u_or64_m a x A)))). Qed.
Print Assumptions C49_u128_bitops.
(** shifts by every amount up to 128 *)
Theorem C49_u128_shl : forall a x, ok128 a -> (x <= 128)%nat ->
  exists r, u_shl a x = Some r /\ ok128 r /\ val128 r = (val128 a * 2 ^ N.of_nat x) mod 2 ^ 128.
Proof. exact u_shl_m. Qed.
Print Assumptions C49_u128_shl.
Theorem C49_u128_shr : forall a x, ok128 a -> (x <= 128)%nat -> exists r, u_shr a x = Some r /\ ok128 r /\ val128 r = val128 a / 2 ^ N.of_nat x.
Proof. exact u_shr_m. Qed.
Print Assumptions C49_u128_shr.
Theorem C49_u128_compare : forall a b, ok128 a -> ok128 b ->
  u_eqb a b = (val128 a =? val128 b) /\ u_geb a b = (val128 b <=? val128 a) /\ u_leb a b = (val128 a <=? val128 b) /\
  u_gtb a b = (val128 b <? val128 a) /\ u_ltb a b = (val128 a <? val128 b).
Proof. exact u_cmp_m. Qed.
Print Assumptions C49_u128_compare.
Theorem C49_u128_compare64 : forall a x, ok128 a -> is_word x -> u_eqb64 a x = (val128 a =? x) /\ u_gtb64 a x = (x <? val128 a).
Proof. exact u_cmp64_m. Qed.
Print Assumptions C49_u128_compare64.
Theorem C49_u128_popcount : forall a, ok128 a -> u_popcount a = N.of_nat (rank_of (tb (val128 a)) 128).
Proof. exact u_popcount_m. Qed.
Print Assumptions C49_u128_popcount.
Theorem C49_u128_hi : forall a, ok128 a -> u_hi a = N.log2 (val128 a).
Proof. exact u_hi_m. Qed.
Print Assumptions C49_u128_hi.
Theorem C49_u128_select : forall a i, ok128 a -> (1 <= i <= rank_of (tb (val128 a)) 128)%nat ->
  exists p, u_select a (N.of_nat i) = Some (N.of_nat p) /\ is_select (tb (val128 a)) i p.
Proof. exact u_select_m. Qed.
Print Assumptions C49_u128_select.
(** operator<<(ostream): all 32 hexadecimal digits *)
Theorem C49_u128_print : forall a, ok128 a -> u_print a = Some (hex 32 (val128 a)).
Proof. exact u_print_m. Qed.
Print Assumptions C49_u128_print.

(** uint256_t; [ti]: over the compiler's 128-bit type (MODE_TI), otherwise over the portable class *)
Theorem C49_u256_add : forall ti a b, ok256 a -> ok256 b ->
  exists r, x_add ti a b = Some r /\ ok256 r /\ val256 r = (val256 a + val256 b) mod 2 ^ 256.
Proof. exact x_add_m. Qed.
Print Assumptions C49_u256_add.
Theorem C49_u256_sub : forall ti a b, ok256 a -> ok256 b ->
  exists r, x_sub ti a b = Some r /\ ok256 r /\ val256 r = (val256 a + (2 ^ 256 - val256 b)) mod 2 ^ 256.
Proof. exact x_sub_m. Qed.
Print Assumptions C49_u256_sub.
Theorem C49_u256_bitops : forall a b, ok256 a -> ok256 b ->
  (ok256 (x_or a b) /\ val256 (x_or a b) = N.lor (val256 a) (val256 b)) /\
  (ok256 (x_and a b) /\ val256 (x_and a b) = N.land (val256 a) (val256 b)).
Proof. exact (fun a b A B => conj (x_or_m a b A B) (x_and_m a b A B)). Qed.
Print Assumptions C49_u256_bitops.
(** missing: << 0 over the compiler's type, see below *)
Theorem C49_u256_shl_partial : forall ti a x, ok256 a -> (x < 256)%nat -> (ti = true -> 1 <= x)%nat ->
  exists r, x_shl ti a x = Some r /\ ok256 r /\ val256 r = (val256 a * 2 ^ N.of_nat x) mod 2 ^ 256.
Proof. exact x_shl_m. Qed.
Print Assumptions C49_u256_shl_partial.
(** Finding: with MODE_TI (set by the build for gcc) shifting a uint256_t left by 0 shifts a 128-bit number by 128. *)
Theorem C49_u256_shl_refuted : exists a, ok256 a /\ x_shl true a 0 = None.
Proof. exists (mk256 1 0 0). split; [repeat split|reflexivity]. Qed.
Print Assumptions C49_u256_shl_refuted.
Theorem C49_u256_shr : forall ti a x, ok256 a -> (x < 256)%nat ->
  exists r, x_shr ti a x = Some r /\ ok256 r /\ val256 r = val256 a / 2 ^ N.of_nat x.
Proof. exact x_shr_m. Qed.
Print Assumptions C49_u256_shr.
Theorem C49_u256_compare : forall a b, ok256 a -> ok256 b ->
  x_eqb a b = (val256 a =? val256 b) /\ x_geb a b = (val256 b <=? val256 a) /\ x_leb a b = (val256 a <=? val256 b) /\
  x_gtb a b = (val256 b <? val256 a) /\ x_ltb a b = (val256 a <? val256 b).
Proof. exact x_cmp_m. Qed.
Print Assumptions C49_u256_compare.
Theorem C49_u256_compare64 : forall a x, ok256 a -> is_word x -> x_gtb64 a x = (x <? val256 a).
Proof. exact x_gtb64_m. Qed.
Print Assumptions C49_u256_compare64.
Theorem C49_u256_popcount : forall ti a, ok256 a -> x_popcount ti a = Some (N.of_nat (rank_of (tb (val256 a)) 256)).
Proof. exact x_popcount_m. Qed.
Print Assumptions C49_u256_popcount.
Theorem C49_u256_hi : forall ti a, ok256 a -> x_hi ti a = Some (N.log2 (val256 a)).
Proof. exact x_hi_m. Qed.
Print Assumptions C49_u256_hi.
Theorem C49_u256_select : forall ti a i, ok256 a -> (1 <= i <= rank_of (tb (val256 a)) 256)%nat ->
  exists p, x_select ti a (N.of_nat i) = Some (N.of_nat p) /\ is_select (tb (val256 a)) i p.
Proof. exact x_select_m. Qed.
Print Assumptions C49_u256_select.
Theorem C49_u256_print : forall ti a, ok256 a -> x_print ti a = Some (hex 64 (val256 a)).
Proof. exact x_print_m. Qed.
Print Assumptions C49_u256_print.

(** non-vacuity *)
Definition wdemo : u128 := mk128 0xFFFFFFFFFFFFFFFF 0x8000000000000005.
Definition xdemo : u256 := mk256 0xFFFFFFFFFFFFFFFF 3 (2 ^ 127 + 2 ^ 64 + 1).
Example wdemo_ok : ok128 wdemo /\ ok256 xdemo. Proof. repeat split. Qed.
Example wdemo_run : (val128 (u_add wdemo wdemo), u_popcount wdemo, u_hi wdemo, u_select wdemo 65, option_map val128 (u_shl wdemo 60), option_map val128 (u_shr wdemo 70)) =
  (2 * val128 wdemo - 2 ^ 128, 67, 127, Some 64, Some ((val128 wdemo * 2 ^ 60) mod 2 ^ 128), Some (val128 wdemo / 2 ^ 70)).
Proof. vm_compute. reflexivity. Qed.
Example xdemo_run : (option_map val256 (x_sub true (mk256 0 0 0) xdemo), x_popcount true xdemo, x_hi true xdemo, x_select true xdemo 67, x_select true xdemo 69,
   option_map val256 (x_shl true xdemo 100)) =
  (Some (2 ^ 256 - val256 xdemo), Some 69, Some 255, Some 128, Some 255, Some ((val256 xdemo * 2 ^ 100) mod 2 ^ 256)).
Proof. vm_compute. reflexivity. Qed.
