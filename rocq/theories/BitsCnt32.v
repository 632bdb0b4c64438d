(** * cnt32 (bits.hpp:267-272): correct except when the even or the odd nibbles are
    all full. *)
From Coq Require Import NArith ZArith List Lia Bool Arith.
From Verif Require Import Base Tables Bits SpecBits BitsProofs.
Import ListNotations.
Local Open Scope N_scope.

Definition lopop (a : N) : N := N.of_nat (count_true (bits_of_N 8 (N.land a 0x0f))).
Definition hipop (a : N) : N := N.of_nat (count_true (bits_of_N 8 (N.land a 0xf0))).

Lemma byte_nibs : forall a, a < 256 ->
  swar2b (swar1b a) = lopop a + 16 * hipop a /\ lopop a <= 4 /\ hipop a <= 4 /\
  lopop a + hipop a = pop8 a /\ (N.land a 0x0f <> 0x0f -> lopop a <= 3) /\ (N.land a 0xf0 <> 0xf0 -> hipop a <= 3).
Proof.
  intros.
  pose (P := fun a => (swar2b (swar1b a) =? lopop a + 16 * hipop a) && (lopop a <=? 4) && (hipop a <=? 4)
     && (lopop a + hipop a =? pop8 a) && ((N.land a 0x0f =? 0x0f) || (lopop a <=? 3))
     && ((N.land a 0xf0 =? 0xf0) || (hipop a <=? 3))).
  assert (HP : P a = true) by (apply forall_byte; auto; vm_compute; reflexivity).
  unfold P in HP. rewrite !andb_true_iff, !orb_true_iff, !N.leb_le, !N.eqb_eq in HP.
  intuition lia.
Qed.

Lemma cnt32_correct : forall x, x < 2 ^ 32 ->
  N.land x 0x0f0f0f0f <> 0x0f0f0f0f -> N.land x 0xf0f0f0f0 <> 0xf0f0f0f0 ->
  cnt32 x = N.of_nat (popcount x).
Proof.
  intros x Hx NE NO.
  assert (E : exists l, length l = 4%nat /\ digs_ok 8 l /\ x = undig 8 l).
  { exists (dig 8 4 x). split; [apply dig_length|]. split; [apply dig_ok|]. symmetry. apply undig_dig. exact Hx. }
  destruct E as [l [L [O ->]]].
  assert (PC : N.of_nat (popcount (undig 8 l)) = nsum (map pop8 l)).
  { replace (undig 8 l) with (undig 8 (l ++ [0;0;0;0])).
    - rewrite popcount_bytes.
      + rewrite map_app. destruct l as [|b0 [|b1 [|b2 [|b3 [|]]]]]; try discriminate. reflexivity.
      + split. { rewrite app_length, L. auto. } apply Forall_app. split; auto. repeat constructor.
    - destruct l as [|b0 [|b1 [|b2 [|b3 [|]]]]]; try discriminate. reflexivity. }
  rewrite PC. unfold cnt32.
  destruct (swar1_step l O) as [S1 S1le]. rewrite L in S1, S1le.
  change (undig 8 (repeat 85 4)) with 0x55555555 in *.
  assert (X1 : (undig 8 l + (2 ^ 32 - N.land (shr (undig 8 l) 1) 0x55555555)) mod 2 ^ 32 = undig 8 (map swar1b l)).
  { rewrite <- S1. change (2 ^ 32) with 4294967296 in *.
    replace (undig 8 l + (4294967296 - N.land (shr (undig 8 l) 1) 1431655765)) with
      (undig 8 l - N.land (shr (undig 8 l) 1) 1431655765 + 1 * 4294967296) by lia.
    rewrite N.mod_add by discriminate. apply N.mod_small. lia. }
  rewrite X1. clear X1 S1 S1le.
  assert (O1 : digs_ok 8 (map swar1b l)).
  { eapply Forall_map_impl; [exact O|]. intros. apply byte_cnt. exact H. }
  pose proof (swar2_step _ O1) as S2. rewrite map_length, L in S2.
  change (undig 8 (repeat 51 4)) with 0x33333333 in *. rewrite S2. clear S2. rewrite map_map.
  rewrite (map_ext_forall _ _ _ (fun a => swar2b (swar1b a)) (fun a => lopop a + 16 * hipop a) l O)
    by (intros; apply byte_nibs; auto).
  assert (Masks : (~ Forall (fun a => N.land a 0x0f = 0x0f) l) /\ (~ Forall (fun a => N.land a 0xf0 = 0xf0) l)).
  { assert (G : forall c k, c < 256 -> Forall (fun a => N.land a c = c) k -> digs_ok 8 k ->
        N.land (undig 8 k) (undig 8 (repeat c (length k))) = undig 8 (repeat c (length k))).
    { clear. intros c k Hc F O. induction O; cbn [length repeat undig]; auto.
      inversion F; subst. rewrite cat_land by auto. rewrite IHO by auto. f_equal. auto. }
    split; intro F; [apply NE|apply NO].
    - specialize (G 0x0f l ltac:(reflexivity) F O). rewrite L in G. exact G.
    - specialize (G 0xf0 l ltac:(reflexivity) F O). rewrite L in G. exact G. }
  destruct Masks as [M1 M2].
  destruct l as [|b0 [|b1 [|b2 [|b3 [|]]]]]; try discriminate.
  unfold digs_ok in O.
  repeat match goal with H : Forall _ (_ :: _) |- _ => inversion H; clear H; subst end.
  change (2 ^ N.of_nat 8) with 256 in *.
  destruct (byte_nibs b0) as [_ [A0 [B0 [C0 [D0 F0]]]]]; auto.
  destruct (byte_nibs b1) as [_ [A1 [B1 [C1 [D1 F1]]]]]; auto.
  destruct (byte_nibs b2) as [_ [A2 [B2 [C2 [D2 F2]]]]]; auto.
  destruct (byte_nibs b3) as [_ [A3 [B3 [C3 [D3 F3]]]]]; auto.
  assert (SL : lopop b0 + lopop b1 + lopop b2 + lopop b3 <= 15).
  { destruct (N.eq_dec (N.land b0 15) 15) as [E0|E0]; [|specialize (D0 E0); lia].
    destruct (N.eq_dec (N.land b1 15) 15) as [E1|E1]; [|specialize (D1 E1); lia].
    destruct (N.eq_dec (N.land b2 15) 15) as [E2|E2]; [|specialize (D2 E2); lia].
    destruct (N.eq_dec (N.land b3 15) 15) as [E3|E3]; [|specialize (D3 E3); lia].
    exfalso. apply M1. repeat constructor; auto. }
  assert (SH : hipop b0 + hipop b1 + hipop b2 + hipop b3 <= 15).
  { destruct (N.eq_dec (N.land b0 0xf0) 0xf0) as [E0|E0]; [|specialize (F0 E0); lia].
    destruct (N.eq_dec (N.land b1 0xf0) 0xf0) as [E1|E1]; [|specialize (F1 E1); lia].
    destruct (N.eq_dec (N.land b2 0xf0) 0xf0) as [E2|E2]; [|specialize (F2 E2); lia].
    destruct (N.eq_dec (N.land b3 0xf0) 0xf0) as [E3|E3]; [|specialize (F3 E3); lia].
    exfalso. apply M2. repeat constructor; auto. }
  unfold nsum. cbn [map undig fold_right].
  rewrite <- C0, <- C1, <- C2, <- C3. clear - A0 A1 A2 A3 B0 B1 B2 B3 SL SH.
  set (l0 := lopop b0) in *. set (l1 := lopop b1) in *. set (l2 := lopop b2) in *. set (l3 := lopop b3) in *.
  set (h0 := hipop b0) in *. set (h1 := hipop b1) in *. set (h2 := hipop b2) in *. set (h3 := hipop b3) in *.
  clearbody l0 l1 l2 l3 h0 h1 h2 h3. unfold cat. change (2 ^ N.of_nat 8) with 256. change (2 ^ 32) with 4294967296.
  set (X := l0 + 16 * h0 + _).
  assert (EX : X mod 4294967296 = X) by (apply N.mod_small; unfold X; lia). rewrite EX.
  rewrite !shr_div. change (2 ^ N.of_nat 28) with 268435456.
  assert (P1 : (0x01010101 * X) mod 4294967296 =
    (l0 + 16 * h0) + 256 * (l0 + l1 + 16 * (h0 + h1)) + 65536 * (l0 + l1 + l2 + 16 * (h0 + h1 + h2))
    + 16777216 * (l0 + l1 + l2 + l3 + 16 * (h0 + h1 + h2 + h3))).
  { symmetry. apply (N.mod_unique _ _ ((l1 + l2 + l3 + 16 * (h1 + h2 + h3)) + 256 * (l2 + l3 + 16 * (h2 + h3)) + 65536 * (l3 + 16 * h3)));
      unfold X; lia. }
  assert (P2 : (0x10101010 * X) mod 4294967296 =
    16 * ((l0 + 16 * h0) + 256 * (l0 + l1 + 16 * (h0 + h1)) + 65536 * (l0 + l1 + l2 + 16 * (h0 + h1 + h2))
    + 16777216 * (l0 + l1 + l2 + l3))).
  { symmetry. apply (N.mod_unique _ _ (16 * ((l1 + l2 + l3 + 16 * (h1 + h2 + h3)) + 256 * (l2 + l3 + 16 * (h2 + h3)) + 65536 * (l3 + 16 * h3)) + (h0 + h1 + h2 + h3)));
      unfold X; lia. }
  rewrite P1, P2. clear P1 P2 EX. clearbody X.
  replace ((l0 + 16 * h0 + 256 * (l0 + l1 + 16 * (h0 + h1)) + 65536 * (l0 + l1 + l2 + 16 * (h0 + h1 + h2)) +
    16777216 * (l0 + l1 + l2 + l3 + 16 * (h0 + h1 + h2 + h3))) / 268435456) with (h0 + h1 + h2 + h3).
  2:{ apply (N.div_unique _ _ _ (l0 + 16 * h0 + 256 * (l0 + l1 + 16 * (h0 + h1)) + 65536 * (l0 + l1 + l2 + 16 * (h0 + h1 + h2)) +
    16777216 * (l0 + l1 + l2 + l3))); lia. }
  replace (16 * (l0 + 16 * h0 + 256 * (l0 + l1 + 16 * (h0 + h1)) + 65536 * (l0 + l1 + l2 + 16 * (h0 + h1 + h2)) +
    16777216 * (l0 + l1 + l2 + l3)) / 268435456) with (l0 + l1 + l2 + l3).
  2:{ apply (N.div_unique _ _ _ (16 * (l0 + 16 * h0 + 256 * (l0 + l1 + 16 * (h0 + h1)) + 65536 * (l0 + l1 + l2 + 16 * (h0 + h1 + h2))))); lia. }
  rewrite N.mod_small; lia.
Qed.
