(** * C63: wt_gmr_rs *)
From Coq Require Import List Bool Arith Lia.
From Verif Require Import Base SpecBits FnArr RlmnProofs Gmr GmrProofs GmrProofs2.
Import ListNotations.

(** construction never meets undefined behaviour, and sigma is the number of distinct symbols *)
Theorem C63_construct : forall S, exists w, gmr_make S = Some w /\ g_n w = length S /\ g_sigma w = length (nodup Nat.eq_dec S).
Proof.
  intros S. destruct (make_ok S) as (bs & bl & sigma & e & SM & BP & BK & BN & EL & EP & E & SG). exists (W S bs bl e sigma). auto.
Qed.
Print Assumptions C63_construct.
(** operator[] returns the symbols of the sequence *)
Theorem C63_access : forall S w, gmr_make S = Some w -> forall i x, nth_error S i = Some x -> gmr_get w i = Some x.
Proof.
  intros S w M i x X. destruct (make_ok S) as (bs & bl & sigma & e & SM & BP & BK & BN & EL & EP & E & SG). rewrite E in M. injection M as <-. assert (I : i < length S) by (apply nth_error_Some; congruence). rewrite get_ok by auto. unfold sy. rewrite (nth_error_nth _ _ _ X). reflexivity.
Qed.
Print Assumptions C63_access.
(** rank(i, c): the number of c among the first i symbols, for every i <= size() and every symbol, present or not *)
Theorem C63_rank : forall S w, gmr_make S = Some w -> forall i c, i <= length S -> gmr_rank w i c = Some (count_occ Nat.eq_dec (firstn i S) c).
Proof.
  intros S w M i c I. destruct (make_ok S) as (bs & bl & sigma & e & SM & BP & BK & BN & EL & EP & E & SG). rewrite E in M. injection M as <-. rewrite rank_ok by auto. rewrite O_occ; auto.
Qed.
Print Assumptions C63_rank.
(** select(i, c): the position of the i-th c, for 1 <= i <= number of c *)
Theorem C63_select : forall S w, gmr_make S = Some w ->
  forall p c, nth_error S p = Some c -> gmr_select w (count_occ Nat.eq_dec (firstn p S) c + 1) c = Some p.
Proof.
  intros S w M p c X. destruct (make_ok S) as (bs & bl & sigma & e & SM & BP & BK & BN & EL & EP & E & SG). rewrite E in M. injection M as <-. assert (I : p < length S) by (apply nth_error_Some; congruence). rewrite <- O_occ by lia. replace c with (sy S p) by (unfold sy; apply nth_error_nth; auto). apply select_ok; auto.
Qed.
Print Assumptions C63_select.
(** inverse_select(i): (rank(i, S[i]), S[i]) *)
Theorem C63_inverse_select : forall S w, gmr_make S = Some w -> forall i x, nth_error S i = Some x ->
  gmr_isel w i = Some (count_occ Nat.eq_dec (firstn i S) x, x).
Proof.
  intros S w M i x X. destruct (make_ok S) as (bs & bl & sigma & e & SM & BP & BK & BN & EL & EP & E & SG). rewrite E in M. injection M as <-. assert (I : i < length S) by (apply nth_error_Some; congruence). rewrite isel_ok by auto. rewrite O_occ by lia. replace (sy S i) with x by (unfold sy; symmetry; apply nth_error_nth; auto). reflexivity.
Qed.
Print Assumptions C63_inverse_select.

Definition gm_S : list nat := [3; 1; 4; 1; 5; 9; 2; 6; 5; 3; 5; 8; 9; 7; 9; 0; 3].
Definition gm_demo {X} (S : list nat) (f : gmr -> X) : option X := let* w := gmr_make S in Some (f w).
Example gm_demo_shape : gm_demo gm_S (fun w => (g_n w, g_bs w, g_bl w, g_sigma w, g_e w)) = Some (17, 10, 2, 10, [5; 1; 3; 6; 0; 9; 6; 2; 4; 8; 0; 7; 3; 1; 5; 2; 4]).
Proof. vm_compute. reflexivity. Qed.
Example gm_demo_get : gm_demo gm_S (fun w => map (gmr_get w) (seq 0 17)) = Some (map Some gm_S).
Proof. vm_compute. reflexivity. Qed.
Example gm_demo_rank : gm_demo gm_S (fun w => (map (fun i => gmr_rank w i 9) [0; 5; 6; 10; 12; 13; 15; 17], gmr_rank w 17 10, gmr_rank w 10 3, gmr_rank w 17 3)) =
  Some ([Some 0; Some 0; Some 1; Some 1; Some 1; Some 2; Some 3; Some 3], Some 0, Some 2, Some 3).
Proof. vm_compute. reflexivity. Qed.
Example gm_demo_select : gm_demo gm_S (fun w => (map (fun i => gmr_select w i 9) [1; 2; 3], gmr_select w 3 3, map (gmr_isel w) [0; 9; 16; 14])) =
  Some ([Some 5; Some 12; Some 14], Some 16, [Some (0, 3); Some (1, 3); Some (2, 3); Some (2, 9)]).
Proof. vm_compute. reflexivity. Qed.
(** cells of 50 and more occurrences are searched by std::lower_bound and std::binary_search *)
Definition gm_L : list nat := repeat 2 40 ++ [7; 90] ++ repeat 2 70.
Example gm_demo_long : gm_demo gm_L (fun w => (g_bs w, g_bl w, map (gmr_get w) [0; 40; 41; 42; 90; 91; 111], gmr_rank w 60 2, gmr_rank w 112 2, gmr_select w 41 2, gmr_isel w 80, gmr_isel w 40)) =
  Some (91, 2, [Some 2; Some 7; Some 90; Some 2; Some 2; Some 2; Some 2], Some 58, Some 110, Some 42, Some (78, 2), Some (0, 7)).
Proof. vm_compute. reflexivity. Qed.
