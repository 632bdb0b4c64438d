(** * C65: wt_gmr *)
From Coq Require Import NArith List Bool Arith Lia.
From Verif Require Import Base SpecBits FnArr RlmnProofs InvPerm MultiPerm Gmr Gmr2 Gmr2Proofs Gmr2Proofs2.
Import ListNotations.

(** the sequences the code supports: fewer than 2^64 symbols, every symbol below 2^63 (1ULL << (hi+1) is undefined otherwise) *)
Definition gmr_input (S : list nat) : Prop := (N.of_nat (length S) < W64)%N /\ forall c, In c S -> (N.of_nat c < 2 ^ 63)%N.

(** construction never meets undefined behaviour, and sigma is the number of distinct symbols; [ts] is the parameter of the
    inverse permutation support *)
Theorem C65_construct : forall ts S, 1 <= ts -> gmr_input S ->
  exists w, gm_make ts S = Some w /\ q_n w = length S /\ q_sigma w = length (nodup Nat.eq_dec S).
Proof.
  intros ts S TS (NW & SW). destruct (gm_make_ok ts S TS NW SW) as (ms & cs & bl & perm & ips & sigma & SM & MC & BP & BK & BN & PL & PP & IP & E & SG). exists (V S ms cs bl perm sigma ips). auto.
Qed.
Print Assumptions C65_construct.
(** operator[] returns the symbols of the sequence *)
Theorem C65_access : forall ts S w, 1 <= ts -> gmr_input S -> gm_make ts S = Some w -> forall i x, nth_error S i = Some x -> gm_get ts w i = Some x.
Proof.
  intros ts S w TS (NW & SW) M i x X. destruct (gm_make_ok ts S TS NW SW) as (ms & cs & bl & perm & ips & sigma & SM & MC & BP & BK & BN & PL & PP & IP & E & SG). rewrite E in M. injection M as <-. assert (I : i < length S) by (apply nth_error_Some; congruence). rewrite gm_get_ok by auto. unfold sy. rewrite (nth_error_nth _ _ _ X). reflexivity.
Qed.
Print Assumptions C65_access.
(** rank(i, c): the number of c among the first i symbols, for every i <= size() and every symbol, present or not *)
Theorem C65_rank : forall ts S w, 1 <= ts -> gmr_input S -> gm_make ts S = Some w ->
  forall i c, i <= length S -> gm_rank w i c = Some (count_occ Nat.eq_dec (firstn i S) c).
Proof.
  intros ts S w TS (NW & SW) M i c I. destruct (gm_make_ok ts S TS NW SW) as (ms & cs & bl & perm & ips & sigma & SM & MC & BP & BK & BN & PL & PP & IP & E & SG). rewrite E in M. injection M as <-. rewrite (gm_rank_ok S ms cs bl SM MC BP BK BN perm PL PP ts sigma ips IP) by auto. rewrite O_occ; auto.
Qed.
Print Assumptions C65_rank.
(** select(i, c): the position of the i-th c, for 1 <= i <= number of c *)
Theorem C65_select : forall ts S w, 1 <= ts -> gmr_input S -> gm_make ts S = Some w ->
  forall p c, nth_error S p = Some c -> gm_select w (count_occ Nat.eq_dec (firstn p S) c + 1) c = Some p.
Proof.
  intros ts S w TS (NW & SW) M p c X. destruct (gm_make_ok ts S TS NW SW) as (ms & cs & bl & perm & ips & sigma & SM & MC & BP & BK & BN & PL & PP & IP & E & SG). rewrite E in M. injection M as <-. assert (I : p < length S) by (apply nth_error_Some; congruence). rewrite <- O_occ by lia. replace c with (sy S p) by (unfold sy; apply nth_error_nth; auto). apply (gm_select_ok S ms cs bl SM MC BP BK BN perm PL PP ts sigma ips IP); auto.
Qed.
Print Assumptions C65_select.
(** inverse_select(i): (rank(i, S[i]), S[i]) *)
Theorem C65_inverse_select : forall ts S w, 1 <= ts -> gmr_input S -> gm_make ts S = Some w -> forall i x, nth_error S i = Some x ->
  gm_isel ts w i = Some (count_occ Nat.eq_dec (firstn i S) x, x).
Proof.
  intros ts S w TS (NW & SW) M i x X. destruct (gm_make_ok ts S TS NW SW) as (ms & cs & bl & perm & ips & sigma & SM & MC & BP & BK & BN & PL & PP & IP & E & SG). rewrite E in M. injection M as <-. assert (I : i < length S) by (apply nth_error_Some; congruence). rewrite gm_isel_ok by auto. rewrite O_occ by lia. replace (sy S i) with x by (unfold sy; symmetry; apply nth_error_nth; auto). reflexivity.
Qed.
Print Assumptions C65_inverse_select.

(** non-vacuity: 17 symbols in two chunks of 16, the second one short; and cells of 50 and more occurrences *)
Definition g2_S : list nat := [3; 1; 4; 1; 5; 9; 2; 6; 5; 3; 5; 8; 9; 7; 9; 0; 3].
Definition g2_L : list nat := repeat 2 40 ++ [7; 90] ++ repeat 2 100.
Example g2_hyp : gmr_input g2_S /\ gmr_input g2_L.
Proof.
  split; (split; [vm_compute; reflexivity|]); intros c C; assert (B : c <= 90); try (apply N.lt_trans with 100%N; [lia|reflexivity]).
  - unfold g2_S in C. cbn in C. lia.
  - unfold g2_L in C. apply in_app_or in C. destruct C as [C|C]; [apply repeat_spec in C; lia|]. apply in_app_or in C. destruct C as [C|C]; [cbn in C; lia|apply repeat_spec in C; lia].
Qed.
Definition g2_demo {X} (ts : nat) (S : list nat) (f : gmr2 -> X) : option X := let* w := gm_make ts S in Some (f w).
Example g2_shape : g2_demo 2 g2_S (fun w => (q_n w, q_ms w, q_cs w, q_ch w, q_sigma w, q_perm w)) =
  Some (17, 10, 16, 2, 10, [15; 1; 3; 6; 0; 9; 2; 4; 8; 10; 7; 13; 11; 5; 12; 14; 0]).
Proof. vm_compute. reflexivity. Qed.
Example g2_get : g2_demo 2 g2_S (fun w => map (gm_get 2 w) (seq 0 17)) = Some (map Some g2_S).
Proof. vm_compute. reflexivity. Qed.
Example g2_rank : g2_demo 2 g2_S (fun w => (map (fun i => gm_rank w i 9) [0; 5; 6; 12; 13; 15; 17], gm_rank w 17 10, gm_rank w 16 3, gm_rank w 17 3)) =
  Some ([Some 0; Some 0; Some 1; Some 1; Some 2; Some 3; Some 3], Some 0, Some 2, Some 3).
Proof. vm_compute. reflexivity. Qed.
Example g2_select : g2_demo 2 g2_S (fun w => (map (fun i => gm_select w i 9) [1; 2; 3], gm_select w 3 3, map (gm_isel 2 w) [0; 9; 16; 14])) =
  Some ([Some 5; Some 12; Some 14], Some 16, [Some (0, 3); Some (1, 3); Some (2, 3); Some (2, 9)]).
Proof. vm_compute. reflexivity. Qed.
Example g2_long : g2_demo 4 g2_L (fun w => (q_cs w, q_ch w, map (gm_get 4 w) [0; 40; 41; 42; 90; 127; 128; 141], gm_rank w 60 2, gm_rank w 142 2, gm_select w 41 2, gm_isel 4 w 80, gm_isel 4 w 40)) =
  Some (128, 2, [Some 2; Some 7; Some 90; Some 2; Some 2; Some 2; Some 2; Some 2], Some 58, Some 140, Some 42, Some (78, 2), Some (0, 7)).
Proof. vm_compute. reflexivity. Qed.
