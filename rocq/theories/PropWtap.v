(** * C62: the alphabet-partitioned wavelet tree wt_ap *)
From Coq Require Import List Bool Arith Lia.
From Verif Require Import Base SpecBits FnArr Wtap WtapProofs.
Import ListNotations.

(** construction never meets undefined behaviour, sigma is the number of distinct symbols, and for 64-bit symbols every
    class is below 256, so that the 8-bit class vectors store every class exactly *)
Theorem C62_construct : forall S, exists w, ap_make S = Some w /\ ap_n w = length S /\ ap_sigma w = length (nodup Nat.eq_dec S) /\
  ((forall c, In c S -> c < 2 ^ 64) -> Forall (fun k => k < 256) (ap_c2c w ++ ap_class w)).
Proof.
  intros S. destruct (make_ok S) as (mx & sigma & single & cnt & F & SC & FC & FU & FN & E & SI & SN & CN). exists (W S mx sigma single cnt F).
  assert (SG : sigma = length (nodup Nat.eq_dec S)) by (rewrite SI; apply npos_nodup; intros c C; apply FC; auto).
  split; [exact E|]. split; [reflexivity|]. split; [exact SG|]. intros B. pose proof (cnt_small S sigma single cnt SG SN CN B) as CS. apply Forall_app. cbn [W ap_c2c ap_class]. split; apply Forall_forall; intros k K; unfold farr in K; apply in_map_iff in K; destruct K as (c & <- & C).
  - apply in_seq in C. destruct (in_dec Nat.eq_dec c S) as [Y|N]; [destruct (FC c Y); lia|rewrite FN by (auto; lia); lia].
  - destruct (FC c C). lia.
Qed.
Print Assumptions C62_construct.
(** operator[] returns the symbols of the sequence *)
Theorem C62_access : forall S w, ap_make S = Some w -> forall i x, nth_error S i = Some x -> ap_get w i = Some x.
Proof.
  intros S w M i x X. destruct (make_ok S) as (mx & sigma & single & cnt & F & SC & FC & FU & FN & E & _). rewrite E in M. injection M as <-. assert (I : i < length S) by (apply nth_error_Some; congruence). rewrite get_ok by auto. rewrite (nth_error_nth _ _ _ X). reflexivity.
Qed.
Print Assumptions C62_access.
(** rank(i, c): the number of c among the first i symbols, for every i <= size() and every symbol, present or not *)
Theorem C62_rank : forall S w, ap_make S = Some w -> forall i c, i <= length S -> ap_rank w i c = Some (count_occ Nat.eq_dec (firstn i S) c).
Proof.
  intros S w M i c I. destruct (make_ok S) as (mx & sigma & single & cnt & F & SC & FC & FU & FN & E & _). rewrite E in M. injection M as <-. rewrite rank_ok by auto. rewrite R_occ; auto.
Qed.
Print Assumptions C62_rank.
(** select(i, c): the position of the i-th c, for 1 <= i <= number of c; size() for a symbol that does not occur *)
Theorem C62_select : forall S w, ap_make S = Some w ->
  (forall p c, nth_error S p = Some c -> ap_select w (count_occ Nat.eq_dec (firstn p S) c + 1) c = Some p) /\
  (forall i c, ~ In c S -> ap_select w i c = Some (length S)).
Proof.
  intros S w M. destruct (make_ok S) as (mx & sigma & single & cnt & F & SC & FC & FU & FN & E & _). rewrite E in M. injection M as <-. split.
  - intros p c X. assert (P : p < length S) by (apply nth_error_Some; congruence). rewrite <- R_occ by lia. replace c with (nth p S 0) by (apply nth_error_nth; auto). apply select_ok; auto.
  - intros i c N. unfold ap_select. rewrite class_of_out by auto. reflexivity.
Qed.
Print Assumptions C62_select.
(** inverse_select(i): (rank(i, S[i]), S[i]) *)
Theorem C62_inverse_select : forall S w, ap_make S = Some w -> forall i x, nth_error S i = Some x ->
  ap_isel w i = Some (count_occ Nat.eq_dec (firstn i S) x, x).
Proof.
  intros S w M i x X. destruct (make_ok S) as (mx & sigma & single & cnt & F & SC & FC & FU & FN & E & _). rewrite E in M. injection M as <-. assert (I : i < length S) by (apply nth_error_Some; congruence). rewrite isel_ok by auto. rewrite R_occ by lia. replace (nth i S 0) with x by (symmetry; apply nth_error_nth; auto). reflexivity.
Qed.
Print Assumptions C62_inverse_select.

Definition ap_S : list nat := [3; 1; 4; 1; 5; 9; 2; 6; 5; 3; 5; 8; 9; 7; 9].
Definition ap_demo {X} (f : wtap -> X) : option X := let* w := ap_make ap_S in Some (f w).
Example ap_demo_hyp : forall c, In c ap_S -> c < 2 ^ 64.
Proof. intros c C. apply Nat.lt_le_trans with (2 ^ 4); [|apply Nat.pow_le_mono_r; [discriminate|repeat constructor]]. apply Nat.ltb_lt. cbn in C. repeat (destruct C as [<- | C]; [reflexivity|]). destruct C. Qed.
Example ap_demo_shape : ap_demo (fun w => (ap_n w, ap_sigma w, ap_single w, ap_cnt w, ap_c2c w, ap_off w)) =
  Some (15, 9, 3, 5, [5; 3; 4; 2; 4; 1; 4; 4; 3; 0], [[0; 0; 1]; [1; 0; 2; 3]]).
Proof. vm_compute. reflexivity. Qed.
Example ap_demo_get : ap_demo (fun w => map (ap_get w) (seq 0 15)) = Some (map Some ap_S).
Proof. vm_compute. reflexivity. Qed.
Example ap_demo_rank : ap_demo (fun w => (map (fun i => ap_rank w i 1) [0; 1; 2; 3; 4; 15], map (fun i => ap_rank w i 9) [5; 6; 14; 15], map (fun i => ap_rank w i 7) [13; 14], ap_rank w 15 0, ap_rank w 15 100)) =
  Some ([Some 0; Some 0; Some 1; Some 1; Some 2; Some 2], [Some 0; Some 1; Some 2; Some 3], [Some 0; Some 1], Some 0, Some 0).
Proof. vm_compute. reflexivity. Qed.
Example ap_demo_select : ap_demo (fun w => (map (fun i => ap_select w i 9) [1; 2; 3], ap_select w 2 1, ap_select w 1 7, ap_select w 1 0, ap_select w 4 100, ap_isel w 12, ap_isel w 13, ap_isel w 3)) =
  Some ([Some 5; Some 12; Some 14], Some 3, Some 13, Some 15, Some 15, Some (1, 9), Some (0, 7), Some (1, 1)).
Proof. vm_compute. reflexivity. Qed.
