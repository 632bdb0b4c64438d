(** * C60: the run-length wavelet tree wt_rlmn

    [byte] chooses the byte alphabet (symbols below 256) or the integer alphabet. *)
From Coq Require Import List Bool Arith Lia.
From Verif Require Import Base SpecBits Rlmn RlmnProofs.
Import ListNotations.

(** construction never meets undefined behaviour *)
Theorem C60_construct : forall byte S, (byte = true -> forall c, In c S -> c < 256) -> exists w, rl_make byte S = Some w /\ r_n w = length S.
Proof.
  intros byte S F. destruct S as [|x S]; [eexists; split; reflexivity|]. eexists. split; [apply (make_ok _ _ (slots_ok byte _ F) byte eq_refl); cbn; lia|reflexivity].
Qed.
Print Assumptions C60_construct.
(** operator[] returns the symbols of the sequence *)
Theorem C60_access : forall byte S w, (byte = true -> forall c, In c S -> c < 256) -> rl_make byte S = Some w ->
  forall i x, nth_error S i = Some x -> rl_get w i = Some x.
Proof.
  intros byte S w F E i x X. assert (I : i < length S) by (apply nth_error_Some; congruence). rewrite (made byte S w) by (first [assumption | destruct S; [cbn in I; lia|discriminate]]). rewrite (get_ok _ _ (slots_ok byte _ F)) by auto. unfold sy. rewrite (nth_error_nth _ _ _ X). reflexivity.
Qed.
Print Assumptions C60_access.
(** rank(i, c): the number of c among the first i symbols, for every i <= size() and every symbol, present or not *)
Theorem C60_rank : forall byte S w, (byte = true -> forall c, In c S -> c < 256) -> rl_make byte S = Some w ->
  forall i c, i <= length S -> rl_rank w i c = Some (count_occ Nat.eq_dec (firstn i S) c).
Proof.
  intros byte S w F E i c I. destruct S as [|x S]; [cbn in I; replace i with 0 by lia; reflexivity|]. rewrite (made byte (x :: S) w ltac:(discriminate) F E). rewrite (rank_ok _ _ (slots_ok byte _ F)) by auto. rewrite O_occ; auto.
Qed.
Print Assumptions C60_rank.
(** select(i, c): the position of the i-th c, for 1 <= i <= number of c *)
Theorem C60_select : forall byte S w, (byte = true -> forall c, In c S -> c < 256) -> rl_make byte S = Some w ->
  forall p c, nth_error S p = Some c -> rl_select w (count_occ Nat.eq_dec (firstn p S) c + 1) c = Some p.
Proof.
  intros byte S w F E p c X. assert (P : p < length S) by (apply nth_error_Some; congruence). rewrite (made byte S w) by (first [assumption | destruct S; [cbn in P; lia|discriminate]]). rewrite <- O_occ by lia. replace c with (sy S p) by (unfold sy; apply nth_error_nth; auto). apply select_ok; auto. apply slots_ok. auto.
Qed.
Print Assumptions C60_select.
(** inverse_select(i): (rank(i, S[i]), S[i]) *)
Theorem C60_inverse_select : forall byte S w, (byte = true -> forall c, In c S -> c < 256) -> rl_make byte S = Some w ->
  forall i x, nth_error S i = Some x -> rl_isel w i = Some (count_occ Nat.eq_dec (firstn i S) x, x).
Proof.
  intros byte S w F E i x X. assert (I : i < length S) by (apply nth_error_Some; congruence). rewrite (made byte S w) by (first [assumption | destruct S; [cbn in I; lia|discriminate]]). rewrite (isel_ok _ _ (slots_ok byte _ F)) by auto. rewrite O_occ by lia. replace (sy S i) with x by (unfold sy; symmetry; apply nth_error_nth; auto). reflexivity.
Qed.
Print Assumptions C60_inverse_select.

Definition rl_S : list nat := [3; 3; 3; 1; 1; 3; 0; 0; 0; 5; 5; 1; 3].
Example rl_demo_hyp : (forall c, In c rl_S -> c < 256) /\ rl_S <> [].
Proof. split; [|discriminate]. intros c C. apply Nat.ltb_lt. cbn in C. repeat (destruct C as [<- | C]; [reflexivity|]). destruct C. Qed.
Definition rl_demo {X} (byte : bool) (f : rlmn -> X) : option X := let* w := rl_make byte rl_S in Some (f w).
Example rl_demo_vectors : rl_demo false (fun w => (r_wt w, r_C w, r_Cbf w)) = Some ([3; 1; 3; 0; 5; 1; 3], [0; 3; 6; 6; 11; 11], [0; 1; 3; 3; 6; 6]).
Proof. vm_compute. reflexivity. Qed.
Example rl_demo_get : forall byte, rl_demo byte (fun w => map (rl_get w) (seq 0 13)) = Some (map Some rl_S).
Proof. intros []; vm_compute; reflexivity. Qed.
Example rl_demo_rank : forall byte, rl_demo byte (fun w => (map (fun i => rl_rank w i 3) [0; 2; 4; 6; 12; 13], map (fun i => rl_rank w i 4) [0; 2; 13], map (fun i => rl_rank w i 1) [3; 4; 5; 12; 13])) =
  Some ([Some 0; Some 2; Some 3; Some 4; Some 4; Some 5], [Some 0; Some 0; Some 0], [Some 0; Some 1; Some 2; Some 3; Some 3]).
Proof. intros []; vm_compute; reflexivity. Qed.
Example rl_demo_select : forall byte, rl_demo byte (fun w => (map (fun i => rl_select w i 3) [1; 3; 4; 5], rl_select w 2 5, rl_isel w 12, rl_isel w 7)) =
  Some ([Some 0; Some 2; Some 5; Some 12], Some 10, Some (4, 3), Some (1, 0)).
Proof. intros []; vm_compute; reflexivity. Qed.
