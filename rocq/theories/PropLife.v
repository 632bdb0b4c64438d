(** * C66: structures behave like values under copying, moving, swapping and destruction

    For every program which constructs, copies, moves, assigns, swaps and destroys objects of a class, every living object
    with a specified value is read as that value: each data member has the content of the value, and each support answers
    with the data it was built with for, and on, that same content -- whatever happened to the other objects.  The contents
    are of an arbitrary type, std::move may leave anything behind, and the supports' own swap may or may not exchange the
    pointers. *)
From Coq Require Import List Bool Arith.
From Verif Require Import Base Life SpecLife LifeProofs.
Import ListNotations.

Definition value_like (mk : forall (V : Type) (d : V) (left : V -> V) (pswap : bool), class V) (allowed : forall V, op V -> bool) : Prop :=
  forall (V : Type) (d : V) (left : V -> V) (pswap : bool) (history : list (op V)) (e : env V),
    let c := mk V d left pswap in
    forallb (allowed V) history = true ->
    sems V (no_objects V) history = Some e ->
    exists h, execs V c (empty_heap V) history = Some h /\
      forall n v, e n = Val V v ->
        (forall f, f < nf V c -> read V h n f = Some (v f)) /\
        (forall s f, nth_error (over V c) s = Some f -> query V h n s = Some (v f, v f)).
Definition everything (V : Type) (o : op V) : bool := true.
Definition no_construction (V : Type) (o : op V) : bool := match o with CopyC _ _ _ | MoveC _ _ _ => false | _ => true end.
Definition no_move (V : Type) (o : op V) : bool := match o with MoveC _ _ _ | MoveA _ _ _ => false | _ => true end.

(** a program: two objects, a copy, the original is overwritten and the copy moved, swapped and its source destroyed *)
Definition demo_v (k : nat) : nat -> nat := fun f => 10 * k + f.
Definition demo_history : list (op nat) :=
  [New _ 0 (demo_v 1); New _ 1 (demo_v 2); CopyC _ 2 0; CopyA _ 0 1; MoveC _ 3 2; Del _ 2; Swap _ 3 1; MoveA _ 0 3; CopyA _ 3 1; Swap _ 0 0].
Definition demo_env := sems nat (no_objects nat) demo_history.
Definition val_at (e : option (env nat)) n f := match e with Some e => match e n with Val _ v => Some (v f) | _ => None end | None => None end.
Example C66_demo_meets :
  map (fun n => val_at demo_env n 2) [0; 1; 2; 3] = [Some 22; Some 12; None; Some 12] /\
  option_map (fun h => map (fun n => query nat h n 1) [0; 1; 2; 3]) (execs nat (c_wt_int nat 0 (fun _ => 99) false) (empty_heap nat) demo_history) =
    Some [Some (22, 22); Some (12, 12); None; Some (12, 12)].
Proof. vm_compute. auto. Qed.

Ltac value_tac L := intros V d left pswap l e c _ S; apply (hist_all c l e); [apply L|cbn; intros f F; repeat (destruct F as [<-|F]; [auto 10 with arith|]); destruct F|exact S].

Theorem C66_wt_int : value_like c_wt_int everything.
Proof. value_tac @wt_int_ok. Qed.
Print Assumptions C66_wt_int.
Theorem C66_wt_pc : value_like c_wt_pc everything.
Proof. value_tac @wt_pc_ok. Qed.
Print Assumptions C66_wt_pc.
Theorem C66_wm_int : value_like c_wm_int everything.
Proof. value_tac @wm_int_ok. Qed.
Print Assumptions C66_wm_int.
Theorem C66_wt_rlmn : value_like c_wt_rlmn everything.
Proof. value_tac @wt_rlmn_ok. Qed.
Print Assumptions C66_wt_rlmn.
Theorem C66_wt_gmr_rs : value_like c_wt_gmr_rs everything.
Proof. value_tac @wt_gmr_rs_ok. Qed.
Print Assumptions C66_wt_gmr_rs.
Theorem C66_sd_vector : value_like c_sd_vector everything.
Proof. value_tac @sd_vector_ok. Qed.
Print Assumptions C66_sd_vector.
Theorem C66_dac_vector : value_like c_dac_vector everything.
Proof. value_tac @dac_vector_ok. Qed.
Print Assumptions C66_dac_vector.
Theorem C66_dac_vector_dp : value_like c_dac_vector_dp everything.
Proof. value_tac @dac_vector_dp_ok. Qed.
Print Assumptions C66_dac_vector_dp.
Theorem C66_alphabet : value_like c_alphabet everything.
Proof. value_tac @alphabet_ok. Qed.
Print Assumptions C66_alphabet.
Theorem C66_text_order_sampling : value_like c_text_order everything.
Proof. value_tac @text_order_ok. Qed.
Print Assumptions C66_text_order_sampling.
Theorem C66_fuzzy_sa_sampling : value_like c_fuzzy_sa everything.
Proof. value_tac @fuzzy_sa_ok. Qed.
Print Assumptions C66_fuzzy_sa_sampling.
Theorem C66_rmq_sada : value_like c_rmq_sada everything.
Proof. value_tac @rmq_sada_ok. Qed.
Print Assumptions C66_rmq_sada.
Theorem C66_rmq_sct : value_like c_rmq_sct everything.
Proof. value_tac @rmq_sct_ok. Qed.
Print Assumptions C66_rmq_sct.
Theorem C66_nearest_neighbour_dictionary : value_like c_nnd everything.
Proof. value_tac @nnd_ok. Qed.
Print Assumptions C66_nearest_neighbour_dictionary.
Theorem C66_cst_sada : value_like c_cst_sada everything.
Proof. value_tac @cst_sada_ok. Qed.
Print Assumptions C66_cst_sada.
Theorem C66_cst_sct3 : value_like c_cst_sct3 everything.
Proof. value_tac @cst_sct3_ok. Qed.
Print Assumptions C66_cst_sct3.
Theorem C66_cst_fully : value_like c_cst_fully everything.
Proof. value_tac @cst_fully_ok. Qed.
Print Assumptions C66_cst_fully.
Theorem C66_csa_isa_sampling : value_like c_csa_isa everything.
Proof. value_tac @csa_isa_ok. Qed.
Print Assumptions C66_csa_isa_sampling.
Theorem C66_inv_perm_support : value_like c_inv_perm everything.
Proof. value_tac @inv_perm_ok. Qed.
Print Assumptions C66_inv_perm_support.
Theorem C66_inv_multi_perm_support : value_like c_inv_multi_perm everything.
Proof. value_tac @inv_multi_perm_ok. Qed.
Print Assumptions C66_inv_multi_perm_support.
Theorem C66_bp_support_g : value_like c_bp_g everything.
Proof. value_tac @bp_g_ok. Qed.
Print Assumptions C66_bp_support_g.
Theorem C66_wt_ap : value_like c_wt_ap everything.
Proof. value_tac @wt_ap_ok. Qed.
Print Assumptions C66_wt_ap.

(** wt_gmr: the copy constructor leaves m_ips pointing to the permutation of the original.  A copy whose original is
    destroyed reads freed memory; a copy whose original is assigned to inverts the wrong permutation *)
Theorem C66_wt_gmr_refuted : ~ value_like c_wt_gmr everything.
Proof.
  intros H.
  assert (Y : option_map (fun h => query nat h 1 0) (execs nat (c_wt_gmr nat 0 (fun x => x) true) (empty_heap nat) [New _ 0 (demo_v 1); CopyC _ 1 0; Del _ 0]) = Some None)
    by (vm_compute; reflexivity).
  destruct (H nat 0 (fun x => x) true [New _ 0 (demo_v 1); CopyC _ 1 0; Del _ 0] _ eq_refl eq_refl) as [h [X R]].
  rewrite X in Y. cbn [option_map] in Y. destruct (R 1 (demo_v 1) eq_refl) as [_ Q]. rewrite (Q 0 2 eq_refl) in Y. clear - Y. discriminate Y.
Qed.
Print Assumptions C66_wt_gmr_refuted.
Definition wrong_history : list (op nat) := [New _ 0 (demo_v 1); New _ 2 (demo_v 2); CopyC _ 1 0; CopyA _ 0 2].
Theorem C66_wt_gmr_wrong_answer :
  exists e h, sems nat (no_objects nat) wrong_history = Some e /\ e 1 = Val nat (demo_v 1) /\
    execs nat (c_wt_gmr nat 0 (fun x => x) true) (empty_heap nat) wrong_history = Some h /\
    nth_error (over nat (c_wt_gmr nat 0 (fun x => x) true)) 0 = Some 2 /\ demo_v 1 2 = 12 /\ query nat h 1 0 = Some (12, 22).
Proof.
  assert (Y : option_map (fun h => query nat h 1 0) (execs nat (c_wt_gmr nat 0 (fun x => x) true) (empty_heap nat) wrong_history) = Some (Some (12, 22)))
    by (vm_compute; reflexivity).
  destruct (execs nat (c_wt_gmr nat 0 (fun x => x) true) (empty_heap nat) wrong_history) as [h|]; [|discriminate].
  injection Y as Y. eexists _, h. repeat split. exact Y.
Qed.
Print Assumptions C66_wt_gmr_wrong_answer.
(** without copy construction (n = m and swap are right) *)
Theorem C66_wt_gmr_partial : value_like c_wt_gmr no_construction.
Proof.
  intros V d left pswap l e c A S. apply (hist c l e).
  - apply Forall_forall. intros o I. rewrite forallb_forall in A. specialize (A o I).
    destruct o; try discriminate A; cbn [op_ok]; try exact Logic.I.
    + apply gm_ca.
    + apply ma_ca, gm_ca.
    + split; [apply (gm_sw_ok d)|apply ss_guard].
  - cbn; intros f F; repeat (destruct F as [<-|F]; [auto 10 with arith|]); destruct F.
  - exact S.
Qed.
Print Assumptions C66_wt_gmr_partial.

(** csa_wt and csa_sada with text_order_isa_sampling_support or fuzzy_isa_sampling_support: the move assignment, and so the
    move constructor, leaves m_isa_sample pointing to the samples of the moved-from object *)
Theorem C66_csa_refuted : ~ value_like c_csa everything.
Proof.
  intros H.
  assert (Y : option_map (fun h => query nat h 1 0) (execs nat (c_csa nat 0 (fun x => x) true) (empty_heap nat) [New _ 0 (demo_v 1); MoveC _ 1 0; Del _ 0]) = Some None)
    by (vm_compute; reflexivity).
  destruct (H nat 0 (fun x => x) true [New _ 0 (demo_v 1); MoveC _ 1 0; Del _ 0] _ eq_refl eq_refl) as [h [X R]].
  rewrite X in Y. cbn [option_map] in Y. destruct (R 1 (demo_v 1) eq_refl) as [_ Q]. rewrite (Q 0 1 eq_refl) in Y. clear - Y. discriminate Y.
Qed.
Print Assumptions C66_csa_refuted.
Theorem C66_csa_partial : value_like c_csa no_move.
Proof.
  intros V d left pswap l e c A S. apply (hist c l e).
  - apply Forall_forall. intros o I. rewrite forallb_forall in A. specialize (A o I).
    destruct o; try discriminate A; cbn [op_ok]; try exact Logic.I.
    + apply csa_cc.
    + apply csa_ca.
    + split; [apply csa_sw|apply ss_guard].
  - cbn; intros f F; repeat (destruct F as [<-|F]; [auto 10 with arith|]); destruct F.
  - exact S.
Qed.
Print Assumptions C66_csa_partial.
