(** * C67: saving to and loading from files keeps values, in every history

    C66 extended with files: any program which constructs, copies, moves, swaps, destroys, saves and loads objects of a class.
    A file is a queue of values.  load may be called on an object with any previous content, also a moved-from one; it takes
    exactly the bytes which serialize wrote, so that several objects can follow each other in one file; and afterwards the
    supports answer for the loaded content. *)
From Coq Require Import List Bool Arith.
From Verif Require Import Base Life SpecLife LifeProofs LifeIO SpecLifeIO LifeIOProofs.
Import ListNotations.

Definition persistent (mk : forall (V : Type) (d : V) (left : V -> V) (pswap : bool), class V) (i : io) (allowed : forall V, op V -> bool) : Prop :=
  forall (V : Type) (d : V) (left : V -> V) (pswap : bool) (history : list (iop V)) (e : env V) (ar : archive V),
    let c := mk V d left pswap in
    (forall o, In (Op V o) history -> allowed V o = true) ->
    sems_io V (no_objects V, no_archive V) history = Some (e, ar) ->
    exists h fs, execs_io V c i (empty_heap V, no_files V) history = Some (h, fs) /\
      (forall n v, e n = Val V v ->
        (forall f, f < nf V c -> read V h n f = Some (v f)) /\
        (forall s f, nth_error (over V c) s = Some f -> query V h n s = Some (v f, v f))) /\
      (forall k, ar k = [] -> fs k = []).
Definition everything (V : Type) (o : op V) : bool := true.
Definition no_construction (V : Type) (o : op V) : bool := match o with CopyC _ _ _ | MoveC _ _ _ => false | _ => true end.
Definition no_move (V : Type) (o : op V) : bool := match o with MoveC _ _ _ | MoveA _ _ _ => false | _ => true end.

(** a program: two objects saved to one file, the first destroyed, the second moved from; both are loaded again, the first
    value into the moved-from object and the second one into the object which held the other value *)
Definition demo_v (k : nat) : nat -> nat := fun f => 10 * k + f.
Definition demo_io : list (iop nat) :=
  [Op _ (New _ 0 (demo_v 1)); Op _ (New _ 1 (demo_v 2)); Save _ 0 5; Save _ 1 5; Op _ (Del _ 0); Op _ (MoveC _ 2 1);
   Load _ 1 5; Op _ (CopyA _ 2 1); Load _ 2 5].
Definition val_at (e : option (env nat * archive nat)) n f :=
  match e with Some (e, _) => match e n with Val _ v => Some (v f) | _ => None end | None => None end.
Example C67_demo_meets :
  map (fun n => val_at (sems_io nat (no_objects nat, no_archive nat) demo_io) n 2) [0; 1; 2] = [None; Some 12; Some 22] /\
  option_map (fun st => (map (fun n => query nat (fst st) n 1) [0; 1; 2], snd st 5))
    (execs_io nat (c_wt_int nat 0 (fun _ => 99) false) io_wt_int (empty_heap nat, no_files nat) demo_io) =
    Some ([None; Some (12, 12); Some (22, 22)], []).
Proof. vm_compute. auto. Qed.

Ltac over_tac := cbn; let f := fresh in let F := fresh in intros f F; repeat (destruct F as [<-|F]; [auto 10 with arith|]); destruct F.
Ltac io_tac L := intros V d left pswap l e ar c _ S; apply (hist_io_all c); [reflexivity|ld_tac|apply L|over_tac|exact S].

Theorem C67_wt_int : persistent c_wt_int io_wt_int everything.
Proof. io_tac @wt_int_ok. Qed.
Print Assumptions C67_wt_int.
Theorem C67_wt_pc : persistent c_wt_pc io_wt_pc everything.
Proof. io_tac @wt_pc_ok. Qed.
Print Assumptions C67_wt_pc.
Theorem C67_wm_int : persistent c_wm_int io_wm_int everything.
Proof. io_tac @wm_int_ok. Qed.
Print Assumptions C67_wm_int.
Theorem C67_wt_rlmn : persistent c_wt_rlmn io_wt_rlmn everything.
Proof. io_tac @wt_rlmn_ok. Qed.
Print Assumptions C67_wt_rlmn.
Theorem C67_wt_gmr_rs : persistent c_wt_gmr_rs io_wt_gmr_rs everything.
Proof. io_tac @wt_gmr_rs_ok. Qed.
Print Assumptions C67_wt_gmr_rs.
Theorem C67_wt_ap : persistent c_wt_ap io_wt_ap everything.
Proof. io_tac @wt_ap_ok. Qed.
Print Assumptions C67_wt_ap.
Theorem C67_sd_vector : persistent c_sd_vector io_sd_vector everything.
Proof. io_tac @sd_vector_ok. Qed.
Print Assumptions C67_sd_vector.
Theorem C67_dac_vector : persistent c_dac_vector io_dac_vector everything.
Proof. io_tac @dac_vector_ok. Qed.
Print Assumptions C67_dac_vector.
Theorem C67_alphabet : persistent c_alphabet io_alphabet everything.
Proof. io_tac @alphabet_ok. Qed.
Print Assumptions C67_alphabet.
Theorem C67_text_order_sampling : persistent c_text_order io_text_order everything.
Proof. io_tac @text_order_ok. Qed.
Print Assumptions C67_text_order_sampling.
Theorem C67_fuzzy_sa_sampling : persistent c_fuzzy_sa io_fuzzy_sa everything.
Proof. io_tac @fuzzy_sa_ok. Qed.
Print Assumptions C67_fuzzy_sa_sampling.
Theorem C67_rmq_sada : persistent c_rmq_sada io_rmq_sada everything.
Proof. io_tac @rmq_sada_ok. Qed.
Print Assumptions C67_rmq_sada.
Theorem C67_rmq_sct : persistent c_rmq_sct io_rmq_sct everything.
Proof. io_tac @rmq_sct_ok. Qed.
Print Assumptions C67_rmq_sct.
Theorem C67_nearest_neighbour_dictionary : persistent c_nnd io_nnd everything.
Proof. io_tac @nnd_ok. Qed.
Print Assumptions C67_nearest_neighbour_dictionary.
Theorem C67_cst_sada : persistent c_cst_sada io_cst_sada everything.
Proof. io_tac @cst_sada_ok. Qed.
Print Assumptions C67_cst_sada.
Theorem C67_cst_sct3 : persistent c_cst_sct3 io_cst_sct3 everything.
Proof. io_tac @cst_sct3_ok. Qed.
Print Assumptions C67_cst_sct3.
Theorem C67_cst_fully : persistent c_cst_fully io_cst_fully everything.
Proof. io_tac @cst_fully_ok. Qed.
Print Assumptions C67_cst_fully.
Theorem C67_csa_isa_sampling : persistent c_csa_isa io_csa_isa everything.
Proof. io_tac @csa_isa_ok. Qed.
Print Assumptions C67_csa_isa_sampling.
Theorem C67_inv_perm_support : persistent c_inv_perm io_inv_perm everything.
Proof. io_tac @inv_perm_ok. Qed.
Print Assumptions C67_inv_perm_support.
Theorem C67_inv_multi_perm_support : persistent c_inv_multi_perm io_inv_multi_perm everything.
Proof. io_tac @inv_multi_perm_ok. Qed.
Print Assumptions C67_inv_multi_perm_support.
Theorem C67_bp_support_g : persistent c_bp_g io_bp_g everything.
Proof. io_tac @bp_g_ok. Qed.
Print Assumptions C67_bp_support_g.

(** wt_gmr without copy construction, whose defect C66_wt_gmr_refuted shows; a copy made by saving and loading is right *)
Theorem C67_wt_gmr_partial : persistent c_wt_gmr io_wt_gmr no_construction.
Proof.
  intros V d left pswap l e ar c A S. apply (hist_io c io_wt_gmr); [reflexivity|ld_tac| |over_tac|exact S].
  apply Forall_forall. intros o I. destruct o as [o|n k|n k]; try exact Logic.I. specialize (A o I).
  destruct o; try discriminate A; cbn [iop_ok op_ok]; try exact Logic.I.
  - apply gm_ca.
  - apply ma_ca, gm_ca.
  - split; [apply (gm_sw_ok d)|apply ss_guard].
Qed.
Print Assumptions C67_wt_gmr_partial.
(** csa_wt and csa_sada with an inverse sampling which points to the samples, without moving: C66_csa_refuted *)
Theorem C67_csa_partial : persistent c_csa io_csa no_move.
Proof.
  intros V d left pswap l e ar c A S. apply (hist_io c io_csa); [reflexivity|ld_tac| |over_tac|exact S].
  apply Forall_forall. intros o I. destruct o as [o|n k|n k]; try exact Logic.I. specialize (A o I).
  destruct o; try discriminate A; cbn [iop_ok op_ok]; try exact Logic.I.
  - apply csa_cc.
  - apply csa_ca.
  - split; [apply csa_sw|apply ss_guard].
Qed.
Print Assumptions C67_csa_partial.
