(** * cst_sct3 built from an LCP array *)
From Coq Require Import NArith ZArith List Bool Arith Lia.
From Verif Require Import Base SpecBits SpecBp AbsVec RankSelect WtBase WtProofs Bp BpRmq BpProofs BpProofs3 BpRmqProofs5 BpRmqProofs6 SpecCst Cst CstProofs CstProofs2 CstProofs3 CstProofs5 CstProofs4.
Import ListNotations.
Open Scope nat_scope.

Lemma cnt1_rank : forall l, cnt1 l = rank_of (t_bit l) (length l).
Proof.
  induction l as [|b l IH] using rev_ind; [reflexivity|]. rewrite cnt1_app, app_length. cbn [length]. rewrite Nat.add_1_r, rank_of_S. unfold t_bit at 2. rewrite app_nth2, Nat.sub_diag by lia. cbn [nth]. rewrite IH. f_equal.
  - apply rank_of_ext. intros q Q. unfold t_bit. rewrite app_nth1; auto.
  - destruct b; reflexivity.
Qed.
Lemma zero_cnt0 : forall v, zero_count v = cnt0 v (length v).
Proof.
  intros v. unfold zero_count, cnt0. assert (X : forall w s, (forall q, q < length w -> nth (s + q) v 0%N = nth q w 0%N) -> length (filter (fun x => N.eqb x 0) w) = length (filter (fun x => N.eqb (av v x) 0) (seq s (length w)))).
  { induction w as [|x w IH]; intros s H; [reflexivity|]. cbn [length seq filter]. pose proof (H 0 ltac:(cbn; lia)) as H0. rewrite Nat.add_0_r in H0. cbn [nth] in H0. unfold av at 1. rewrite H0.
    assert (IH' := IH (S s) ltac:(intros q Q; specialize (H (S q) ltac:(cbn [length]; lia)); cbn [nth] in H; rewrite <- H; f_equal; lia)). destruct (N.eqb x 0); cbn [length]; lia. }
  apply X. intros; auto.
Qed.
Section M.
Variables B deg : nat.
Hypothesis HB0 : 0 < B.
Hypothesis Hd : 2 <= deg.
Variable A : list N.
Variable sa : list nat.
Hypothesis OK : lcp_ok A.
Definition setup (c : cst) (bp : list bool) (t : bps) (fc : list bool) (nodes : nat) : Prop :=
  c = mkcst bp t fc nodes (cnt0 A (length A)) sa A /\ bits true A bp (length A) /\ bp_make B deg bp = Some t /\ length fc = length A /\ (forall k, k < length A -> nth (zi A k) fc false = firstb A k) /\
  nodes = (if length A =? 1 then 1 else length A + rank_of (t_bit fc) (length A)).
Lemma make_some : exists c bp t fc nodes, cst_make B deg A (zero_count A) sa = Some c /\ setup c bp t fc nodes.
Proof.
  destruct OK as (N0 & A0 & A1 & SM). destruct (sct_fc_ok A A0) as (cnt & bp & fc & E & BI & FL & FB & CN). { intros k K. rewrite Forall_forall in SM. apply SM. apply nth_In. auto. }
  unfold cst_make. rewrite E. cbn [obind]. pose proof (bp_len A bp BI) as BL. assert (NE : bp <> []) by (intros ->; cbn in BL; lia).
  destruct (make_ok (fun _ => false) B deg bp HB0 ltac:(lia) NE) as (t & h & T & _). rewrite T. cbn [obind]. eexists _, bp, t, fc, _. split; [reflexivity|]. rewrite zero_cnt0. split; auto. split; auto. split; auto. split; auto. split; auto.
  rewrite BL, CN, cnt1_rank, FL. replace (2 * length A / 2) with (length A) by (rewrite Nat.mul_comm, Nat.div_mul; auto). destruct (Nat.eqb_spec (2 * length A) 2), (Nat.eqb_spec (length A) 1); lia.
Qed.
Lemma make_setup : forall c, cst_make B deg A (zero_count A) sa = Some c -> exists bp t fc nodes, setup c bp t fc nodes.
Proof. intros c E. destruct make_some as (c' & bp & t & fc & nodes & E' & S). rewrite E in E'. injection E' as <-. eauto. Qed.
End M.
