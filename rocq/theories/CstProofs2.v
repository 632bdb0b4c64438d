(** * The construction of the parentheses and of the first-child vector *)
From Coq Require Import NArith ZArith List Bool Arith Lia.
From Verif Require Import Base SpecBits SpecBp SpecRmq AbsVec RankSelect WtBase WtProofs Bp BpRmq BpRmqProofs5 BpRmqProofs6 BpRmqProofs7 RmqSadaProofs Cst CstProofs.
Import ListNotations.
Open Scope nat_scope.

Section F.
Variable v : list N.
Local Notation n := (length v).
Local Notation av := (av v).
Local Notation lt := (ilt true v).
Local Notation pos := (spos lt).
Local Notation d := (depth lt).
Local Notation zi := (zi v).
Local Notation ns := (ns v).
Hypothesis A0 : av 0 = 0%N.
Definition firstb (k : nat) : bool := match popw lt k (stk lt k) with [] => true | p :: _ => negb (N.eqb (av k) (av p)) end.
Lemma firstb_ok : forall k, firstb k = true <-> first v k.
Proof.
  intros k. unfold firstb, first. destruct k as [|k]. { split; auto. intros _ p (P & _). lia. }
  destruct (pe_ex v A0 (S k) ltac:(lia)) as (p & P). rewrite (pe_pop v p _ P). split.
  - intros H p' P'. rewrite (pe_uniq v p' p _ P' P). apply negb_true_iff, N.eqb_neq in H. destruct P as (_ & L & _). lia.
  - intros H. specialize (H p P). apply negb_true_iff, N.eqb_neq. lia.
Qed.
Lemma popw_suffix : forall i st, exists q, st = q ++ popw lt i st.
Proof. intros i. induction st as [|j st IH]; cbn [popw]; [exists []; auto|]. destruct (lt i j); [|exists []; auto]. destruct IH as (q & E). exists (j :: q). cbn [app]. rewrite <- E. auto. Qed.
Lemma stk_chain : forall i pre j rest, stk lt i = pre ++ j :: rest -> rest = popw lt j (stk lt j).
Proof.
  induction i; intros pre j rest E; cbn [stk] in E. { destruct pre; discriminate. }
  destruct pre as [|x pre]; cbn [app] in E; injection E as E1 E2. { subst j. auto. }
  destruct (popw_suffix i (stk lt i)) as (q & Q). rewrite E2 in Q. rewrite app_assoc in Q. exact (IHi _ _ _ Q).
Qed.
Definition cnt1 (l : list bool) : nat := length (filter (fun b => b) l).
Lemma cnt1_app : forall a b, cnt1 (a ++ b) = cnt1 a + cnt1 b.
Proof. intros. unfold cnt1. rewrite filter_app, app_length. auto. Qed.
Lemma mpop_ok : forall i pre j rest, stk lt i = pre ++ j :: rest -> mpop_result (map av (j :: rest)) = firstb j.
Proof.
  intros i pre j rest E. pose proof (stk_chain _ _ _ _ E) as C. unfold firstb. rewrite <- C. cbn [map mpop_result]. destruct rest; cbn [map]; auto.
Qed.
Lemma rep_S : forall k, repeat false (S k) = [false] ++ repeat false k.
Proof. reflexivity. Qed.
Lemma fc_pops_ok : forall i r st pre k cnt out, stk lt i = pre ++ st ->
  let m := length st - length (popw lt i st) in let o := map firstb (firstn m st) in
  fc_pops (av i) (map av st) k (length out) cnt (out ++ repeat false (length st + r)) =
  Some (map av (popw lt i st), k + m, length (out ++ o), cnt + cnt1 o, (out ++ o) ++ repeat false (length (popw lt i st) + r)).
Proof.
  intros i r. induction st as [|j st IH]; intros pre k cnt out E; cbn zeta.
  { cbn [map fc_pops popw length firstn Nat.sub]. rewrite app_nil_r, !Nat.add_0_r. reflexivity. }
  pose proof (mpop_ok _ _ _ _ E) as MP. cbn [map fc_pops] in *. cbn [popw]. pose proof (popw_len lt i st) as PL.
  change (N.ltb (av i) (av j)) with (lt i j). destruct (lt i j) eqn:L.
  - rewrite MP. cbn [length]. replace (S (length st) - length (popw lt i st)) with (S (length st - length (popw lt i st))) by lia. cbn [firstn map].
    assert (E' : stk lt i = (pre ++ [j]) ++ st) by (rewrite <- app_assoc; exact E). specialize (IH (pre ++ [j])). cbn [Nat.add].
    destruct (firstb j) eqn:FB.
    + rewrite aset_app. cbn [obind]. specialize (IH (k + 1) (cnt + 1) (out ++ [true]) E'). cbn zeta in IH. rewrite app_length in IH. cbn [length] in IH.
      rewrite IH. rewrite <- !app_assoc. cbn [app]. unfold cnt1. cbn [filter length]. rewrite <- !Nat.add_assoc. reflexivity.
    + specialize (IH (k + 1) cnt (out ++ [false]) E'). cbn zeta in IH. rewrite app_length in IH. cbn [length] in IH. rewrite rep_S, app_assoc.
      rewrite IH. rewrite <- !app_assoc. cbn [app]. unfold cnt1. cbn [filter length]. rewrite <- !Nat.add_assoc. reflexivity.
  - rewrite Nat.sub_diag. cbn [firstn map cnt1 filter length]. rewrite app_nil_r, !Nat.add_0_r. reflexivity.
Qed.
Lemma fc_close_ok : forall i st pre cnt out, stk lt i = pre ++ st ->
  fc_close (map av st) (length out) cnt (out ++ repeat false (length st)) = Some (cnt + cnt1 (map firstb st), out ++ map firstb st).
Proof.
  intros i. induction st as [|j st IH]; intros pre cnt out E. { cbn. rewrite Nat.add_0_r, app_nil_r. reflexivity. }
  pose proof (mpop_ok _ _ _ _ E) as MP. cbn [map fc_close length] in *. rewrite MP.
  assert (E' : stk lt i = (pre ++ [j]) ++ st) by (rewrite <- app_assoc; exact E). destruct (firstb j) eqn:FB.
  - rewrite aset_app. cbn [obind]. specialize (IH _ (cnt + 1) (out ++ [true]) E'). rewrite app_length in IH. cbn [length] in IH. rewrite IH, <- app_assoc. cbn [app]. unfold cnt1. cbn [filter length]. do 2 f_equal. lia.
  - specialize (IH _ cnt (out ++ [false]) E'). rewrite app_length in IH. cbn [length] in IH. rewrite rep_S, app_assoc, IH, <- app_assoc. cbn [app]. unfold cnt1. cbn [filter length]. reflexivity.
Qed.
(** the bits written so far *)
Definition outok (i : nat) (out : list bool) : Prop := length out = i - length (stk lt i) /\ forall k, k < n -> ns k < i -> nth (zi k) out false = firstb k.
Lemma out_step : forall i out, outok i out -> i < n -> let m := length (stk lt i) - d i in outok (S i) (out ++ map firstb (firstn m (stk lt i))).
Proof.
  intros i out (H1 & H2) I m. pose proof (stk_len lt i) as SL. pose proof (popw_len lt i (stk lt i)) as PL. fold (d i) in PL. split.
  - rewrite app_length, map_length, firstn_length. cbn [stk length]. fold (d i). unfold m. lia.
  - intros k K L. destruct (Nat.eq_dec (ns k) i) as [E|NE].
    + destruct (ns_spec v k K) as (S1 & S2 & S3). destruct (stk_above lt k i) as (pre & EQ & _); [intros x X; apply lt_f, S2; lia|lia|].
      assert (LE : length (stk lt i) = length pre + S (d k)). { rewrite EQ, app_length. reflexivity. }
      pose proof (d_pop v A0 k K ltac:(lia)) as DP. rewrite E in DP. assert (ZE : zi k = length out + length pre) by (unfold CstProofs.zi; rewrite H1, E; lia).
      rewrite ZE, app_nth2 by lia. replace (length out + length pre - length out) with (length pre) by lia.
      rewrite (nth_indep _ false (firstb 0)) by (rewrite map_length, firstn_length; unfold m; lia). rewrite map_nth. f_equal.
      assert (F : nth (length pre) (firstn m (stk lt i)) 0 = nth (length pre) (stk lt i) 0).
      { rewrite <- (firstn_skipn m (stk lt i)) at 2. rewrite app_nth1; auto. rewrite firstn_length. unfold m. lia. }
      rewrite F, EQ, app_nth2, Nat.sub_diag by lia. reflexivity.
    + rewrite app_nth1; [apply H2; lia|]. pose proof (zi_hi v A0 k K ltac:(lia)) as Z. rewrite H1. pose proof (mono_d v A0 (ns k) (i - 1) ltac:(lia)) as MD. destruct i; [lia|]. replace (S i - 1) with i in MD by lia. cbn [stk length]. fold (d i). lia.
Qed.
Hypothesis SMALL : forall k, k < n -> (av k <= N.of_nat n)%N.
Lemma n64 : n < 64 * (n / 64 + 1).
Proof. pose proof (Nat.mod_upper_bound n 64 ltac:(discriminate)). pose proof (Nat.div_mod n 64 ltac:(discriminate)). lia. Qed.
Lemma fc_loop_ok : forall m i bp out, i + m = n -> bits true v bp i -> outok i out ->
  exists bp' out', fc_loop n (skipn i v) (map av (stk lt i)) (2 * i - length (stk lt i)) (length out) (cnt1 out) bp (out ++ repeat false (length (stk lt i) + (n - i))) =
    Some (map av (stk lt n), length out', cnt1 out', bp', out' ++ repeat false (length (stk lt n))) /\ bits true v bp' n /\ outok n out'.
Proof.
  induction m; intros i bp out L HB HO.
  - replace i with n in * by lia. rewrite skipn_all. cbn [fc_loop]. exists bp, out. split; auto. rewrite Nat.sub_diag, Nat.add_0_r. reflexivity.
  - assert (I : i < n) by lia. assert (SK : skipn i v = av i :: skipn (S i) v).
    { unfold CstProofs.av. clear - I. revert i I. induction v as [|x l IH]; intros i I; cbn [length] in I; [lia|]. destruct i; [reflexivity|]. cbn [skipn nth]. rewrite IH by lia. reflexivity. }
    rewrite SK. cbn [fc_loop]. rewrite (fc_pops_ok i (n - i) (stk lt i) [] _ _ out eq_refl). cbn [obind]. fold (d i). set (mm := length (stk lt i) - d i). set (o := map firstb (firstn mm (stk lt i))).
    assert (MP : mpush n (map av (popw lt i (stk lt i))) (av i) = Some (map av (stk lt (S i)))).
    { unfold mpush. rewrite (proj2 (N.leb_le _ _)) by (apply SMALL; lia). rewrite map_length. fold (d i). rewrite (proj2 (Nat.ltb_lt _ _)) by (pose proof n64; pose proof (depth_le lt i); lia). cbn [andb].
      assert (TT : forall st, match map av (popw lt i st) with [] => true | t :: _ => N.leb t (av i) end = true).
      { induction st as [|j st IH]; cbn [popw map]; auto. destruct (lt i j) eqn:E; auto. cbn [map]. apply N.leb_le. apply lt_f in E. exact E. }
      rewrite TT. reflexivity. }
    rewrite MP. cbn [obind]. destruct (bits_S true v bp i I HB) as (E1 & E2).
    assert (KE : 2 * i - length (stk lt i) + mm = spos lt i). { unfold spos, mm. pose proof (stk_len lt i). pose proof (popw_len lt i (stk lt i)) as PL. fold (d i) in PL. lia. }
    rewrite KE, E1. cbn [obind]. pose proof (out_step i out HO I) as HO'. cbn zeta in HO'. fold mm in HO'. fold o in HO'.
    destruct (IHm (S i) _ (out ++ o) ltac:(lia) E2 HO') as (bp' & out' & R & R2). exists bp', out'. split; [|exact R2]. rewrite <- R. rewrite cnt1_app. cbn [stk length]. fold (d i).
    f_equal; [unfold spos; pose proof (depth_le lt i); lia|]. f_equal. f_equal. lia.
Qed.
Theorem sct_fc_ok : exists cnt bp fc, sct_fc v = Some (cnt, bp, fc) /\ bits true v bp n /\ length fc = n /\ (forall k, k < n -> nth (zi k) fc false = firstb k) /\ cnt = cnt1 fc.
Proof.
  unfold sct_fc. destruct (fc_loop_ok n 0 (repeat false (2 * n)) [] eq_refl (bits_0 true v)) as (bp & out & R & RB & RO). { split; [reflexivity|]. intros; lia. }
  cbn [skipn stk map length app Nat.add] in R. rewrite Nat.sub_0_r in R. change (2 * 0 - 0) with 0 in R. change (2 * 0) with 0 in R. change (cnt1 []) with 0 in R. replace (n - 0) with n in R by lia. rewrite R. cbn [obind]. rewrite (fc_close_ok n (stk lt n) [] _ out eq_refl). cbn [obind fst snd].
  exists (cnt1 out + cnt1 (map firstb (stk lt n))), bp, (out ++ map firstb (stk lt n)). pose proof (stk_len lt n) as SL. destruct RO as (O1 & O2). split; auto. split; auto. split; [rewrite app_length, map_length; lia|]. split; [|rewrite cnt1_app; auto].
  intros k K. destruct (ns_spec v k K) as (S1 & S2 & S3). destruct (Nat.eq_dec (ns k) n) as [E|NE].
  - destruct (stk_above lt k n) as (pre & EQ & _); [intros x X; apply lt_f, S2; lia|lia|].
    assert (LE : length (stk lt n) = length pre + S (d k)). { rewrite EQ, app_length. reflexivity. }
    assert (ZE : zi k = length out + length pre) by (unfold CstProofs.zi; rewrite O1, E; lia).
    rewrite ZE, app_nth2 by lia. replace (length out + length pre - length out) with (length pre) by lia. rewrite (nth_indep _ false (firstb 0)) by (rewrite map_length; lia). rewrite map_nth, EQ, app_nth2, Nat.sub_diag by lia. reflexivity.
  - rewrite app_nth1; [apply O2; lia|]. pose proof (zi_hi v A0 k K ltac:(lia)) as Z. pose proof (mono_d v A0 (ns k) (n - 1) ltac:(lia)) as MD. rewrite O1.
    assert (SN : length (stk lt n) = S (d (n - 1))). { replace n with (S (n - 1)) at 1 by lia. reflexivity. } lia.
Qed.
End F.
