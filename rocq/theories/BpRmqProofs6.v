(** * rmq_succinct_sct *)
From Coq Require Import NArith ZArith List Bool Arith Lia.
From Verif Require Import Base SpecBits SpecBp SpecRmq AbsVec RankSelect WtBase WtProofs Bp BpProofs BpProofs2 BpProofs3 BpProofs4 BpProofs5 BpRmq BpRmqProofs BpRmqProofs2 BpRmqProofs3 BpRmqProofs4 BpRmqProofs5 CsaProofs2.
Import ListNotations.
Open Scope nat_scope.

Section C.
Variable tm : bool.
Variable v : list N.
Local Notation n := (length v).
Definition vlt (a b : N) : bool := if tm then N.ltb a b else N.ltb b a.
Definition ilt (i j : nat) : bool := vlt (nth i v 0%N) (nth j v 0%N).
Lemma vlt_better : forall a b, vlt a b = false <-> better tm b a.
Proof. intros a b. unfold vlt, better. destruct tm; apply N.ltb_ge. Qed.
Lemma ilt_trans : forall x y z, ilt x y = true -> ilt z y = false -> ilt x z = true.
Proof. intros x y z. unfold ilt, vlt. destruct tm; rewrite !N.ltb_lt, N.ltb_ge; lia. Qed.

Lemma vless_ok : forall i j, i < n -> j < n -> vless tm v i j = Some (ilt i j).
Proof. intros i j I J. unfold vless. rewrite (nth_error_nth' v 0%N I), (nth_error_nth' v 0%N J). reflexivity. Qed.
Lemma pops_ok : forall i st k, i < n -> Forall (fun j => j < n) st -> pops tm v i st k = Some (k + length st - length (popw ilt i st), popw ilt i st).
Proof.
  intros i. induction st as [|j st IH]; intros k I F; cbn [pops popw]. { cbn [length]. do 2 f_equal. lia. }
  inversion F; subst. rewrite vless_ok by auto. cbn [obind]. destruct (ilt i j).
  - rewrite IH by auto. pose proof (popw_len ilt i st). cbn [length]. do 2 f_equal. lia.
  - do 2 f_equal. cbn [length]. lia.
Qed.
Definition bits (bp : list bool) (i : nat) : Prop := length bp = 2 * n /\ forall p, p < 2 * n -> (nth p bp false = true <-> exists j, j < i /\ p = spos ilt j).
Lemma bits_0 : bits (repeat false (2 * n)) 0.
Proof. split; [apply repeat_length|]. intros p P. rewrite nth_repeat. split; [discriminate|intros (j & J & _); lia]. Qed.
Lemma bits_S : forall bp i, i < n -> bits bp i -> aset bp (spos ilt i) true = Some (Base.upd bp (spos ilt i) true) /\ bits (Base.upd bp (spos ilt i) true) (S i).
Proof.
  intros bp i I [L H]. assert (P : spos ilt i < 2 * n) by (unfold spos; lia). split; [apply aset_some; lia|]. split; [rewrite upd_length; auto|].
  intros p Q. destruct (Nat.eq_dec p (spos ilt i)) as [->|NE].
  - rewrite nth_upd_eq by lia. split; [intros _; exists i; split; [lia|auto]|auto].
  - rewrite nth_upd_neq by lia. rewrite H by lia. split; intros (j & J & E); exists j; (split; [|auto]); [lia|]. destruct (Nat.eq_dec j i); [congruence|lia].
Qed.
Lemma stk_n : forall i, i <= n -> Forall (fun j => j < n) (stk ilt i).
Proof. intros i I. apply (Forall_impl (P := fun j => j < i)); [lia|]. apply stk_lt. Qed.
Lemma pop_n : forall i, i <= n -> Forall (fun j => j < n) (popw ilt i (stk ilt i)).
Proof. intros i I. apply popw_lt, stk_n. exact I. Qed.
Lemma spush_ok : forall st x, x <= n -> Forall (fun j => j < x) st -> spush n st x = Some (x :: st).
Proof.
  intros st x X F. unfold spush. rewrite (proj2 (Nat.leb_le _ _)) by lia. destruct st as [|y st]; auto. inversion F; subst. rewrite (proj2 (Nat.ltb_lt _ _)) by lia. reflexivity.
Qed.
End C.

Lemma max_ok : forall v m i bp, i + m = length v -> bits false v bp i -> exists bp', sct_max v (seq i m) (2 * i - length (stk (ilt false v) i)) (stk (ilt false v) i) bp = Some bp' /\ bits false v bp' (length v).
Proof.
  intros v. set (lt := ilt false v). induction m; intros i bp E H; cbn [seq sct_max].
  { exists bp. split; auto. replace (length v) with i by lia. exact H. }
  rewrite (pops_ok false v) by (try lia; apply stk_n; lia). cbn [obind fst snd]. fold lt.
  rewrite (spush_ok v) by (try lia; apply popw_lt, stk_lt). cbn [obind].
  pose proof (stk_len lt i). pose proof (popw_len lt i (stk lt i)).
  replace (2 * i - length (stk lt i) + length (stk lt i) - length (popw lt i (stk lt i))) with (spos lt i) by (unfold spos, depth; lia).
  destruct (bits_S false v bp i ltac:(lia) H) as (A & H'). fold lt in A, H'. rewrite A. cbn [obind].
  replace (spos lt i + 1) with (2 * S i - length (stk lt (S i))) by (cbn [stk length]; unfold spos, depth; lia). change (i :: popw lt i (stk lt i)) with (stk lt (S i)).
  apply IHm; auto. lia.
Qed.
Lemma min_ok : forall v m i bp, 0 < i -> i + m = length v -> bits true v bp i ->
  exists bp', sct_min v (seq i m) (2 * i - length (stk (ilt true v) i)) (popw (ilt true v) (i - 1) (stk (ilt true v) (i - 1))) bp = Some bp' /\ bits true v bp' (length v).
Proof.
  intros v. set (lt := ilt true v). induction m; intros i bp I0 E H; cbn [seq sct_min].
  { exists bp. split; auto. replace (length v) with i by lia. exact H. }
  rewrite (vless_ok true v) by lia. cbn [obind]. fold lt.
  set (st := popw lt (i - 1) (stk lt (i - 1))). assert (SI : stk lt i = (i - 1) :: st). { destruct i; [lia|]. unfold st. replace (S i - 1) with i by lia. reflexivity. }
  pose proof (stk_len lt i) as SL. pose proof (popw_len lt i (stk lt i)) as PL.
  assert (X : (if lt i (i - 1) then pops true v i st (2 * i - length (stk lt i) + 1) else let* st0 := spush (length v) st (i - 1) in Some (2 * i - length (stk lt i), st0)) = Some (spos lt i, popw lt i (stk lt i))).
  { rewrite SI in *. unfold spos, depth. rewrite SI. cbn [popw] in *. destruct (lt i (i - 1)) eqn:LE.
    - rewrite (pops_ok true v) by (try lia; apply (pop_n true v); lia). fold lt. cbn [length] in *. do 2 f_equal. lia.
    - rewrite (spush_ok v). 2: lia. 2: apply popw_lt, stk_lt. cbn [obind]. cbn [length] in *. reflexivity. }
  rewrite X. cbn [obind fst snd]. destruct (bits_S true v bp i ltac:(lia) H) as (A & H'). fold lt in A, H'. rewrite A. cbn [obind].
  replace (spos lt i + 1) with (2 * S i - length (stk lt (S i))) by (cbn [stk length]; unfold spos, depth; lia).
  specialize (IHm (S i) (Base.upd bp (spos lt i) true) ltac:(lia) ltac:(lia) H'). replace (S i - 1) with i in IHm by lia. exact IHm.
Qed.
Theorem sct_bp_ok : forall tm v, exists bp, sct_bp tm v = Some bp /\ bits tm v bp (length v).
Proof.
  intros tm v. unfold sct_bp. pose proof (bits_0 tm v) as B0. destruct (Nat.eqb_spec (length v) 0) as [E|E]. { exists (repeat false (2 * length v)). split; auto. rewrite E in *. exact B0. }
  destruct tm.
  - destruct (bits_S true v _ 0 ltac:(lia) B0) as (A & B1). change (spos (ilt true v) 0) with 0 in A, B1. rewrite A. cbn [obind]. destruct (min_ok v (length v - 1) 1 _ ltac:(lia) ltac:(lia) B1) as (bp & X & Y). exists bp. split; auto.
  - apply (max_ok v (length v) 0); auto.
Qed.
(** the plain construction builds the same sequence *)
Lemma vpops_ok : forall tm v i st k, vpops tm (nth i v 0%N) (map (fun j => nth j v 0%N) st) k = (k + length st - length (popw (ilt tm v) i st), map (fun j => nth j v 0%N) (popw (ilt tm v) i st)).
Proof.
  intros tm v i. induction st as [|j st IH]; intros k; cbn [vpops map popw]. { f_equal. cbn [length]. lia. }
  fold (vlt tm (nth i v 0%N) (nth j v 0%N)). unfold ilt at 1 3. destruct (vlt tm (nth i v 0%N) (nth j v 0%N)).
  - rewrite IH. pose proof (popw_len (ilt tm v) i st). cbn [length]. f_equal. lia.
  - cbn [length map]. f_equal. lia.
Qed.
Lemma vals_ok : forall tm v m i bp, i + m = length v -> bits tm v bp i -> exists bp', sct_vals tm (skipn i v) (2 * i - length (stk (ilt tm v) i)) (map (fun j => nth j v 0%N) (stk (ilt tm v) i)) bp =
  Some (2 * length v - length (stk (ilt tm v) (length v)), map (fun j => nth j v 0%N) (stk (ilt tm v) (length v)), bp') /\ bits tm v bp' (length v).
Proof.
  intros tm v. set (lt := ilt tm v). induction m; intros i bp E H.
  { replace i with (length v) in * by lia. rewrite skipn_all. cbn [sct_vals]. exists bp. auto. }
  assert (SK : skipn i v = nth i v 0%N :: skipn (S i) v). { clear - E. revert i E. induction v as [|x w IH]; intros i E; [cbn in E; lia|]. destruct i; [reflexivity|]. cbn [skipn nth]. apply IH. cbn [length] in E. lia. }
  rewrite SK. cbn [sct_vals]. unfold lt. rewrite vpops_ok. fold lt. cbn [fst snd]. pose proof (stk_len lt i). pose proof (popw_len lt i (stk lt i)).
  replace (2 * i - length (stk lt i) + length (stk lt i) - length (popw lt i (stk lt i))) with (spos lt i) by (unfold spos, depth; lia).
  destruct (bits_S tm v bp i ltac:(lia) H) as (A & H'). fold lt in A, H'. rewrite A. cbn [obind].
  replace (spos lt i + 1) with (2 * S i - length (stk lt (S i))) by (cbn [stk length]; unfold spos, depth; lia).
  change (nth i v 0%N :: map (fun j => nth j v 0%N) (popw lt i (stk lt i))) with (map (fun j => nth j v 0%N) (stk lt (S i))). apply IHm; auto. lia.
Qed.
Lemma close_ok : forall (st : list N) k bp, k + length st <= length bp -> (forall p, k <= p < length bp -> nth p bp false = false) -> sct_close k st bp = Some bp.
Proof.
  induction st as [|x st IH]; intros k bp L Z; cbn [sct_close]; auto. cbn [length] in L. rewrite aset_some by lia. cbn [obind].
  assert (U : Base.upd bp k false = bp). { apply (nth_ext _ _ false false); [apply upd_length|]. intros p P. rewrite nth_upd. destruct (Nat.eqb_spec p k) as [->|]; cbn [andb]; auto. destruct (k <? length bp); auto. symmetry. apply Z. lia. }
  rewrite U. apply IH; [lia|]. intros p P. apply Z. lia.
Qed.
Lemma bits_unique : forall tm v a b i, bits tm v a i -> bits tm v b i -> a = b.
Proof.
  intros tm v a b i [LA A] [LB B]. apply (nth_ext _ _ false false); [congruence|]. intros p P. rewrite LA in P. specialize (A p P). specialize (B p P). destruct (nth p a false), (nth p b false); auto.
  - symmetry. apply B, A. auto.
  - apply A, B. auto.
Qed.
Theorem sct_simple_eq : forall tm v, sct_bp_simple tm v = sct_bp tm v.
Proof.
  intros tm v. destruct (sct_bp_ok tm v) as (bp & -> & H). unfold sct_bp_simple. destruct (vals_ok tm v (length v) 0 _ eq_refl (bits_0 tm v)) as (bp' & E & H').
  cbn [skipn stk map length] in E. change (2 * 0 - 0) with 0 in E. rewrite E. cbn [obind]. rewrite (bits_unique tm v bp bp' _ H H'). pose proof (stk_len (ilt tm v) (length v)) as SL. destruct H' as [L' H'].
  apply close_ok; rewrite ?map_length; [lia|]. intros p P. destruct (nth p bp' false) eqn:NP; auto. exfalso. apply H' in NP; [|lia]. destruct NP as (j & J & ->).
  assert (X : spos (ilt tm v) j <= spos (ilt tm v) (length v - 1)). { destruct (Nat.eq_dec j (length v - 1)) as [->|]; auto. apply Nat.lt_le_incl, pos_mono; [apply spos_S|lia]. }
  destruct (length v) as [|m] eqn:EL; [lia|]. cbn [stk length] in *. replace (S m - 1) with m in X by lia. pose proof (depth_le (ilt tm v) m). unfold spos in X at 2. unfold depth in *. lia.
Qed.
