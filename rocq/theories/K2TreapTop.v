(** * k2_treap: the constructor and the queries *)
From Coq Require Import List Arith Bool Lia NArith Permutation Sorted.
From Verif Require Import Base SpecBits AbsVec FnArr WtBase WtProofs K2Treap K2TreapProofs K2TreapLevels K2TreapNodes K2TreapQ.
Import ListNotations.

Lemma find_t_ok : forall k x h, 1 < k -> x < k ^ h -> (N.of_nat k ^ N.of_nat h < 2 ^ 64)%N -> forall fuel res, res <= h -> h < res + fuel -> (res = 0 \/ k ^ (res - 1) <= x) ->
  exists t, find_t k fuel res x = Some t /\ t <= h /\ x < k ^ t /\ (t = 0 \/ k ^ (t - 1) <= x).
Proof.
  intros k x h K X H. induction fuel as [|f IH]; intros res R F P; [lia|]. cbn [find_t].
  assert (G : (N.of_nat k ^ N.of_nat res <= N.of_nat k ^ N.of_nat h)%N) by (apply N.pow_le_mono_r; lia). destruct (N.leb_spec (2 ^ 64) (N.of_nat k ^ N.of_nat res)); [lia|].
  destruct (Nat.leb_spec (k ^ res) x) as [L|L]. 2: { exists res. auto. } destruct (Nat.eq_dec res h) as [-> |NH]; [lia|]. destruct (IH (res + 1)) as (t & E & T1 & T2 & T3); [lia|lia| |eauto]. right. replace (res + 1 - 1) with res by lia. auto.
Qed.
Lemma fold_max : forall l x, In x l -> x <= fold_right Nat.max 0 l.
Proof. induction l as [|a l IH]; intros x I; [contradiction|]. cbn. destruct I as [-> |I]; [lia|]. pose proof (IH x I). lia. Qed.
Lemma fold_max_lt : forall l b, 0 < b -> (forall x, In x l -> x < b) -> fold_right Nat.max 0 l < b.
Proof. induction l as [|a l IH]; intros b B H; cbn; auto. pose proof (H a (or_introl eq_refl)). pose proof (IH b B (fun x I => H x (or_intror I))). lia. Qed.

Definition part_ok (part : (pt -> bool) -> list pt -> list pt * list pt) : Prop :=
  forall f l, Permutation l (fst (part f l) ++ snd (part f l)) /\ (forall e, In e (fst (part f l)) -> f e = true) /\ (forall e, In e (snd (part f l)) -> f e = false).
Definition fits (k h wx : nat) (v : list pt) : Prop :=
  (forall e, In e v -> ptx e < k ^ h /\ pty e < k ^ h) /\ (N.of_nat k ^ N.of_nat h < 2 ^ 64)%N /\ (N.of_nat k ^ N.of_nat h < 2 ^ N.of_nat wx)%N.

Lemma make_ok : forall k part wx ww h v, 1 < k -> part_ok part -> NoDup (map fst v) -> fits k h wx v -> v <> [] -> (exists e, In e v /\ fst e <> (0, 0)) ->
  exists T, k2_treap_make k part wx ww v = Some T /\ tsize T = length v /\ (forall q, tcount k T q = Some (length (filter (p_in q) v))) /\
    forall q rng, exists r, it_start k T q rng = Some r /\ Permutation (filter (okp q rng) v) r /\ sorted_out r.
Proof.
  intros k part wx ww h v K PS DST (BH & H64 & HW) NE (e0 & I0 & N0).
  set (x := fold_right Nat.max 0 (map tupmax v)).
  assert (KP : forall j, 0 < k ^ j) by (intros j; assert (k ^ j <> 0) by (apply Nat.pow_nonzero; lia); lia).
  assert (XH : x < k ^ h). { apply fold_max_lt; auto. intros y I. apply in_map_iff in I. destruct I as (e & <- & I). destruct (BH e I). unfold tupmax. lia. }
  assert (H65 : h < 0 + 65). { destruct (Nat.lt_ge_cases h (0 + 65)); auto. exfalso. assert (2 ^ 64 <= N.of_nat k ^ N.of_nat h)%N; [|lia]. transitivity (N.of_nat k ^ 64)%N; [apply N.pow_le_mono_l; lia|apply N.pow_le_mono_r; lia]. }
  destruct (find_t_ok k x h K XH H64 65 0 ltac:(lia) H65 (or_introl eq_refl)) as (t & ET & TH & XT & _).
  assert (GT : get_t k v = Some t) by (unfold get_t; destruct v; [contradiction|exact ET]).
  assert (BND : forall e, In e v -> ptx e < k ^ t /\ pty e < k ^ t). { intros e I. pose proof (fold_max _ _ (in_map tupmax _ _ I)) as FM. fold x in FM. unfold tupmax in FM. lia. }
  assert (T0 : 0 < t). { destruct (Nat.eq_dec t 0) as [-> |]; [|lia]. exfalso. destruct (BND e0 I0) as [B1 B2]. cbn in B1, B2. apply N0. unfold ptx, pty in *. destruct (fst e0). cbn in *. f_equal; lia. }
  unfold k2_treap_make. destruct v as [|a v'] eqn:EV; [contradiction|]. rewrite <- EV in *. rewrite GT. cbn [obind].
  assert (MW : (N.of_nat (k ^ t) < 2 ^ N.of_nat wx)%N). { rewrite Nat2N.inj_pow. eapply N.le_lt_trans; [|exact HW]. apply N.pow_le_mono_r; lia. }
  apply N.ltb_lt in MW. rewrite MW. match goal with |- context [all_levels k part t ?M _] => set (MM := M) end. assert (HM : ptx MM = k ^ t) by reflexivity.
  rewrite (st0 k K part PS t v BND MM HM). destruct (all_levels_ok k K part PS t v NE BND DST MM HM t 0 eq_refl) as (v2 & n2 & EL). rewrite EL. cbn [obind b_lidx b_bits b_vals b_coord]. cbn [st b_lidx b_coord]. rewrite farr_nth_error by lia. rewrite Nat.sub_diag. cbn [Nat.leb obind]. rewrite Nat.sub_0_r.
  destruct (diff_ok k K part PS t v NE BND DST) as (D & ED & D1 & D2 & D3). unfold bpF, raw in ED. rewrite ED. cbn [obind]. eexists. split; [reflexivity|].
  match goal with |- tsize ?TT = _ /\ _ => set (T := TT) end. assert (TL : t_lidx T = farr (1 + t) (fun x => A k part t v (t - x))) by (apply farr_ext; intros; auto).
  assert (TC : t_coord T = farr t (fun x => flat_map (cof k (x + 1)) (Lj k part t v (t - x - 1)))) by (apply farr_ext; intros; auto).
  split. { apply (size_pts k K part PS t v NE BND DST T). exact D1. } split.
  - intros q. apply (tcount_ok k K part PS t v NE BND DST T eq_refl eq_refl TC TL D1 D2 D3). exact T0.
  - intros q rng. apply (it_start_ok k K part PS t v NE BND DST T eq_refl eq_refl TC TL D1 D2 D3). exact T0.
Qed.
