(** * rmq_succinct_sada *)
From Coq Require Import NArith ZArith List Bool Arith Lia.
From Verif Require Import Base SpecBits SpecRank SpecBp SpecRmq AbsVec RankSelect WtBase WtProofs Bp BpProofs BpProofs3 BpProofs5 BpRmq BpRmqProofs BpRmqProofs4 BpRmqProofs6 BpRmqProofs7 RmqSada CsaProofs2.
Import ListNotations.
Open Scope nat_scope.

(** ** excess of lists *)
Definition el (s : list bool) (p : nat) : Z := ex (fun i => nth i s false) p.
Lemma el_app1 : forall a b p, p <= length a -> el (a ++ b) p = el a p.
Proof. intros. apply ex_ext. intros i I. apply app_nth1. lia. Qed.
Lemma el_app2 : forall a b q, el (a ++ b) (length a + q) = (el a (length a) + el b q)%Z.
Proof.
  intros. unfold el. pose proof (ex_shift (fun i => nth i (a ++ b) false) (length a) q) as S. fold (el (a ++ b) (length a)) in S. rewrite el_app1 in S by lia. unfold el in S.
  assert (X : ex (fun i => nth (length a + i) (a ++ b) false) q = ex (fun i => nth i b false) q). { apply ex_ext. intros i I. rewrite app_nth2 by lia. f_equal. lia. } lia.
Qed.
Lemma el_1 : forall x, el [x] 1 = (if x then 1 else -1)%Z.
Proof. intros []; reflexivity. Qed.

(** ** occurrences of 10 *)
Fixpoint pe (prev : bool) (off : nat) (s : list bool) : list nat :=
  match s with [] => [] | x :: s => (if prev && negb x then [off] else []) ++ pe x (S off) s end.
Lemma pe_app : forall a b prev off, pe prev off (a ++ b) = pe prev off a ++ pe (last a prev) (off + length a) b.
Proof.
  induction a as [|x a IH]; intros b prev off; cbn [app pe length]. { rewrite Nat.add_0_r. reflexivity. }
  rewrite IH, <- app_assoc. replace (S off + length a) with (off + S (length a)) by lia. do 3 f_equal.
  destruct a as [|y a]; [reflexivity|]. clear. revert y. induction a as [|z a IH]; intros y; [reflexivity|]. exact (IH z).
Qed.
Lemma pe_spec : forall s prev off, pe prev off s = map (Nat.add off) (positions (fun k => (if k =? 0 then prev else nth (k - 1) s false) && negb (nth k s false)) (length s)).
Proof.
  induction s as [|x s IH]; intros prev off; [reflexivity|]. cbn [pe length]. change (S (length s)) with (1 + length s). rewrite positions_add, map_app. f_equal.
  - unfold positions. cbn. destruct (prev && negb x); cbn; [f_equal; lia|reflexivity].
  - rewrite IH, map_map. transitivity (map (Nat.add (S off)) (positions (fun j => (if 1 + j =? 0 then prev else nth (1 + j - 1) (x :: s) false) && negb (nth (1 + j) (x :: s) false)) (length s))).
    + f_equal. apply positions_ext. intros j J. cbn [Nat.add Nat.eqb]. replace (S j - 1) with j by lia. cbn [nth]. f_equal. destruct j; [reflexivity|]. cbn [Nat.eqb nth]. replace (S j - 1) with j by lia. reflexivity.
    + apply map_ext. intros. lia.
Qed.
Lemma pe_positions : forall s, positions (occ P10 (t_bit s)) (length s) = pe false 0 s.
Proof.
  intros s. rewrite pe_spec. rewrite (map_ext _ (fun x => x)) by reflexivity. rewrite map_id. apply positions_ext. intros j J. cbn [occ]. unfold t_bit. destruct j; reflexivity.
Qed.

(** ** the extended Cartesian tree of v[l..r) and the ends of its leaves *)
Section E.
Variable tm : bool.
Variable v : list N.
Inductive ect : nat -> nat -> list bool -> list nat -> Prop :=
| ect_nil : forall l, ect l l [] []
| ect_node : forall l r m a pa b pb, l <= m < r -> is_rmq tm v l (r - 1) m -> ect l m a pa -> ect (m + 1) r b pb ->
    ect l r ([true] ++ a ++ [true; false] ++ b ++ [false]) (map (Nat.add 1) pa ++ [length a + 2] ++ map (Nat.add (length a + 3)) pb).

Lemma ect_len : forall l r s ps, ect l r s ps -> l <= r /\ length s = 4 * (r - l) /\ length ps = r - l.
Proof.
  induction 1; [cbn; lia|]. destruct IHect1 as (A1 & A2 & A3), IHect2 as (B1 & B2 & B3). repeat (rewrite ?app_length, ?map_length; cbn [length]). lia.
Qed.
Lemma ect_ends : forall l r s ps, ect l r s ps -> (s = [] /\ ps = []) \/ (exists u, s = true :: u) /\ forall d, last s d = false.
Proof.
  induction 1; [auto|right]. split; [eexists; reflexivity|]. intros d. rewrite !app_assoc. apply last_last.
Qed.
Lemma ect_pe : forall l r s ps, ect l r s ps -> forall prev off, pe prev off s = map (Nat.add off) ps.
Proof.
  induction 1 as [|l r m a pa b pb LM RM EA IHA EB IHB]; intros prev off; [reflexivity|].
  rewrite !pe_app, IHA, IHB. cbn [last pe length app]. rewrite !andb_false_r. cbn [app negb andb].
  assert (LB : last b false = false) by (destruct (ect_ends _ _ _ _ EB) as [[-> _]|[_ X]]; [reflexivity|apply X]). rewrite LB. cbn [andb app]. rewrite app_nil_r.
  rewrite map_app. cbn [map app]. rewrite !map_map. cbn [andb app].
  f_equal. { apply map_ext. intros. lia. } f_equal; [lia|]. apply map_ext. intros. lia.
Qed.
(** position facts of a node *)
Section Node.
Variables a b : list bool.
Let s := [true] ++ a ++ [true; false] ++ b ++ [false].
Hypothesis A0 : el a (length a) = 0%Z.
Hypothesis B0 : el b (length b) = 0%Z.
Lemma nd_a : forall q, q <= length a -> el s (1 + q) = (1 + el a q)%Z.
Proof. intros q Q. unfold s. change 1 with (length [true]). rewrite el_app2. cbn [length]. rewrite el_1. rewrite el_app1 by lia. reflexivity. Qed.
Lemma nd_lo : el s (length a + 2) = 2%Z.
Proof.
  unfold s. replace (length a + 2) with (length [true] + (length a + 1)) by (cbn; lia). rewrite el_app2, el_app2, A0. cbn [length]. rewrite el_1. change ([true; false] ++ b ++ [false]) with ([true] ++ [false] ++ b ++ [false]). rewrite el_app1 by (cbn; lia). rewrite el_1. reflexivity.
Qed.
Lemma nd_b : forall q, q <= length b -> el s (length a + 3 + q) = (1 + el b q)%Z.
Proof.
  intros q Q. unfold s. replace (length a + 3 + q) with (length [true] + (length a + (length [true; false] + q))) by (cbn; lia). rewrite !el_app2, A0. rewrite el_app1 by lia. cbn [length]. rewrite el_1. change (el [true; false] 2) with 0%Z. lia.
Qed.
Lemma nd_end : el s (length s) = 0%Z.
Proof.
  assert (L : length s = length [true] + (length a + (length [true; false] + (length b + 1)))) by (unfold s; repeat (rewrite ?app_length; cbn [length]); lia).
  rewrite L. unfold s. rewrite !el_app2, A0, B0. cbn [length]. rewrite !el_1. reflexivity.
Qed.
Lemma nd_cases : forall p, 0 < p < length s -> (exists q, p = 1 + q /\ q <= length a) \/ p = length a + 2 \/ (exists q, p = length a + 3 + q /\ q <= length b).
Proof.
  intros p P. assert (L : length s = length a + length b + 4) by (unfold s; repeat (rewrite ?app_length; cbn [length]); lia).
  destruct (Nat.le_gt_cases p (1 + length a)); [left; exists (p - 1); lia|]. destruct (Nat.eq_dec p (length a + 2)); auto. right. right. exists (p - length a - 3). lia.
Qed.
End Node.
Lemma ect_el : forall l r s ps, ect l r s ps -> el s (length s) = 0%Z /\ forall p, 0 < p < length s -> (0 < el s p)%Z.
Proof.
  induction 1 as [|l r m a pa b pb LM RM EA [A0 A1] EB [B0 B1]]; [split; [reflexivity|cbn; lia]|]. split; [apply nd_end; auto|].
  assert (GA : forall q, q <= length a -> (0 <= el a q)%Z). { intros q Q. destruct (Nat.eq_dec q 0) as [->|]; [reflexivity|]. destruct (Nat.eq_dec q (length a)) as [->|]; [lia|]. pose proof (A1 q ltac:(lia)). lia. }
  assert (GB : forall q, q <= length b -> (0 <= el b q)%Z). { intros q Q. destruct (Nat.eq_dec q 0) as [->|]; [reflexivity|]. destruct (Nat.eq_dec q (length b)) as [->|]; [lia|]. pose proof (B1 q ltac:(lia)). lia. }
  intros p P. destruct (nd_cases a b p P) as [(q & -> & Q)|[->|(q & -> & Q)]].
  - rewrite nd_a by auto. specialize (GA q Q). lia.
  - rewrite nd_lo by auto. lia.
  - rewrite nd_b by auto. specialize (GB q Q). lia.
Qed.
Lemma ect_in : forall l r s ps, ect l r s ps -> forall i, i < length ps -> 1 <= nth i ps 0 /\ nth i ps 0 + 1 < length s.
Proof.
  induction 1 as [|l r m a pa b pb LM RM EA IHA EB IHB]; intros i I; [cbn in I; lia|].
  assert (L : length ([true] ++ a ++ [true; false] ++ b ++ [false]) = length a + length b + 4) by (repeat (rewrite ?app_length; cbn [length]); lia). rewrite L. clear L.
  rewrite app_length, map_length in I. cbn [app length] in I. rewrite map_length in I. destruct (Nat.lt_ge_cases i (length pa)) as [L|L].
  - rewrite app_nth1 by (rewrite map_length; lia). rewrite (nth_indep _ 0 (1 + 0)) by (rewrite map_length; lia). rewrite map_nth. specialize (IHA i L). lia.
  - rewrite app_nth2 by (rewrite map_length; lia). rewrite map_length. destruct (i - length pa) as [|j] eqn:E; cbn [app nth]; [lia|].
    rewrite (nth_indep _ 0 (length a + 3 + 0)) by (rewrite map_length; lia). rewrite map_nth. specialize (IHB j ltac:(lia)). lia.
Qed.
(** the last minimum between the ends of two leaves is the end of the leaf of the best element *)
Definition lmin (s : list bool) (x y z : nat) : Prop := x <= z <= y /\ (forall k, x <= k <= y -> (el s (S z) <= el s (S k))%Z) /\ (forall k, z < k <= y -> (el s (S z) < el s (S k))%Z).
Lemma rmq_restrict : forall l r m l' r', is_rmq tm v l r m -> l <= l' <= m -> m <= r' <= r -> is_rmq tm v l' r' m.
Proof. intros l r m l' r' (A & B & C) L R. split; [lia|]. split; intros; [apply B|apply C]; lia. Qed.
Lemma ect_rmq : forall l r s ps, ect l r s ps -> forall i j, i <= j < length ps -> exists m, m < length ps /\ is_rmq tm v (l + i) (l + j) (l + m) /\ lmin s (nth i ps 0) (nth j ps 0) (nth m ps 0).
Proof.
  induction 1 as [|l r m a pa b pb LM RM EA IHA EB IHB]; intros i j IJ; [cbn in IJ; lia|].
  destruct (ect_el _ _ _ _ EA) as [A0 A1]. destruct (ect_el _ _ _ _ EB) as [B0 B1]. destruct (ect_len _ _ _ _ EA) as (LA1 & LA2 & LA3). destruct (ect_len _ _ _ _ EB) as (LB1 & LB2 & LB3).
  set (s := [true] ++ a ++ [true; false] ++ b ++ [false]). set (ps := map (Nat.add 1) pa ++ [length a + 2] ++ map (Nat.add (length a + 3)) pb) in *.
  assert (LP : length ps = length pa + 1 + length pb) by (unfold ps; rewrite !app_length, !map_length; cbn [length]; lia). rewrite LP in *.
  assert (PA : forall i, i < length pa -> nth i ps 0 = 1 + nth i pa 0). { intros q Q. unfold ps. rewrite app_nth1 by (rewrite map_length; lia). rewrite (nth_indep _ 0 (1 + 0)) by (rewrite map_length; lia). apply map_nth. }
  assert (PM : nth (length pa) ps 0 = length a + 2). { unfold ps. rewrite app_nth2 by (rewrite map_length; lia). rewrite map_length, Nat.sub_diag. reflexivity. }
  assert (PB : forall i, i < length pb -> nth (length pa + 1 + i) ps 0 = length a + 3 + nth i pb 0).
  { intros q Q. unfold ps. rewrite app_nth2 by (rewrite map_length; lia). rewrite map_length. replace (length pa + 1 + q - length pa) with (S q) by lia. cbn [app nth]. rewrite (nth_indep _ 0 (length a + 3 + 0)) by (rewrite map_length; lia). apply map_nth. }
  pose proof (nd_a a b) as NA. pose proof (nd_lo a b A0) as NL. pose proof (nd_b a b A0) as NB. fold s in NA, NL, NB. clearbody ps s.
  pose proof (ect_in _ _ _ _ EA) as INA. pose proof (ect_in _ _ _ _ EB) as INB.
  destruct (Nat.lt_ge_cases j (length pa)) as [JA|JA]; [|destruct (Nat.lt_ge_cases (length pa) i) as [IB|IB]].
  - destruct (IHA i j ltac:(lia)) as (q & Q1 & Q2 & Q3 & Q4 & Q5). exists q. split; [lia|]. split; [exact Q2|]. rewrite !PA by lia. pose proof (INA j JA). pose proof (INA q Q1).
    split; [lia|]. split; intros k K; replace (S (1 + nth q pa 0)) with (1 + S (nth q pa 0)) by lia; replace (S k) with (1 + S (k - 1)) by lia; rewrite !NA by lia; [specialize (Q4 (k - 1) ltac:(lia))|specialize (Q5 (k - 1) ltac:(lia))]; lia.
  - destruct (IHB (i - length pa - 1) (j - length pa - 1) ltac:(lia)) as (q & Q1 & Q2 & Q3 & Q4 & Q5). exists (length pa + 1 + q). split; [lia|].
    replace (m + 1 + (i - length pa - 1)) with (l + i) in Q2 by lia. replace (m + 1 + (j - length pa - 1)) with (l + j) in Q2 by lia. replace (m + 1 + q) with (l + (length pa + 1 + q)) in Q2 by lia. split; [exact Q2|].
    set (x := i - length pa - 1) in *. set (y := j - length pa - 1) in *. replace i with (length pa + 1 + x) by (unfold x; lia). replace j with (length pa + 1 + y) by (unfold y; lia). assert (XY : x < length pb /\ y < length pb) by (unfold x, y; lia).
    rewrite !PB by lia. pose proof (INB y ltac:(lia)). pose proof (INB q Q1). split; [lia|].
    split; intros k K; replace (S (length a + 3 + nth q pb 0)) with (length a + 3 + S (nth q pb 0)) by lia; replace (S k) with (length a + 3 + S (k - length a - 3)) by lia; rewrite !NB by lia; [specialize (Q4 (k - length a - 3) ltac:(lia))|specialize (Q5 (k - length a - 3) ltac:(lia))]; lia.
  - exists (length pa). split; [lia|]. split. { replace (l + length pa) with m by lia. apply (rmq_restrict _ _ _ _ _ RM); lia. }
    rewrite PM. unfold lmin. replace (S (length a + 2)) with (length a + 3 + 0) by lia. rewrite NB by lia. change (el b 0) with 0%Z.
    assert (XI : 1 <= nth i ps 0 <= length a + 2). { destruct (Nat.eq_dec i (length pa)) as [->|]; [lia|]. rewrite PA by lia. pose proof (INA i ltac:(lia)). lia. }
    assert (YJ : length a + 2 <= nth j ps 0 /\ (length a + 2 < nth j ps 0 -> nth j ps 0 + 1 < length a + 3 + length b)).
    { destruct (Nat.eq_dec j (length pa)) as [->|]; [lia|]. replace j with (length pa + 1 + (j - length pa - 1)) by lia. rewrite PB by lia. pose proof (INB (j - length pa - 1) ltac:(lia)). lia. }
    assert (GA : forall q, q <= length a -> (0 <= el a q)%Z). { intros q Q. destruct (Nat.eq_dec q 0) as [->|]; [reflexivity|]. destruct (Nat.eq_dec q (length a)) as [->|]; [lia|]. pose proof (A1 q ltac:(lia)). lia. }
    assert (GT : forall k, length a + 2 < k <= nth j ps 0 -> (1 + 0 < el s (S k))%Z).
    { intros k K. replace (S k) with (length a + 3 + S (k - length a - 3)) by lia. rewrite NB by lia. pose proof (B1 (S (k - length a - 3)) ltac:(lia)). lia. }
    split; [lia|]. split; [|exact GT]. intros k K. destruct (Nat.lt_ge_cases (length a + 2) k) as [L|L]; [pose proof (GT k ltac:(lia)); lia|].
    destruct (Nat.eq_dec k (length a + 2)) as [->|]. { replace (S (length a + 2)) with (length a + 3 + 0) by lia. rewrite NB by lia. change (el b 0) with 0%Z. lia. }
    destruct (Nat.eq_dec k (length a + 1)) as [->|]. { replace (S (length a + 1)) with (length a + 2) by lia. lia. }
    replace (S k) with (1 + k) by lia. rewrite NA by lia. pose proof (GA k ltac:(lia)). lia.
Qed.

(** ** the construction *)
Lemma aset_app : forall out k b, aset (out ++ repeat false (S k)) (length out) b = Some ((out ++ [b]) ++ repeat false k).
Proof.
  intros out k b. rewrite aset_some by (rewrite app_length, repeat_length; lia). f_equal. rewrite <- app_assoc. induction out as [|x out IH]; cbn [app length Base.upd repeat]; [reflexivity|]. f_equal. exact IH.
Qed.
Variable h : nat -> nat -> option nat.
Hypothesis HH : forall l r, l <= r < length v -> exists m, h l r = Some m /\ is_rmq tm v l r m.
Lemma run_ok : forall k len l, len <= k -> l + len <= length v -> exists s ps, ect l (l + len) s ps /\
  (0 < len -> forall fuel st out rest m, h l (l + len - 1) = Some m ->
    ect_run (3 * len + fuel) h (mkst l (l + len - 1) m 1 :: st) (out ++ repeat false (4 * len + rest)) (length out) = ect_run fuel h st ((out ++ s) ++ repeat false rest) (length (out ++ s))).
Proof.
  induction k; intros len l K L. { exists [], []. replace (l + len) with l by lia. split; [constructor|]. intros; lia. }
  destruct (Nat.eq_dec len 0) as [->|NZ]. { exists [], []. rewrite Nat.add_0_r. split; [constructor|]. intros; lia. }
  destruct (HH l (l + len - 1)) as (m & Hm & RM); [lia|]. pose proof RM as (ML & _).
  destruct (IHk (m - l) l ltac:(lia) ltac:(lia)) as (a & pa & EA & RA). replace (l + (m - l)) with m in * by lia.
  destruct (IHk (l + len - (m + 1)) (m + 1) ltac:(lia) ltac:(lia)) as (b & pb & EB & RB). replace (m + 1 + (l + len - (m + 1))) with (l + len) in * by lia.
  exists ([true] ++ a ++ [true; false] ++ b ++ [false]), (map (Nat.add 1) pa ++ [length a + 2] ++ map (Nat.add (length a + 3)) pb). split; [apply (ect_node l (l + len) m); auto; lia|].
  intros _ fuel st out rest m' Hm'. assert (m' = m) by congruence. subst m'.
  set (x := m - l) in *. set (y := l + len - (m + 1)) in *. assert (XY : len = x + y + 1) by (unfold x, y; lia).
  replace (3 * len + fuel) with (S (3 * x + S (3 * y + S fuel))) by lia. cbn [ect_run s_visit s_l s_m s_r]. change (1 =? 1) with true. cbv iota.
  replace (4 * len + rest) with (S (4 * x + (S (S (4 * y + S rest))))) by lia. rewrite aset_app. cbn [obind].
  (* left part *)
  assert (LEFT : exists stk, (if l <? m then let* m0 := h l (m - 1) in Some (mkst l (m - 1) m0 1 :: mkst l (l + len - 1) m 2 :: st) else Some (mkst l (l + len - 1) m 2 :: st)) = Some stk /\
    ect_run (3 * x + S (3 * y + S fuel)) h stk ((out ++ [true]) ++ repeat false (4 * x + S (S (4 * y + S rest)))) (length out + 1) =
    ect_run (S (3 * y + S fuel)) h (mkst l (l + len - 1) m 2 :: st) (((out ++ [true]) ++ a) ++ repeat false (S (S (4 * y + S rest)))) (length ((out ++ [true]) ++ a))).
  { replace (length out + 1) with (length (out ++ [true])) by (rewrite app_length; reflexivity). destruct (Nat.ltb_spec l m) as [LM|LM].
    - destruct (HH l (m - 1)) as (m0 & H0 & _); [lia|]. rewrite H0. cbn [obind]. eexists. split; [reflexivity|]. apply RA; [unfold x; lia|exact H0].
    - assert (x = 0) by (unfold x; lia). destruct (ect_len _ _ _ _ EA) as (_ & LA & _). replace (m - l) with 0 in LA by lia. destruct a; [|discriminate]. rewrite H. eexists. split; [reflexivity|]. rewrite app_nil_r. reflexivity. }
  destruct LEFT as (stk & -> & LE). cbn [obind]. rewrite LE. clear LE. set (o1 := (out ++ [true]) ++ a).
  (* the leaf *)
  cbn [ect_run s_visit s_l s_m s_r]. change (2 =? 1) with false. change (2 =? 2) with true. cbv iota. rewrite aset_app. cbn [obind].
  replace (length o1 + 1) with (length (o1 ++ [true])) by (rewrite app_length; reflexivity). rewrite aset_app. cbn [obind].
  assert (RIGHT : exists stk2, (if m <? l + len - 1 then let* m0 := h (m + 1) (l + len - 1) in Some (mkst (m + 1) (l + len - 1) m0 1 :: mkst l (l + len - 1) m 3 :: st) else Some (mkst l (l + len - 1) m 3 :: st)) = Some stk2 /\
    ect_run (3 * y + S fuel) h stk2 (((o1 ++ [true]) ++ [false]) ++ repeat false (4 * y + S rest)) (length o1 + 2) =
    ect_run (S fuel) h (mkst l (l + len - 1) m 3 :: st) ((((o1 ++ [true]) ++ [false]) ++ b) ++ repeat false (S rest)) (length (((o1 ++ [true]) ++ [false]) ++ b))).
  { replace (length o1 + 2) with (length ((o1 ++ [true]) ++ [false])) by (rewrite !app_length; cbn; lia). destruct (Nat.ltb_spec m (l + len - 1)) as [LM|LM].
    - destruct (HH (m + 1) (l + len - 1)) as (m0 & H0 & _); [lia|]. rewrite H0. cbn [obind]. eexists. split; [reflexivity|]. apply RB; [unfold y; lia|exact H0].
    - assert (y = 0) by (unfold y; lia). destruct (ect_len _ _ _ _ EB) as (_ & LB & _). replace (l + len - (m + 1)) with 0 in LB by lia. destruct b; [|discriminate]. rewrite H. eexists. split; [reflexivity|]. rewrite app_nil_r. reflexivity. }
  destruct RIGHT as (stk2 & -> & RE). cbn [obind]. rewrite RE. clear RE. set (o2 := ((o1 ++ [true]) ++ [false]) ++ b).
  cbn [ect_run s_visit]. change (3 =? 1) with false. change (3 =? 2) with false. change (3 =? 3) with true. cbv iota. rewrite aset_app. cbn [obind].
  replace (length o2 + 1) with (length (o2 ++ [false])) by (rewrite app_length; reflexivity).
  assert (OE : o2 ++ [false] = out ++ [true] ++ a ++ [true; false] ++ b ++ [false]). { unfold o2, o1. rewrite <- !app_assoc. reflexivity. }
  rewrite OE. reflexivity.
Qed.
Lemma ect_bp_ok : exists bp ps, ect_bp h (length v) = Some bp /\ ect 0 (length v) bp ps.
Proof.
  unfold ect_bp. destruct (Nat.ltb_spec 0 (length v)) as [L|L].
  - destruct (HH 0 (length v - 1)) as (m & H0 & _); [lia|]. rewrite H0. cbn [obind]. destruct (run_ok (length v) (length v) 0 ltac:(lia) ltac:(lia)) as (s & ps & E & R). specialize (R L 1 [] [] 0 m H0).
    cbn [app length Nat.add] in R. rewrite !Nat.add_0_r in R. rewrite R. cbn [ect_run]. exists (s ++ repeat false 0), ps. split; auto. cbn [repeat]. rewrite app_nil_r. exact E.
  - replace (length v) with 0 by lia. exists [], []. split; [reflexivity|constructor].
Qed.
End E.

Theorem sada_ok : forall tm v g B' deg' B deg, B' mod 8 = 0 -> 0 < B' -> 2 <= deg' -> B mod 8 = 0 -> 0 < B -> 2 <= deg -> v <> [] ->
  exists bp t, sada_build tm g B' deg' B deg v = Some (bp, t) /\ sada_size bp = length v /\ forall l r, l <= r < length v -> exists m, sada_query g B deg bp t l r = Some m /\ is_rmq tm v l r m.
Proof.
  intros tm v g B' deg' B deg HB' HB0' Hd' HB HB0 Hd NE. unfold sada_build.
  destruct (sct_ok tm v g B' deg' HB' HB0' Hd' NE) as (hb & ht & -> & E2 & Q). cbn [obind]. rewrite E2. cbn [obind].
  destruct (ect_bp_ok tm v (sct_query g B' deg' hb ht) Q) as (bp & ps & -> & E). cbn [obind]. destruct (ect_len _ _ _ _ _ _ E) as (_ & LB & LP). rewrite Nat.sub_0_r in *.
  assert (NV : 0 < length v) by (destruct v; [congruence|cbn; lia]). assert (NB : bp <> []) by (intros ->; cbn in LB; lia).
  destruct (make_ok g B deg bp HB0 ltac:(lia) NB) as (t & hh & T & _). rewrite T. cbn [obind]. exists bp, t. split; [reflexivity|]. split. { unfold sada_size. rewrite LB, Nat.mul_comm. apply Nat.div_mul. lia. }
  intros l r LR. unfold sada_query. destruct (Nat.eqb_spec l r) as [->|NEQ]. { exists r. split; auto. split; [lia|]. split; [|intros; lia]. intros i I. replace i with r by lia. unfold better. destruct tm; lia. }
  assert (PO : positions (occ P10 (t_bit bp)) (length bp) = ps). { rewrite pe_positions, (ect_pe _ _ _ _ _ _ E). rewrite (map_ext _ (fun x => x)) by reflexivity. apply map_id. }
  assert (SEL : forall i, i < length v -> p_select P10 bp (i + 1) = Some (nth i ps 0)). { intros i I. unfold p_select. rewrite (proj2 (Nat.eqb_neq _ _)) by lia. rewrite PO. replace (i + 1 - 1) with i by lia. apply nth_error_nth'. lia. }
  rewrite !SEL by lia. cbn [obind]. destruct (ect_rmq _ _ _ _ _ _ E l r ltac:(lia)) as (m & M1 & M2 & M3 & M4 & M5). rewrite !Nat.add_0_l in M2.
  pose proof (ect_in _ _ _ _ _ _ E r ltac:(lia)) as IR. pose proof (ect_in _ _ _ _ _ _ E m M1) as IM.
  destruct (t_rmq g B deg HB HB0 Hd bp t T (nth l ps 0) (nth r ps 0)) as (z & e & -> & A). { lia. }
  assert (XE : forall p, p <= length bp -> ex (xb g bp) p = el bp p). { intros p P. apply ex_ext. intros i I. apply f_in. lia. }
  assert (ZM : z = nth m ps 0). { apply (la_unique (xb g bp) (nth l ps 0) (nth r ps 0 + 1) e z (el bp (S (nth m ps 0))) (nth m ps 0)); auto. split; [lia|]. split; [apply XE; lia|]. split; intros k K; rewrite XE by lia; [apply M4|apply M5]; lia. }
  subst z. cbn [obind]. destruct (nth_positions (occ P10 (t_bit bp)) (length bp) m 0) as ((O1 & O2) & _). { unfold rank_of. rewrite PO. exact M1. }
  rewrite PO in O1, O2. rewrite t_get_some by lia. cbn [obind]. cbn [occ] in O1. apply andb_true_iff in O1. destruct O1 as [_ O1]. apply negb_true_iff in O1. rewrite O1. cbn [obind]. rewrite csub_le by lia. cbn [obind].
  unfold p_rank. rewrite (proj2 (Nat.leb_le _ _)) by lia. exists m. split; auto. f_equal. replace (nth m ps 0 + 1 - 1) with (nth m ps 0) by lia. lia.
Qed.
