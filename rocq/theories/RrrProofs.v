(** * The enumerative code of rrr blocks is a bijection *)
From Coq Require Import NArith List Bool Arith Lia.
From Verif Require Import Base RrrHelper.
Import ListNotations.

(** ** binomial coefficients *)
Lemma zadd_length : forall a b, length a = length b -> length (zadd a b) = length a.
Proof. induction a; destruct b; cbn; intros; try discriminate; auto. Qed.
Lemma zadd_nth : forall a b k, length a = length b -> nth k (zadd a b) 0%N = (nth k a 0 + nth k b 0)%N.
Proof. induction a; destruct b; cbn; intros; try discriminate; destruct k; auto. Qed.
Lemma row_length : forall n, length (row n) = S n.
Proof. induction n; auto. cbn [row]. rewrite zadd_length; cbn; rewrite ?app_length; cbn; lia. Qed.
Lemma C_0 : forall n, C n 0 = 1%N.
Proof.
  induction n; auto. unfold C in *. cbn [row]. rewrite zadd_nth by (cbn; rewrite app_length; cbn; lia).
  rewrite app_nth1 by (rewrite row_length; lia). rewrite IHn. auto.
Qed.
Lemma C_S : forall n k, C (S n) (S k) = (C n k + C n (S k))%N.
Proof.
  intros. unfold C. cbn [row]. rewrite zadd_nth by (cbn; rewrite app_length; cbn; lia). cbn [nth]. f_equal.
  destruct (Nat.lt_ge_cases (S k) (length (row n))). { rewrite app_nth1; auto. }
  rewrite app_nth2 by auto. rewrite (nth_overflow (row n)) by auto. destruct (S k - length (row n)) as [|[|]]; auto.
Qed.
Lemma C_big : forall n k, n < k -> C n k = 0%N.
Proof. intros. unfold C. apply nth_overflow. rewrite row_length. lia. Qed.
Lemma C_0S : forall k, C 0 (S k) = 0%N. Proof. intros. apply C_big. lia. Qed.
Lemma C_diag : forall n, C n n = 1%N.
Proof. induction n; auto. rewrite C_S, IHn, C_big by lia. auto. Qed.
Lemma C_1 : forall n, C n 1 = N.of_nat n.
Proof. induction n; auto. rewrite C_S, C_0, IHn. lia. Qed.
Lemma C_mono : forall k n m, n <= m -> (C n k <= C m k)%N.
Proof.
  intros k n m H. induction H; [lia|]. destruct k. { rewrite !C_0. lia. } rewrite (C_S m). lia.
Qed.
Lemma C_sym : forall n k, k <= n -> C n (n - k) = C n k.
Proof.
  induction n as [|n IH]; intros k H. { replace k with 0 by lia. auto. }
  destruct (Nat.eq_dec k 0) as [->|Z]. { rewrite Nat.sub_0_r, C_diag, C_0. auto. }
  destruct (Nat.eq_dec k (S n)) as [->|Z2]. { rewrite Nat.sub_diag, C_diag, C_0. auto. }
  destruct k; [lia|]. replace (S n - S k) with (S (n - S k)) by lia. rewrite !C_S. rewrite (IH (S k)) by lia.
  replace (S (n - S k)) with (n - k) by lia. rewrite IH by lia. lia.
Qed.
Lemma C_pos : forall n k, k <= n -> (0 < C n k)%N.
Proof. induction n; intros k H. { replace k with 0 by lia. reflexivity. } destruct k. { rewrite C_0. lia. } rewrite C_S. specialize (IHn k). lia. Qed.
Lemma C_le_pow : forall n k, (C n k <= 2 ^ N.of_nat n)%N.
Proof.
  induction n; intro k. { destruct k; [reflexivity|]. rewrite C_0S. discriminate. }
  rewrite Nat2N.inj_succ, N.pow_succ_r'. destruct k. { rewrite C_0. pose proof (N.pow_nonzero 2 (N.of_nat n) ltac:(discriminate)). lia. }
  rewrite C_S. pose proof (IHn k). pose proof (IHn (S k)). lia.
Qed.
Lemma C_lt_pow : forall n k, 0 < n -> (C n k < 2 ^ N.of_nat n)%N.
Proof.
  intros n k H. destruct n as [|n]; [lia|]. clear H. revert k. induction n; intro k.
  - destruct k as [|[|k]]; [reflexivity|reflexivity|]. rewrite C_big by lia. reflexivity.
  - rewrite Nat2N.inj_succ, N.pow_succ_r'. destruct k. { rewrite C_0. pose proof (N.pow_nonzero 2 (N.of_nat (S n)) ltac:(discriminate)). lia. }
    rewrite C_S. pose proof (IHn k). pose proof (IHn (S k)). lia.
Qed.

(** ** the code *)
Fixpoint ones (l : list bool) : nat := match l with [] => 0 | b :: t => (if b then 1 else 0) + ones t end.
Fixpoint enc (l : list bool) (k : nat) : N :=
  match l with [] => 0%N | true :: t => (C (length t) k + enc t (k - 1))%N | false :: t => enc t k end.
Lemma ones_le : forall l, ones l <= length l.
Proof. induction l as [|[|] l IH]; cbn; lia. Qed.
Lemma enc_lt : forall l, (enc l (ones l) < C (length l) (ones l))%N.
Proof.
  induction l as [|[|] l IH]; [reflexivity| |].
  - cbn [enc ones length]. change (1 + ones l) with (S (ones l)). replace (S (ones l) - 1) with (ones l) by lia. rewrite C_S. lia.
  - cbn [enc ones length]. change (0 + ones l) with (ones l). pose proof (C_mono (ones l) (length l) (S (length l)) ltac:(lia)). lia.
Qed.
Lemma enc_head : forall b l, (C (length l) (ones (b :: l)) <=? enc (b :: l) (ones (b :: l)))%N = b.
Proof.
  intros [|] l; cbn [enc].
  - lia.
  - cbn [ones]. change (0 + ones l) with (ones l). pose proof (enc_lt l). lia.
Qed.
(** the code is injective *)
Lemma enc_inj : forall l l', length l = length l' -> ones l = ones l' -> enc l (ones l) = enc l' (ones l') -> l = l'.
Proof.
  induction l as [|b l IH]; intros [|b' l'] L O E; try discriminate; auto.
  cbn [length] in L. injection L as L. pose proof (enc_head b l) as H1. pose proof (enc_head b' l') as H2.
  rewrite <- L, <- O in H2. rewrite <- O in E. rewrite <- E in H2. rewrite H1 in H2. subst b'. f_equal.
  cbn [ones] in O. apply IH; auto. { lia. } cbn [enc] in E.
  assert (O' : ones l = ones l') by lia. destruct b; cbn [ones enc] in E.
  - change (1 + ones l) with (S (ones l)) in E. replace (S (ones l) - 1) with (ones l) in E by lia. rewrite L in E. rewrite <- O'. lia.
  - rewrite <- O'. cbn in E. exact E.
Qed.
Lemma enc_all0 : forall l, ones l = 0 -> enc l 0 = 0%N.
Proof. induction l as [|[|] l IH]; cbn [ones enc]; intros; auto. lia. Qed.
Lemma enc_all1 : forall l, ones l = length l -> enc l (ones l) = 0%N.
Proof.
  induction l as [|[|] l IH]; intros H; auto.
  - cbn [ones enc length] in *. replace (1 + ones l - 1) with (ones l) by lia. rewrite IH by lia. rewrite C_big by lia. auto.
  - pose proof (ones_le l). cbn [ones length] in H. lia.
Qed.
Lemma ones_0_false : forall l i, ones l = 0 -> nth i l false = false.
Proof. induction l as [|[|] l IH]; intros i H; cbn [ones] in H; destruct i; cbn [nth]; auto; try lia. Qed.
Lemma ones_full : forall l i, ones l = length l -> i < length l -> nth i l false = true.
Proof.
  induction l as [|b l IH]; intros i H L; cbn [ones length] in *; [lia|]. pose proof (ones_le l).
  destruct b; [|lia]. destruct i; auto. cbn [nth]. apply IH; lia.
Qed.
(** split at the first one *)
Lemma first_one : forall l, 0 < ones l -> exists j t, l = repeat false j ++ true :: t.
Proof.
  induction l as [|[|] l IH]; cbn [ones]; intro H; [lia| |].
  - exists 0, l. auto.
  - destruct IH as [j [t E]]; [lia|]. exists (S j), t. rewrite E. auto.
Qed.
Lemma ones_app : forall a b, ones (a ++ b) = ones a + ones b.
Proof. induction a as [|[|] a IH]; intros; cbn; rewrite ?IH; auto. Qed.
Lemma ones_repeat : forall j, ones (repeat false j) = 0. Proof. induction j; auto. Qed.
Lemma enc_zeros : forall j t k, enc (repeat false j ++ t) k = enc t k. Proof. induction j; intros; cbn; auto. Qed.
Lemma enc_first : forall j t k, k = ones (repeat false j ++ true :: t) ->
  k = S (ones t) /\ enc (repeat false j ++ true :: t) k = (C (length t) k + enc t (ones t))%N.
Proof.
  intros j t k ->. rewrite ones_app, ones_repeat. cbn [ones]. split; [lia|]. rewrite enc_zeros. cbn [enc]. do 2 f_equal. lia.
Qed.
(** the binary search finds the first one *)
Lemma bsearch_ok : forall f nr k lb rb x, rb - lb < f -> lb <= S x <= rb -> 1 <= lb ->
  (forall y, 1 <= y <= x -> (C (y - 1) k <= nr)%N) -> (forall y, x < y < rb -> (nr < C (y - 1) k)%N) ->
  bsearch f nr k lb rb = Some (S x).
Proof.
  induction f as [|f IH]; intros nr k lb rb x F B L1 A1 A2; [lia|].
  cbn [bsearch]. destruct (Nat.ltb_spec lb rb); [|f_equal; lia].
  assert (M : lb <= (lb + rb) / 2 < rb) by lia. set (mid := (lb + rb) / 2) in *. clearbody mid.
  destruct (N.leb_spec (C (mid - 1) k) nr).
  - apply IH; auto; try lia. split; [|lia]. destruct (Nat.le_gt_cases mid x); [lia|]. specialize (A2 mid ltac:(lia)). lia.
  - apply IH; auto; try lia. { split; [lia|]. destruct (Nat.le_gt_cases mid x); [|lia]. specialize (A1 mid ltac:(lia)). lia. }
    intros y Hy. apply A2. lia.
Qed.
Lemma bsearch_first : forall j t k nn, k = ones (repeat false j ++ true :: t) -> nn = length (repeat false j ++ true :: t) ->
  bsearch (nn + 2) (enc (repeat false j ++ true :: t) k) k k (nn + 1) = Some (S (S (length t))).
Proof.
  intros j t k nn K L. destruct (enc_first j t k K) as [K2 E]. rewrite E. rewrite app_length, repeat_length in L. cbn [length] in L.
  pose proof (ones_le t) as OL. pose proof (enc_lt t) as EL.
  apply bsearch_ok; try lia.
  - intros y Hy. pose proof (C_mono k (y - 1) (length t) ltac:(lia)). lia.
  - intros y Hy. pose proof (C_mono k (S (length t)) (y - 1) ltac:(lia)) as M. rewrite K2 in *. rewrite C_S in M. lia.
Qed.
