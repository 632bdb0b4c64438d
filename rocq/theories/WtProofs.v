(** * Lists, filters and bits under the wavelet trees *)
From Coq Require Import NArith ZArith List Lia Bool Arith Permutation.
From Verif Require Import Base SpecBits RankSelect AbsVec WtBase SpecWt.
Import ListNotations.

Definition cnt {A} (f : A -> bool) (T : list A) (i : nat) : nat := length (filter f (firstn i T)).
(* the elements whose bit d is b *)
Definition fb (b : bool) (d : nat) (x : N) : bool := Bool.eqb (tb x d) b.
Global Arguments fb : simpl never.

Lemma fb_true : forall d x, fb true d x = tb x d. Proof. intros. unfold fb. destruct (tb x d); auto. Qed.
Lemma fb_false : forall d x, fb false d x = negb (tb x d). Proof. intros. unfold fb. destruct (tb x d); auto. Qed.
Lemma fb_negb : forall b d x, fb (negb b) d x = negb (fb b d x).
Proof. intros. unfold fb. destruct (tb x d), b; auto. Qed.

Section C.
Variable A : Type.
Implicit Types (f : A -> bool) (T : list A).
Lemma firstn_S_nth : forall T i d, i < length T -> firstn (S i) T = firstn i T ++ [nth i T d].
Proof. induction T; simpl; intros; [lia|]. destruct i; simpl; auto. f_equal. apply IHT. lia. Qed.
Lemma cnt_0 : forall f T, cnt f T 0 = 0. Proof. reflexivity. Qed.
Lemma cnt_S : forall f T i d, i < length T -> cnt f T (S i) = cnt f T i + b2nat (f (nth i T d)).
Proof. intros. unfold cnt. rewrite (firstn_S_nth T i d H), filter_app, app_length. simpl. destruct (f (nth i T d)); auto. Qed.
Lemma filter_le : forall f T, length (filter f T) <= length T.
Proof. induction T; simpl; auto. destruct (f a); simpl; lia. Qed.
Lemma cnt_le : forall f T i, cnt f T i <= i.
Proof. intros. unfold cnt. etransitivity; [apply filter_le|]. rewrite firstn_length. lia. Qed.
Lemma firstn_app_skip : forall T i j, i <= j -> firstn j T = firstn i T ++ firstn (j - i) (skipn i T).
Proof.
  intros. rewrite <- (firstn_skipn i T) at 1. rewrite firstn_app, firstn_firstn.
  replace (Nat.min j i) with i by lia. f_equal. rewrite firstn_length.
  destruct (Nat.le_gt_cases i (length T)). { f_equal. lia. }
  rewrite skipn_all2 by lia. now rewrite !firstn_nil.
Qed.
Lemma cnt_mono : forall f T i j, i <= j -> cnt f T i <= cnt f T j.
Proof. intros. unfold cnt. rewrite (firstn_app_skip T i j H), filter_app, app_length. lia. Qed.
Lemma cnt_diff : forall f T i j, i <= j -> cnt f T j - cnt f T i = length (filter f (firstn (j - i) (skipn i T))).
Proof. intros. unfold cnt. rewrite (firstn_app_skip T i j H), filter_app, app_length. lia. Qed.
Lemma cnt_all : forall f T i, length T <= i -> cnt f T i = length (filter f T).
Proof. intros. unfold cnt. now rewrite firstn_all2. Qed.
Lemma cnt_le_all : forall f T i, cnt f T i <= length (filter f T).
Proof. intros. rewrite <- (cnt_all f T (Nat.max i (length T))) by lia. apply cnt_mono. lia. Qed.
Lemma firstn_filter : forall f T i, firstn (cnt f T i) (filter f T) = filter f (firstn i T).
Proof.
  intros. rewrite <- (firstn_skipn i T) at 2. rewrite filter_app, firstn_app. unfold cnt.
  rewrite firstn_all, Nat.sub_diag. simpl. now rewrite app_nil_r.
Qed.
Lemma skipn_filter : forall f T i, skipn (cnt f T i) (filter f T) = filter f (skipn i T).
Proof.
  intros. rewrite <- (firstn_skipn i T) at 2. rewrite filter_app, skipn_app. unfold cnt.
  rewrite skipn_all, Nat.sub_diag. reflexivity.
Qed.
Lemma nth_filter : forall f T i d, i < length T -> f (nth i T d) = true ->
  nth (cnt f T i) (filter f T) d = nth i T d /\ cnt f T i < length (filter f T).
Proof.
  intros. assert (cnt f T (S i) = cnt f T i + 1) by (rewrite (cnt_S f T i d), H0; auto).
  pose proof (cnt_le_all f T (S i)). split; [|lia].
  assert (nth (cnt f T i) (firstn (cnt f T (S i)) (filter f T)) d = nth (cnt f T i) (filter f T) d).
  { rewrite <- (firstn_skipn (cnt f T (S i)) (filter f T)) at 2. rewrite app_nth1; auto. rewrite firstn_length. lia. }
  rewrite <- H3, firstn_filter, (firstn_S_nth T i d H), filter_app. simpl. rewrite H0.
  rewrite app_nth2; unfold cnt; auto. now rewrite Nat.sub_diag.
Qed.
Lemma cnt_split : forall f g T i, (forall x, In x T -> g x = negb (f x)) -> i <= length T -> cnt f T i + cnt g T i = i.
Proof.
  induction i; intros; auto. destruct T as [|a T']. { simpl in *. lia. }
  rewrite !(cnt_S _ _ i a) by lia. rewrite (H (nth i (a :: T') a)) by (apply nth_In; lia).
  specialize (IHi H). destruct (f (nth i (a :: T') a)); cbn [b2nat negb]; lia.
Qed.
Lemma filter_filter_same : forall f g T, (forall x, In x T -> f x = true -> g x = true) -> filter f (filter g T) = filter f T.
Proof.
  induction T; simpl; intros; auto. assert (E : filter f (filter g T) = filter f T) by (apply IHT; auto).
  destruct (g a) eqn:G; simpl. { destruct (f a); rewrite E; auto. }
  destruct (f a) eqn:F; auto. specialize (H a (or_introl eq_refl) F). congruence.
Qed.
Lemma filter_nil : forall f T, (forall x, In x T -> f x = false) -> filter f T = [].
Proof. induction T; simpl; intros; auto. rewrite H; auto. Qed.
Lemma filter_all : forall f T, (forall x, In x T -> f x = true) -> filter f T = T.
Proof. induction T; simpl; intros; auto. rewrite H; auto. f_equal. auto. Qed.
Lemma filter_ext_in2 : forall f g T, (forall x, In x T -> f x = g x) -> filter f T = filter g T.
Proof. induction T; simpl; intros; auto. rewrite H, IHT; auto. Qed.
Lemma slice_filter : forall f T i j, i <= j ->
  firstn (cnt f T j - cnt f T i) (skipn (cnt f T i) (filter f T)) = filter f (firstn (j - i) (skipn i T)).
Proof.
  intros. rewrite skipn_filter, cnt_diff by auto.
  rewrite <- (firstn_skipn (j - i) (skipn i T)) at 2. rewrite filter_app, firstn_app, firstn_all, Nat.sub_diag.
  simpl. now rewrite app_nil_r.
Qed.
End C.
Arguments cnt_S {A}. Arguments cnt_le {A}. Arguments cnt_mono {A}. Arguments cnt_le_all {A}. Arguments cnt_all {A}.
Arguments nth_filter {A}. Arguments firstn_S_nth {A}.

Lemma In_firstn : forall A (l : list A) i x, In x (firstn i l) -> In x l.
Proof. intros. rewrite <- (firstn_skipn i l). apply in_or_app. auto. Qed.
Lemma In_skipn : forall A (l : list A) i x, In x (skipn i l) -> In x l.
Proof. intros. rewrite <- (firstn_skipn i l). apply in_or_app. auto. Qed.

Lemma cnt_fb : forall d T i, i <= length T -> i - cnt (fb true d) T i = cnt (fb false d) T i.
Proof.
  intros. pose proof (cnt_split _ (fb true d) (fb false d) T i ltac:(intros; apply (fb_negb true)) H). lia.
Qed.
Lemma len_fb : forall d T, length T - length (filter (fb true d) T) = length (filter (fb false d) T).
Proof. intros. rewrite <- !(cnt_all _ T (length T)) by auto. apply cnt_fb. auto. Qed.

(** rank on a part of the tree that holds the bits of T *)
Lemma rank_node : forall (t : list bool) (f : N -> bool) o T i,
  (forall k, k < length T -> t_bit t (o + k) = f (nth k T 0%N)) -> i <= length T ->
  rank_of (t_bit t) (o + i) = rank_of (t_bit t) o + cnt f T i.
Proof.
  induction i; intros. { rewrite Nat.add_0_r, cnt_0. lia. }
  rewrite Nat.add_succ_r, rank_of_S, IHi, H, (cnt_S f T i 0%N) by (auto; lia). lia.
Qed.
Lemma t_rank_some : forall t p, p <= length t -> t_rank t p = Some (rank_of (t_bit t) p).
Proof. intros. unfold t_rank. destruct (Nat.leb_spec p (length t)); auto. lia. Qed.
Lemma csub_some : forall a b c, a = b + c -> csub a b = Some c.
Proof. intros. unfold csub. destruct (Nat.leb_spec b a); [f_equal; lia|lia]. Qed.
Lemma t_get_some : forall t p, p < length t -> t_get t p = Some (t_bit t p).
Proof. intros. unfold t_get, t_bit. apply nth_error_some_nth. auto. Qed.

(** select *)
Lemma t_sel1_some : forall t i p, is_select (t_bit t) i p -> p < length t -> t_sel1 t i = Some p.
Proof.
  intros. unfold t_sel1. pose proof (is_select_pos _ _ _ H). pose proof (is_select_le_rank _ _ _ _ H H0).
  destruct (Nat.eqb_spec i 0); [lia|]. rewrite (nth_error_some_nth _ _ _ 0).
  - f_equal. apply select_positions; auto.
  - fold (rank_of (t_bit t) (length t)). lia.
Qed.
Lemma t_sel0_some : forall t i p, is_select (fun q => negb (t_bit t q)) i p -> p < length t -> t_sel0 t i = Some p.
Proof.
  intros. unfold t_sel0. pose proof (is_select_pos _ _ _ H). pose proof (is_select_le_rank _ _ _ _ H H0).
  destruct (Nat.eqb_spec i 0); [lia|]. rewrite (nth_error_some_nth _ _ _ 0).
  - f_equal. apply select_positions; auto.
  - fold (rank_of (fun q => negb (t_bit t q)) (length t)). lia.
Qed.
(* selecting inside a node: the element at index k of T, whose bit is b *)
Lemma sel_node1 : forall t d o T k,
  (forall k, k < length T -> t_bit t (o + k) = tb (nth k T 0%N) d) -> o + length T <= length t ->
  k < length T -> tb (nth k T 0%N) d = true ->
  t_sel1 t (rank_of (t_bit t) o + (cnt (fb true d) T k + 1)) = Some (o + k).
Proof.
  intros. apply t_sel1_some; [|lia]. split. { rewrite H; auto. }
  rewrite (rank_node t (fb true d) o T k) by (try lia; intros; rewrite fb_true; auto). lia.
Qed.
Lemma sel_node0 : forall t d o T k,
  (forall k, k < length T -> t_bit t (o + k) = tb (nth k T 0%N) d) -> o + length T <= length t ->
  k < length T -> tb (nth k T 0%N) d = false ->
  t_sel0 t (o - rank_of (t_bit t) o + (cnt (fb false d) T k + 1)) = Some (o + k).
Proof.
  intros. apply t_sel0_some; [|lia]. split. { rewrite H, H2; auto. }
  rewrite rank_of_negb, (rank_node t (fb true d) o T k) by (try lia; intros; rewrite fb_true; auto).
  rewrite <- cnt_fb by lia. pose proof (cnt_le (fb true d) T k). pose proof (rank_of_le (t_bit t) o). lia.
Qed.

(** words *)
Lemma hit_tb : forall x d, negb (N.land x (2 ^ N.of_nat d) =? 0)%N = tb x d.
Proof.
  intros. assert (E : N.land x (2 ^ N.of_nat d) = if tb x d then (2 ^ N.of_nat d)%N else 0%N).
  { apply tb_ext. intros k. rewrite tb_land. unfold tb at 2. rewrite N.pow2_bits_eqb.
    destruct (N.eqb_spec (N.of_nat d) (N.of_nat k)) as [e|].
    - assert (k = d) by lia. subst. destruct (tb x d) eqn:E; rewrite ?tb_0; auto. unfold tb. now rewrite N.pow2_bits_true.
    - rewrite andb_false_r. destruct (tb x d); rewrite ?tb_0; auto. unfold tb. now rewrite N.pow2_bits_false. }
  rewrite E. destruct (tb x d); auto. destruct (N.eqb_spec (2 ^ N.of_nat d) 0); auto.
  pose proof (N.pow_nonzero 2 (N.of_nat d)). lia.
Qed.
Lemma shl1_pow : forall d, d < 64 -> shl 1 d = (2 ^ N.of_nat d)%N.
Proof.
  intros. unfold shl. rewrite N.shiftl_1_l, N.mod_small; auto. rewrite W64_pow. apply N.pow_lt_mono_r; lia.
Qed.
Lemma shl_c_pow : forall d, d < 64 -> shl_c 1 d = Some (2 ^ N.of_nat d)%N.
Proof. intros. unfold shl_c. destruct (Nat.ltb_spec d 64); [|lia]. now rewrite shl1_pow. Qed.
Lemma shr_pow_S : forall d, shr (2 ^ N.of_nat (S d)) 1 = (2 ^ N.of_nat d)%N.
Proof.
  intros. rewrite shr_div. change (2 ^ N.of_nat 1)%N with 2%N. rewrite Nat2N.inj_succ, N.pow_succ_r'. rewrite N.mul_comm. apply N.div_mul. lia.
Qed.
Lemma shl_pow : forall d, S d < 64 -> shl (2 ^ N.of_nat d) 1 = (2 ^ N.of_nat (S d))%N.
Proof.
  intros. rewrite shl_mul. change (2 ^ N.of_nat 1)%N with 2%N. rewrite Nat2N.inj_succ, N.pow_succ_r', N.mul_comm.
  rewrite N.mod_small; auto. rewrite <- N.pow_succ_r', <- Nat2N.inj_succ, W64_pow. apply N.pow_lt_mono_r; lia.
Qed.
Lemma prefix1 : forall x d, is_word x -> tb x d = true -> N.lor (shl (shr x (S d)) 1) 1 = shr x d.
Proof.
  intros. apply tb_ext. intros k. rewrite tb_lor, tb_shl, !tb_shr. destruct k.
  - simpl. rewrite H0. unfold tb. simpl. auto.
  - replace (S k - 1 + S d) with (S k + d) by lia. replace (1 <=? S k) with true by reflexivity. simpl andb.
    replace (tb 1 (S k)) with false by (unfold tb; symmetry; apply (N.bits_above_log2 1); simpl; lia).
    rewrite orb_false_r. destruct (Nat.ltb_spec (S k) 64); auto. simpl. symmetry. apply tb_word_high; auto. lia.
Qed.
Lemma prefix0 : forall x d, is_word x -> tb x d = false -> shl (shr x (S d)) 1 = shr x d.
Proof.
  intros. apply tb_ext. intros k. rewrite tb_shl, !tb_shr. destruct k.
  - simpl. auto.
  - replace (S k - 1 + S d) with (S k + d) by lia. replace (1 <=? S k) with true by reflexivity. simpl andb.
    destruct (Nat.ltb_spec (S k) 64); auto. simpl. symmetry. apply tb_word_high; auto. lia.
Qed.
Lemma shr_step : forall x y d, shr x (S d) = shr y (S d) -> tb x d = tb y d -> shr x d = shr y d.
Proof.
  intros. apply tb_ext. intros k. rewrite !tb_shr. destruct k; auto.
  pose proof (f_equal (fun z => tb z k) H) as E. cbv beta in E. rewrite !tb_shr in E.
  replace (S k + d) with (k + S d) by lia. auto.
Qed.
Lemma shr_step_inv : forall x y d, shr x d = shr y d -> shr x (S d) = shr y (S d) /\ tb x d = tb y d.
Proof.
  intros. split.
  - apply tb_ext. intros k. pose proof (f_equal (fun z => tb z (S k)) H) as E. cbv beta in E. rewrite !tb_shr in *.
    replace (k + S d) with (S k + d) by lia. auto.
  - pose proof (f_equal (fun z => tb z 0) H) as E. cbv beta in E. rewrite !tb_shr in E. auto.
Qed.
Lemma shr_0 : forall x, shr x 0 = x. Proof. intros. unfold shr. apply N.shiftr_0_r. Qed.
Lemma shr_small : forall x d, (x < 2 ^ N.of_nat d)%N -> shr x d = 0%N.
Proof. intros. rewrite shr_div. apply N.div_small. auto. Qed.
(* comparing two numbers with a common prefix by their next bit *)
Lemma bit_lt : forall x y d, shr x (S d) = shr y (S d) -> tb x d = false -> tb y d = true -> (x < y)%N.
Proof.
  intros. assert (shr x d < shr y d)%N.
  { assert (E : forall z, shr z d = (2 * shr z (S d) + b2n (tb z d))%N).
    { intros z. rewrite !shr_div, Nat2N.inj_succ, N.pow_succ_r', (N.mul_comm 2 (2 ^ _)), <- N.div_div by (try apply N.pow_nonzero; lia).
      unfold tb. rewrite N.testbit_eqb. rewrite (N.div_mod (z / 2 ^ N.of_nat d) 2) at 1 by lia.
      f_equal. pose proof (N.mod_upper_bound (z / 2 ^ N.of_nat d) 2 ltac:(lia)) as B.
      revert B. generalize ((z / 2 ^ N.of_nat d) mod 2)%N. clear. intros r B. destruct (N.eqb_spec r 1); simpl; lia. }
    rewrite !E, H, H0, H1. simpl. lia. }
  rewrite !shr_div in H2. apply N.nle_gt. intro. apply (N.div_le_mono _ _ (2 ^ N.of_nat d)) in H3. lia. apply N.pow_nonzero. lia.
Qed.
Lemma shr_mono : forall x y d, (x <= y)%N -> (shr x d <= shr y d)%N.
Proof. intros. rewrite !shr_div. apply N.div_le_mono; auto. apply N.pow_nonzero. lia. Qed.
