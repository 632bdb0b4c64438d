(** * Proofs about the select supports: traits and scan *)
From Coq Require Import NArith List Bool Arith Lia.
From Verif Require Import Base Bits SpecBits RankSelect BitsProofs BitsProofs2 BitsProofs3 BitsProofs4 BitsMem
  IntVector SpecIntVector IntVectorProofs IntVectorProofs3 SpecRank RankSupport RankSupportProofs RankSupportProofs2 AbsVec SelectSupport.
Import ListNotations.

Lemma sst_word_eq : forall p w c, sst_word p w c = rt_map p w c.
Proof. destruct p; intros; cbn [sst_word rt_map]; auto. - f_equal. apply N.lor_comm. - apply N.land_comm. Qed.

Lemma lo_unset_bit : forall o k, o <= 64 -> tb (lo_unset o) k = (o <=? k) && (k <? 64).
Proof. intros. unfold lo_unset. rewrite tb_wnot, tb_lo_set. destruct (Nat.ltb_spec k o), (Nat.ltb_spec k 64), (Nat.leb_spec o k); auto; lia. Qed.

Lemma rank_tail : forall (f g : nat -> bool) a o n, o <= n -> (forall k, k < o -> g k = false) ->
  (forall k, o <= k < n -> g k = f (a + k)) -> rank_of g n = rank_of f (a + n) - rank_of f (a + o).
Proof.
  intros f g a o n L Z E. replace n with (o + (n - o)) at 1 by lia. rewrite rank_of_add.
  rewrite (rank_of_all_false g 0 o) by (intros; try apply Z; lia). change (rank_of g 0) with 0. cbn [plus].
  replace (a + n) with ((a + o) + (n - o)) by lia. rewrite (rank_of_add f). 
  rewrite (rank_of_ext (fun j => g (o + j)) (fun j => f (a + o + j))). lia.
  intros j Hj. rewrite E by lia. f_equal. lia.
Qed.

Section TR.
Variable p : pat.
Variable m : mem.
Hypothesis M : words_ok m.
Let h := occ p (mbit m).
Let R := rank_of h.

Let mp (w : nat) : N := rt_map p (nth w m 0%N) (b2n (rt_c p m w)).

Lemma tail_word : forall w o, o < 64 -> cnt (N.land (mp w) (lo_unset o)) = N.of_nat (R (64 * w + 64) - R (64 * w + o)).
Proof.
  intros w o O. erewrite cnt_rank with (h := fun k => (o <=? k) && h (64 * w + k)).
  - f_equal. apply rank_tail; [lia| |].
    + intros. replace (o <=? k) with false by lia. auto.
    + intros. replace (o <=? k) with true by lia. auto.
  - apply is_word_land_l. apply rt_map_word. auto.
  - intros k K. rewrite tb_land, lo_unset_bit by lia. unfold mp. rewrite rt_map_bits by auto.
    replace (k <? 64) with true by lia. rewrite andb_true_r, andb_comm. auto.
Qed.
Lemma full_word : forall w, fst (rt_args p (nth w m 0%N) (b2n (rt_c p m w))) = N.of_nat (R (64 * w + 64) - R (64 * w)).
Proof.
  intros. rewrite rt_args_ok by auto. cbn [fst]. f_equal. unfold R. rewrite rank_of_add. fold h. unfold h. lia.
Qed.
End TR.

Lemma sst_first_ok : forall p m w o, words_ok m -> o < 64 ->
  sst_first p (nth w m 0%N) o (b2n (rt_c p m w)) =
  N.of_nat (rank_of (occ p (mbit m)) (64 * w + 64) - rank_of (occ p (mbit m)) (64 * w + o)).
Proof.
  intros p m w o M O. pose proof (tail_word p m M w o O) as T.
  pose proof (words_ok_nth _ w M) as X.
  destruct p; cbn [sst_first rt_map rt_c] in *; auto.
  - destruct (Nat.eqb_spec o 0) as [->|Z].
    + rewrite full_word by auto. rewrite Nat.add_0_r. auto.
    + rewrite <- T. f_equal. apply tb_word_ext. { apply is_word_land_l. auto with word. } { apply is_word_land_l. auto with word. }
      intros k K. rewrite !tb_land, lo_unset_bit by lia. destruct (Nat.leb_spec o k) as [E|E]; [|rewrite !andb_false_r; auto].
      replace (k <? 64) with true by lia. rewrite !andb_true_r. rewrite !tb_wnot, !tb_lor, !tb_shl.
      match goal with |- context [b2n ?b] => replace (tb (b2n b) k) with false; [rewrite orb_false_r; auto|] end.
      destruct k; [lia|]. symmetry. match goal with |- tb (b2n ?b) _ = _ => destruct b end; [|apply tb_0].
      unfold tb. cbn [b2n]. change 1%N with (2 ^ 0)%N. apply N.pow2_bits_false. lia.
  - destruct (Nat.eqb_spec o 0) as [->|Z].
    + rewrite full_word by auto. rewrite Nat.add_0_r. auto.
    + set (h := occ P11 (mbit m)).
      erewrite cnt_rank with (h := fun k => (k <? 64 - o) && h (64 * w + o + k)).
      * f_equal. replace 64 with ((64 - o) + o) at 1 by lia. rewrite rank_of_add.
        rewrite (rank_of_all_false (fun j => (64 - o + j <? 64 - o) && _ ) 0 o); [|lia|intros; replace (64 - o + j <? 64 - o) with false by lia; auto].
        replace (64 * w + 64) with ((64 * w + o) + (64 - o)) by lia. rewrite (rank_of_add h).
        match goal with |- _ + rank_of ?f 0 = _ => change (rank_of f 0) with 0 end.
        rewrite (rank_of_ext (fun k => (k <? 64 - o) && h (64 * w + o + k)) (fun j => h (64 * w + o + j))); [lia|].
        intros. replace (j <? 64 - o) with true by lia. auto.
      * apply is_word_land_l. auto with word.
      * intros k K. rewrite tb_land, !tb_shr. unfold h, occ. destruct (Nat.ltb_spec k (64 - o)) as [E|E].
        -- replace (0 <? 64 * w + o + k) with true by lia. cbn [andb].
           replace (64 * w + o + k - 1) with (64 * w + (k + (o - 1))) by lia. replace (64 * w + o + k) with (64 * w + (k + o)) by lia.
           rewrite !mbit_wo by lia. auto.
        -- cbn [andb]. rewrite (tb_word_high _ (k + o)) by (auto; lia). apply andb_false_r.
Qed.

Lemma sst_sel_ok : forall x i q, is_word x -> is_select (tb x) i q -> q < 64 -> sst_sel x i = Some q.
Proof.
  intros x i q X S Q. assert (I1 := is_select_pos _ _ _ S). assert (I2 := is_select_le_rank _ _ _ 64 S Q).
  unfold sst_sel. destruct (sel_correct x i X) as [q' [E S']]. { rewrite popcount_rank. lia. }
  pose proof (rank_of_le (tb x) 64). unfold u32. rewrite N.mod_small by (change (2 ^ 32)%N with 4294967296%N; lia). rewrite E. cbn [obind].
  rewrite Nnat.Nat2N.id. f_equal. eapply is_select_unique; eauto.
Qed.

(** the i-th argument at or after 64w+o lies in word w *)
Lemma sst_ith_first_ok : forall p m w o i q, words_ok m -> o < 64 -> o <= q < 64 ->
  is_select (occ p (mbit m)) (rank_of (occ p (mbit m)) (64 * w + o) + i) (64 * w + q) ->
  sst_ith_first p (nth w m 0%N) i o (b2n (rt_c p m w)) = Some q.
Proof.
  intros p m w o i q M O Q [S1 S2]. unfold sst_ith_first. rewrite sst_word_eq. apply sst_sel_ok; [|split|lia].
  - apply is_word_land_l. apply rt_map_word. auto.
  - rewrite tb_land, lo_unset_bit, rt_map_bits by (auto; lia). rewrite S1. replace (o <=? q) with true by lia. replace (q <? 64) with true by lia. auto.
  - rewrite (rank_tail (occ p (mbit m)) _ (64 * w) o q); [|lia| |].
    + pose proof (rank_of_mono (occ p (mbit m)) (64 * w + o) (64 * w + q)). lia.
    + intros. rewrite tb_land, lo_unset_bit by lia. replace (o <=? k) with false by lia. apply andb_false_r.
    + intros. rewrite tb_land, lo_unset_bit, rt_map_bits by (auto; lia). replace (o <=? k) with true by lia. replace (k <? 64) with true by lia. apply andb_true_r.
Qed.
Lemma sst_ith_ok : forall p m w i q, words_ok m -> q < 64 ->
  is_select (occ p (mbit m)) (rank_of (occ p (mbit m)) (64 * w) + i) (64 * w + q) ->
  sst_ith p (nth w m 0%N) i (b2n (rt_c p m w)) = Some q.
Proof.
  intros p m w i q M Q [S1 S2]. unfold sst_ith. rewrite sst_word_eq. apply sst_sel_ok; [|split|lia].
  - apply rt_map_word. auto.
  - rewrite rt_map_bits by auto. auto.
  - rewrite (rank_of_ext _ (fun k => occ p (mbit m) (64 * w + k))) by (intros; apply rt_map_bits; auto; lia).
    rewrite rank_of_add in S2. lia.
Qed.

Lemma rt_args_R : forall p m w, words_ok m -> let h := occ p (mbit m) in
  rt_args p (nth w m 0%N) (b2n (rt_c p m w)) = (N.of_nat (rank_of h (64 * w + 64) - rank_of h (64 * w)), b2n (rt_c p m (S w))).
Proof. intros p m w M h. rewrite rt_args_ok by auto. apply f_equal2; auto. f_equal. unfold h. rewrite rank_of_add. lia. Qed.

Lemma sst_loop_ok : forall p m fuel w i base T q, words_ok m -> (N.of_nat (64 * length m) < W64)%N ->
  let h := occ p (mbit m) in
  base <= rank_of h (64 * w) -> T = base + i -> rank_of h (64 * w) < T -> is_select h T q -> q < 64 * length m -> q / 64 - w < fuel ->
  sst_loop p m fuel w (b2n (rt_c p m w)) (N.of_nat (rank_of h (64 * w) - base)) i = Some q.
Proof.
  induction fuel; intros w i base T q M LB h B TE RT SE Q F; [lia|]. cbn [sst_loop].
  assert (QW : 64 * w <= q). { apply Nat.nlt_ge. intro. destruct SE as [S1 S2]. pose proof (rank_of_mono h (S q) (64 * w)). rewrite rank_of_S, S1 in *. cbn [b2nat] in *. lia. }
  rewrite ld_some by lia. cbn [obind]. rewrite rt_args_R by auto. fold h.
  assert (MW : rank_of h (64 * w) <= rank_of h (64 * w + 64)) by (apply rank_of_mono; lia). pose proof (rank_of_le h (64 * w + 64)).
  rewrite wadd_small by lia.
  destruct (N.ltb_spec (N.of_nat (rank_of h (64 * w) - base) + N.of_nat (rank_of h (64 * w + 64) - rank_of h (64 * w)))%N (N.of_nat i)) as [E|E].
  - replace (N.of_nat (rank_of h (64 * w) - base) + N.of_nat (rank_of h (64 * w + 64) - rank_of h (64 * w)))%N with (N.of_nat (rank_of h (64 * S w) - base)) by (replace (64 * S w) with (64 * w + 64) by lia; lia).
    assert (QG : 64 * w + 64 <= q). { apply Nat.nlt_ge. intro QL. assert (Z := is_select_le_rank _ _ _ (64 * w + 64) SE QL). lia. }
    apply (IHfuel (S w) i base T q); auto; fold h; try replace (64 * S w) with (64 * w + 64) by lia; lia.
  - assert (QL : q < 64 * w + 64). { apply (is_select_lt h T q (64 * w + 64)); auto. lia. }
    assert (EI : sst_ith p (nth w m 0%N) (i - N.to_nat (N.of_nat (rank_of h (64 * w) - base))) (b2n (rt_c p m w)) = Some (q - 64 * w)).
    { apply sst_ith_ok; auto; try lia. fold h. replace (64 * w + (q - 64 * w)) with q by lia.
      replace (rank_of h (64 * w) + (i - N.to_nat (N.of_nat (rank_of h (64 * w) - base)))) with T by lia. auto. }
    rewrite EI. cbn [obind]. f_equal. lia.
Qed.

Lemma sst_init_carry_ok : forall p m w, words_ok m -> w <= length m -> sst_init_carry p m w = Some (b2n (rt_c p m w)).
Proof.
  intros p m w M W.
  assert (G : forall w', w' < length m -> ld m w' = Some (nth w' m 0%N)) by (intros; apply ld_some; auto).
  destruct p; cbn [sst_init_carry rt_c]; auto; destruct w; cbn [negb Nat.eqb]; auto;
    (replace (S w - 1) with w by lia; rewrite G by lia; cbn [obind]; f_equal; apply shr63; apply words_ok_nth; auto).
Qed.
Lemma sst_get_carry_ok : forall p m w, words_ok m -> sst_get_carry p (nth w m 0%N) = b2n (rt_c p m (S w)).
Proof. intros p m w M. destruct p; cbn [sst_get_carry rt_c]; auto; apply shr63; apply words_ok_nth; auto. Qed.

(** the i-th argument at or after [pos] *)
Lemma sst_scan_ok : forall p m pos i q, words_ok m -> (N.of_nat (64 * length m) < W64)%N -> 1 <= i ->
  let h := occ p (mbit m) in is_select h (rank_of h pos + i) q -> q < 64 * length m -> sst_scan p m pos i = Some q.
Proof.
  intros p m pos i q M LB I h SE Q. unfold sst_scan. set (w := pos / 64). set (o := pos mod 64).
  assert (EP : pos = 64 * w + o) by (unfold w, o; lia). assert (O : o < 64) by (unfold o; lia).
  assert (QP : pos <= q). { apply Nat.nlt_ge. intro. destruct SE as [S1 S2]. pose proof (rank_of_mono h (S q) pos). rewrite rank_of_S, S1 in *. cbn [b2nat] in *. lia. }
  clearbody w o. subst pos.
  rewrite sst_init_carry_ok by (auto; lia). cbn [obind]. rewrite ld_some by lia. cbn [obind].
  rewrite sst_first_ok by auto. fold h. assert (MW : rank_of h (64 * w + o) <= rank_of h (64 * w + 64)) by (apply rank_of_mono; lia).
  destruct (N.leb_spec (N.of_nat i) (N.of_nat (rank_of h (64 * w + 64) - rank_of h (64 * w + o)))) as [E|E].
  - assert (QL : q < 64 * w + 64). { apply (is_select_lt h _ q (64 * w + 64) SE). lia. }
    rewrite (sst_ith_first_ok p m w o i (q - 64 * w)); auto; try lia.
    + cbn [obind]. f_equal. lia.
    + fold h. replace (64 * w + (q - 64 * w)) with q by lia. auto.
  - rewrite sst_get_carry_ok by auto.
    replace (rank_of h (64 * w + 64)) with (rank_of h (64 * S w)) in * by (f_equal; lia).
    apply (sst_loop_ok p m (length m) (S w) i (rank_of h (64 * w + o)) (rank_of h (64 * w + o) + i) q); auto; fold h; try lia.
Qed.
