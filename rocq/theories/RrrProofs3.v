(** * Integers, fields of bits and bin_to_nr *)
From Coq Require Import NArith List Bool Arith Lia.
From Verif Require Import Base SpecBits RrrHelper RrrProofs RrrProofs2.
Import ListNotations.

Lemma bits_N_cons : forall b t, bits_N (b :: t) = (N.b2n b + 2 * bits_N t)%N. Proof. reflexivity. Qed.
Lemma bits_N_testbit : forall l i, N.testbit (bits_N l) (N.of_nat i) = nth i l false.
Proof.
  induction l as [|b l IH]; intros i. { cbn [bits_N]. rewrite N.bits_0. destruct i; auto. }
  rewrite bits_N_cons. rewrite N.add_comm. destruct i.
  - cbn [N.of_nat nth]. apply N.testbit_0_r.
  - rewrite Nat2N.inj_succ. rewrite N.testbit_succ_r. cbn [nth]. auto.
Qed.
Lemma bits_N_lt : forall l, (bits_N l < 2 ^ N.of_nat (length l))%N.
Proof. induction l as [|b l IH]; [reflexivity|]. cbn [length]. rewrite bits_N_cons, Nat2N.inj_succ, N.pow_succ_r'. destruct b; cbn [N.b2n]; lia. Qed.
Lemma bits_N_app : forall a b, bits_N (a ++ b) = (bits_N a + 2 ^ N.of_nat (length a) * bits_N b)%N.
Proof.
  induction a as [|x a IH]; intro b. { cbn [app bits_N length N.of_nat]. rewrite N.pow_0_r. lia. }
  cbn [app length]. rewrite !bits_N_cons, IH, Nat2N.inj_succ, N.pow_succ_r'. lia.
Qed.
Lemma bits_N_pad : forall a j, bits_N (a ++ repeat false j) = bits_N a.
Proof. intros. rewrite bits_N_app. replace (bits_N (repeat false j)) with 0%N. { lia. } induction j; auto. cbn [repeat]. rewrite bits_N_cons, <- IHj. auto. Qed.
Lemma N_bits_length : forall n x, length (N_bits n x) = n.
Proof. intros. unfold N_bits. rewrite map_length, seq_length. auto. Qed.
Lemma N_bits_nth : forall n x i, i < n -> nth i (N_bits n x) false = N.testbit x (N.of_nat i).
Proof. intros. unfold N_bits. rewrite nth_indep with (d' := N.testbit x (N.of_nat 0)) by (rewrite map_length, seq_length; auto). rewrite (map_nth (fun i => N.testbit x (N.of_nat i))). rewrite seq_nth by auto. auto. Qed.
Lemma N_testbit_ext : forall a b, (forall i, N.testbit a (N.of_nat i) = N.testbit b (N.of_nat i)) -> a = b.
Proof. intros. apply N.bits_inj. intro i. rewrite <- (N2Nat.id i). apply H. Qed.
Lemma testbit_high : forall x n i, (x < 2 ^ N.of_nat n)%N -> n <= i -> N.testbit x (N.of_nat i) = false.
Proof.
  intros x n i H L. destruct (N.eq_dec x 0) as [->|Z]; [apply N.bits_0|]. apply N.bits_above_log2.
  apply N.log2_lt_pow2; [lia|]. apply N.lt_le_trans with (1 := H). apply N.pow_le_mono_r; lia.
Qed.
Lemma N_bits_inv : forall n x, (x < 2 ^ N.of_nat n)%N -> bits_N (N_bits n x) = x.
Proof.
  intros n x H. apply N_testbit_ext. intro i. rewrite bits_N_testbit. destruct (Nat.lt_ge_cases i n).
  - apply N_bits_nth. auto.
  - rewrite nth_overflow by (rewrite N_bits_length; auto). symmetry. apply testbit_high with n; auto.
Qed.
Lemma N_bits_app : forall a b x, N_bits (a + b) x = N_bits a x ++ N_bits b (N.shiftr x (N.of_nat a)).
Proof.
  intros. unfold N_bits. rewrite seq_app, map_app. f_equal. cbn [Nat.add].
  rewrite <- (Nat.add_0_r a) at 1. generalize 0 as k. induction b; intro k; [reflexivity|]. cbn [seq map]. f_equal.
  - rewrite N.shiftr_spec'. f_equal. lia.
  - replace (S (a + k)) with (a + S k) by lia. apply IHb.
Qed.

Lemma skipn_skipn : forall (A : Type) a b (l : list A), skipn a (skipn b l) = skipn (a + b) l.
Proof. intros A a b. revert a. induction b; intros a l. { rewrite Nat.add_0_r. auto. } rewrite Nat.add_succ_r. destruct l. { rewrite !skipn_nil. auto. } cbn [skipn]. auto. Qed.
Lemma sub_length : forall l pos len, pos + len <= length l -> length (sub l pos len) = len.
Proof. intros. unfold sub. rewrite firstn_length, skipn_length. lia. Qed.
Lemma sub_nth : forall l pos len i, i < len -> nth i (sub l pos len) false = nth (pos + i) l false.
Proof.
  intros. unfold sub. destruct (Nat.lt_ge_cases (pos + i) (length l)).
  - rewrite <- (firstn_skipn pos l) at 2. rewrite app_nth2; rewrite firstn_length; [|lia]. replace (pos + i - Nat.min pos (length l)) with i by lia.
    rewrite <- (firstn_skipn len (skipn pos l)) at 2. rewrite app_nth1; auto. rewrite firstn_length, skipn_length. lia.
  - rewrite (nth_overflow l) by auto. apply nth_overflow. rewrite firstn_length, skipn_length. lia.
Qed.
Lemma sub_split : forall l pos a b, sub l pos (a + b) = sub l pos a ++ sub l (pos + a) b.
Proof.
  intros. unfold sub. replace (pos + a) with (a + pos) by lia. rewrite <- (firstn_skipn a (firstn (a + b) (skipn pos l))).
  f_equal.
  - rewrite firstn_firstn. f_equal. lia.
  - rewrite skipn_firstn_comm. rewrite skipn_skipn. f_equal. lia.
Qed.
Lemma bget_ok : forall l pos len, len <= 64 -> pos + len <= length l -> bget l pos len = Some (bits_N (sub l pos len)).
Proof. intros. unfold bget. replace (len <=? 64) with true by lia. replace (pos + len <=? length l) with true by lia. auto. Qed.
Lemma bget_join : forall l pos a b, pos + (a + b) <= length l ->
  (bits_N (sub l pos a) + 2 ^ N.of_nat a * bits_N (sub l (pos + a) b))%N = bits_N (sub l pos (a + b)).
Proof. intros. rewrite sub_split, bits_N_app, sub_length by lia. auto. Qed.
Definition lg_ok (lg : nat) : Prop := lg = 6 \/ lg = 7 \/ lg = 8.
Lemma tget_ok : forall lg l pos len, lg_ok lg -> len <= 2 ^ lg -> pos + len <= length l -> tget lg l pos len = Some (bits_N (sub l pos len)).
Proof.
  intros lg l pos len G L P. unfold tget.
  assert (J2 : 64 < len -> (bits_N (sub l pos len) = bits_N (sub l pos 64) + bits_N (sub l (pos + 64) (len - 64)) * 2 ^ 64)%N).
  { intro. replace len with (64 + (len - 64)) at 1 by lia. rewrite <- bget_join by lia. change (2 ^ N.of_nat 64)%N with (2 ^ 64)%N. rewrite (N.mul_comm (2 ^ 64)). auto. }
  destruct G as [->|[->| ->]]; cbn [Nat.eqb].
  - apply bget_ok; auto.
  - change (2 ^ 7) with 128 in L. destruct (Nat.leb_spec len 64). { apply bget_ok; auto. }
    rewrite !bget_ok by lia. cbn [obind]. f_equal. rewrite J2 by auto. apply N.add_comm.
  - change (2 ^ 8) with 256 in L. destruct (Nat.leb_spec len 64). { apply bget_ok; auto. }
    assert (J3 : 128 < len -> (bits_N (sub l (pos + 64) (len - 64)) = bits_N (sub l (pos + 64) 64) + bits_N (sub l (pos + 128) (len - 128)) * 2 ^ 64)%N).
    { intro. replace (len - 64) with (64 + (len - 128)) at 1 by lia. rewrite <- bget_join by lia. change (2 ^ N.of_nat 64)%N with (2 ^ 64)%N. rewrite (N.mul_comm (2 ^ 64)).
      replace (pos + 64 + 64) with (pos + 128) by lia. auto. }
    assert (J4 : 192 < len -> (bits_N (sub l (pos + 128) (len - 128)) = bits_N (sub l (pos + 128) 64) + bits_N (sub l (pos + 192) (len - 192)) * 2 ^ 64)%N).
    { intro. replace (len - 128) with (64 + (len - 192)) at 1 by lia. rewrite <- bget_join by lia. change (2 ^ N.of_nat 64)%N with (2 ^ 64)%N. rewrite (N.mul_comm (2 ^ 64)).
      replace (pos + 128 + 64) with (pos + 192) by lia. auto. }
    change (2 ^ 128)%N with (2 ^ 64 * 2 ^ 64)%N.
    destruct (Nat.leb_spec len 128); [|destruct (Nat.leb_spec len 192)]; rewrite !bget_ok by lia; cbn [obind]; f_equal; rewrite J2 by lia; rewrite ?J3 by lia; rewrite ?J4 by lia;
      repeat match goal with |- context [bits_N ?x] => generalize (bits_N x); intro end; generalize (2 ^ 64)%N; intro; nia.
Qed.
Definition put (l : list bool) (pos : nat) (x : N) (len : nat) : list bool := firstn pos l ++ N_bits len x ++ skipn (pos + len) l.
Lemma put_length : forall l pos x len, pos + len <= length l -> length (put l pos x len) = length l.
Proof. intros. unfold put. rewrite !app_length, firstn_length, skipn_length, N_bits_length. lia. Qed.
Lemma bset_ok : forall l pos x len, len <= 64 -> pos + len <= length l -> bset l pos x len = Some (put l pos x len).
Proof. intros. unfold bset. replace (len <=? 64) with true by lia. replace (pos + len <=? length l) with true by lia. auto. Qed.
Lemma put_put : forall l pos x a b, pos + (a + b) <= length l ->
  put (put l pos x a) (pos + a) (N.shiftr x (N.of_nat a)) b = put l pos x (a + b).
Proof.
  intros. unfold put. rewrite N_bits_app.
  assert (L1 : length (firstn pos l ++ N_bits a x) = pos + a) by (rewrite app_length, firstn_length, N_bits_length; lia).
  rewrite (app_assoc (firstn pos l)). rewrite firstn_app. rewrite L1, Nat.sub_diag, firstn_O, app_nil_r. rewrite firstn_all2 by lia.
  rewrite skipn_app, L1. rewrite skipn_all2 by lia. cbn [app]. rewrite skipn_skipn.
  replace (pos + a + b - (pos + a) + (pos + a)) with (pos + (a + b)) by lia. rewrite <- !app_assoc. auto.
Qed.
Lemma tset_ok : forall lg l pos x len, lg_ok lg -> len <= 2 ^ lg -> pos + len <= length l -> tset lg l pos x len = Some (put l pos x len).
Proof.
  intros lg l pos x len G L P. unfold tset.
  assert (P2 : 64 < len -> put (put l pos x 64) (pos + 64) (N.shiftr x 64) (len - 64) = put l pos x len).
  { intro. change (N.shiftr x 64) with (N.shiftr x (N.of_nat 64)). rewrite put_put by lia. f_equal. lia. }
  destruct G as [->|[->| ->]]; cbn [Nat.eqb].
  - apply bset_ok; auto.
  - change (2 ^ 7) with 128 in L. destruct (Nat.leb_spec len 64). { apply bset_ok; auto. }
    rewrite bset_ok by lia. cbn [obind]. rewrite bset_ok by (rewrite ?put_length; lia). rewrite P2; auto.
  - change (2 ^ 8) with 256 in L. destruct (Nat.leb_spec len 64). { apply bset_ok; auto. }
    rewrite bset_ok by lia. cbn [obind].
    assert (A2 : put (put l pos x 64) (pos + 64) (N.shiftr x 64) 64 = put l pos x (64 + 64) \/ len <= 128).
    { destruct (Nat.lt_ge_cases 128 len); [left|right; lia]. change (N.shiftr x 64) with (N.shiftr x (N.of_nat 64)). apply put_put. lia. }
    destruct (Nat.leb_spec len 128). { rewrite bset_ok by (rewrite ?put_length; lia). rewrite P2; auto. }
    destruct A2 as [A2|]; [|lia].
    rewrite bset_ok by (rewrite ?put_length; lia). cbn [obind]. rewrite A2. change (64 + 64) with 128.
    destruct (Nat.leb_spec len 192).
    + rewrite bset_ok by (rewrite ?put_length; lia). change (N.shiftr x 128) with (N.shiftr x (N.of_nat 128)). rewrite put_put by lia. do 2 f_equal. lia.
    + rewrite bset_ok by (rewrite ?put_length; lia). cbn [obind]. change (N.shiftr x 128) with (N.shiftr x (N.of_nat 128)). rewrite put_put by lia.
      change (128 + 64) with 192. rewrite bset_ok by (rewrite ?put_length; lia). change (N.shiftr x 192) with (N.shiftr x (N.of_nat 192)). rewrite put_put by lia. do 2 f_equal. lia.
Qed.
Lemma sub_put_same : forall l pos x len, pos + len <= length l -> sub (put l pos x len) pos len = N_bits len x.
Proof.
  intros. unfold sub, put. rewrite skipn_app. rewrite skipn_all2 by (rewrite firstn_length; lia). rewrite firstn_length.
  replace (pos - Nat.min pos (length l)) with 0 by lia. cbn [skipn app]. rewrite firstn_app, N_bits_length, Nat.sub_diag. cbn [firstn]. rewrite app_nil_r.
  apply firstn_all2. rewrite N_bits_length. auto.
Qed.
Lemma sub_put_before : forall l pos x len p n, pos + len <= length l -> p + n <= pos -> sub (put l pos x len) p n = sub l p n.
Proof.
  intros. unfold sub, put. rewrite skipn_app, firstn_app. rewrite skipn_length, firstn_length.
  replace (n - (Nat.min pos (length l) - p)) with 0 by lia. cbn [firstn]. rewrite app_nil_r. rewrite skipn_firstn_comm, firstn_firstn. f_equal. lia.
Qed.

(** ** popcount and bin_to_nr *)
Lemma popcount_double : forall x b, popcount (N.b2n b + 2 * x) = (if b then 1 else 0) + popcount x.
Proof. intros [|p] [|]; reflexivity. Qed.
Lemma popcount_ok : forall l, popcount (bits_N l) = ones l.
Proof. induction l as [|b l IH]; [reflexivity|]. rewrite bits_N_cons, popcount_double, IH. auto. Qed.
Lemma bits_N_0 : forall l, bits_N l = 0%N -> ones l = 0.
Proof. intros l H. rewrite <- popcount_ok, H. auto. Qed.
Lemma btn_loop_ok : forall l nr f, length l <= f -> btn_loop f (bits_N l) nr (ones l) (length l) = Some (nr + enc l (ones l))%N.
Proof.
  induction l as [|b l IH]; intros nr f F. { destruct f; cbn; f_equal; lia. }
  cbn [length] in F. destruct f as [|f]; [lia|]. cbn [btn_loop].
  destruct (N.eqb_spec (bits_N (b :: l)) 0) as [Z|Z].
  - pose proof (bits_N_0 _ Z) as O. rewrite O, enc_all0 by auto. f_equal. lia.
  - rewrite bits_N_cons. rewrite N.shiftr_div_pow2. change (2 ^ 1)%N with 2%N.
    replace ((N.b2n b + 2 * bits_N l) / 2)%N with (bits_N l) by (apply N.div_unique with (N.b2n b); [destruct b; cbn [N.b2n]; lia | lia]).
    replace (N.odd (N.b2n b + 2 * bits_N l)) with b. 2:{ rewrite N.add_comm, <- N.bit0_odd, N.testbit_0_r. auto. }
    cbn [length]. replace (S (length l) - 1) with (length l) by lia. destruct b.
    + cbn [ones]. replace (1 + ones l - 1) with (ones l) by lia. rewrite IH by lia. f_equal. cbn [enc]. replace (1 + ones l - 1) with (ones l) by lia. lia.
    + cbn [ones enc]. change (0 + ones l) with (ones l). apply IH. lia.
Qed.
Lemma bits_N_ones : forall l, bits_N l = N.ones (N.of_nat (length l)) -> ones l = length l.
Proof.
  induction l as [|b l IH]; intro H; auto. cbn [length] in *. rewrite bits_N_cons in H. rewrite Nat2N.inj_succ in H.
  rewrite N.ones_equiv in *. rewrite N.pow_succ_r' in H. pose proof (N.pow_nonzero 2 (N.of_nat (length l)) ltac:(discriminate)).
  destruct b; cbn [N.b2n] in H; cbn [ones]; [|lia]. rewrite IH; lia.
Qed.
Lemma bin_to_nr_ok : forall n l, length l = n -> bin_to_nr n (bits_N l) = Some (enc l (ones l)).
Proof.
  intros n l L. unfold bin_to_nr. destruct (N.eqb_spec (bits_N l) 0) as [Z|Z].
  { cbn [orb]. pose proof (bits_N_0 _ Z) as O. rewrite O, enc_all0; auto. }
  destruct (N.eqb_spec (bits_N l) (N.ones (N.of_nat n))) as [E|E]; cbn [orb].
  { rewrite <- L in E. apply bits_N_ones in E. rewrite enc_all1; auto. }
  rewrite popcount_ok, <- L. rewrite btn_loop_ok by auto. reflexivity.
Qed.

(** ** space_for_bt *)
Lemma space_fits : forall n k x, (x < C n k)%N -> (x < 2 ^ N.of_nat (space_for_bt n k))%N.
Proof.
  intros n k x H. unfold space_for_bt. destruct (N.eqb_spec (C n k) 1) as [E|E]. { cbn. lia. }
  rewrite Nat2N.inj_add, N2Nat.id. change (N.of_nat 1) with 1%N. rewrite N.add_1_r. destruct (N.log2_spec (C n k)) as [_ U]; lia.
Qed.
Lemma space_le : forall n k, 0 < n -> space_for_bt n k <= n.
Proof.
  intros n k H. unfold space_for_bt. destruct (N.eqb_spec (C n k) 1) as [E|E]; [lia|].
  pose proof (C_lt_pow n k H). destruct (N.eq_dec (C n k) 0) as [->|Z]; [cbn; lia|]. apply N.log2_lt_pow2 in H0; lia.
Qed.
Lemma space_sym : forall n k, k <= n -> space_for_bt n (n - k) = space_for_bt n k.
Proof. intros. unfold space_for_bt. rewrite C_sym; auto. Qed.
Lemma space_zero : forall n k, k <= n -> space_for_bt n k = 0 -> k = 0 \/ k = n.
Proof.
  intros n k L H. unfold space_for_bt in H. destruct (N.eqb_spec (C n k) 1) as [E|E]; [|lia]. clear H.
  destruct (Nat.eq_dec k 0); auto. destruct (Nat.eq_dec k n); auto. exfalso. destruct n; [lia|]. destruct k; [lia|]. rewrite C_S in E.
  pose proof (C_pos n k ltac:(lia)). pose proof (C_pos n (S k) ltac:(lia)). lia.
Qed.
Lemma max_log_ok : forall n, n <= 256 -> lg_ok (max_log n) /\ n <= 2 ^ max_log n.
Proof.
  intros n H. unfold max_log, lg_ok. destruct (Nat.ltb_spec 128 n). { change (2 ^ 8) with 256. lia. }
  destruct (Nat.ltb_spec 64 n). { change (2 ^ 7) with 128. lia. } change (2 ^ 6) with 64. lia.
Qed.

(** ** decode_int *)
Section D.
Variable n : nat.
Notation start s := (n - length s).
Lemma single_pos : forall s, ones s = 1 -> length s <= n -> exists j, N.to_nat (N.of_nat n - enc s 1 - 1) = start s + j /\
  j < length s /\ forall i, nth i s false = (i =? j).
Proof.
  intros s H L. destruct (enc_single s H) as [j [t [E [Z EN]]]]. exists j.
  assert (LS : length s = j + S (length t)) by (rewrite E, app_length, repeat_length; auto).
  rewrite EN. split; [lia|]. split; [lia|]. intro i. rewrite E, nth_zeros. destruct (Nat.ltb_spec i j). { symmetry. apply Nat.eqb_neq. lia. }
  destruct (i - j) eqn:D; cbn [nth]. { symmetry. apply Nat.eqb_eq. lia. } rewrite ones_0_false by auto. symmetry. apply Nat.eqb_neq. lia.
Qed.
Lemma pow2_testbit : forall a i, N.testbit (2 ^ N.of_nat a) (N.of_nat i) = (i =? a).
Proof. intros. rewrite N.pow2_bits_eqb. destruct (Nat.eqb_spec i a); subst. { apply N.eqb_refl. } apply N.eqb_neq. lia. Qed.
Lemma int_tail : forall s off len res, 1 <= len -> ones s = 1 -> length s <= n ->
  let p := N.to_nat (N.of_nat n - enc s 1 - 1) in
  forall i, N.testbit (if (off <=? p) && (p <=? off + len - 1) then N.lor res (2 ^ N.of_nat (p - off)) else res) (N.of_nat i)
    = N.testbit res (N.of_nat i) || ((i <? len) && (start s <=? off + i) && nth (off + i - start s) s false).
Proof.
  intros s off len res L1 O L p i. destruct (single_pos s O L) as [j [P [J N1]]]. fold p in P. rewrite P. rewrite N1.
  destruct (Nat.leb_spec off (start s + j)); destruct (Nat.leb_spec (start s + j) (off + len - 1)); cbn [andb];
   destruct (Nat.ltb_spec i len); destruct (Nat.leb_spec (start s) (off + i)); cbn [andb]; rewrite ?orb_false_r; rewrite ?N.lor_spec, ?pow2_testbit; auto;
   try (f_equal; destruct (Nat.eqb_spec i (start s + j - off)); destruct (Nat.eqb_spec (off + i - start s) j); auto; lia);
   try (replace (i =? start s + j - off) with false by (symmetry; apply Nat.eqb_neq; lia); rewrite ?orb_false_r; auto);
   try (replace (off + i - start s =? j) with false by (symmetry; apply Nat.eqb_neq; lia); rewrite ?orb_false_r; auto).
Qed.
Lemma int_lin_ok : forall s off len res, 1 <= len -> 1 <= ones s -> length s <= n ->
  exists r, int_lin n (length s) (ones s) (enc s (ones s)) (start s) off len res = Some r /\
    forall i, N.testbit r (N.of_nat i) = N.testbit res (N.of_nat i) || ((i <? len) && (start s <=? off + i) && nth (off + i - start s) s false).
Proof.
  induction s as [|b t IH]; intros off len res L1 K L; [cbn in K; lia|].
  cbn [length] in L. cbn [length int_lin].
  destruct (Nat.ltb_spec 1 (ones (b :: t))) as [K2|K2].
  - destruct (Nat.ltb_spec (off + len - 1) (n - S (length t))).
    { exists res. split; auto. intro i. destruct (Nat.ltb_spec i len); cbn [andb]; [|rewrite orb_false_r; auto].
      replace (n - S (length t) <=? off + i) with false by lia. cbn [andb]. rewrite orb_false_r. auto. }
    rewrite enc_head. assert (SS : S (n - S (length t)) = start t) by lia. destruct b.
    + rewrite enc_true. replace (ones (true :: t) - 1) with (ones t) by (cbn [ones]; lia).
      match goal with |- context [int_lin _ _ _ ?x _ _ _ _] => replace x with (enc t (ones t)) by lia end. rewrite SS.
      edestruct (IH off len) as [r [R1 R2]]; [exact L1 | cbn [ones] in K2; lia | lia |]. exists r. split; [exact R1|].
      intro i. rewrite R2. rewrite <- SS. set (st := n - S (length t)) in *.
      destruct (Nat.ltb_spec i len); cbn [andb].
      2:{ rewrite !orb_false_r. destruct (Nat.leb_spec off st); auto. rewrite N.lor_spec, pow2_testbit. replace (i =? st - off) with false by (symmetry; apply Nat.eqb_neq; lia). apply orb_false_r. }
      destruct (Nat.leb_spec st (off + i)); cbn [andb].
      * destruct (Nat.eq_dec st (off + i)) as [E|E].
        { rewrite <- E, Nat.sub_diag. cbn [nth]. rewrite orb_true_r. replace (off <=? st) with true by lia. rewrite N.lor_spec, pow2_testbit. replace (i =? st - off) with true by (symmetry; apply Nat.eqb_eq; lia).
          rewrite orb_true_r. auto. }
        replace (S st <=? off + i) with true by lia. cbn [andb]. replace (off + i - st) with (S (off + i - S st)) by lia. cbn [nth]. f_equal.
        destruct (Nat.leb_spec off st); auto. rewrite N.lor_spec, pow2_testbit. replace (i =? st - off) with false by (symmetry; apply Nat.eqb_neq; lia). apply orb_false_r.
      * replace (S st <=? off + i) with false by lia. cbn [andb]. rewrite !orb_false_r. destruct (Nat.leb_spec off st); auto.
        rewrite N.lor_spec, pow2_testbit. replace (i =? st - off) with false by (symmetry; apply Nat.eqb_neq; lia). apply orb_false_r.
    + cbn [ones enc] in *. change (0 + ones t) with (ones t) in *. rewrite SS.
      edestruct (IH off len) as [r [R1 R2]]; [exact L1 | lia | lia |]. exists r. split; [exact R1|].
      intro i. rewrite R2. f_equal. rewrite <- SS. set (st := n - S (length t)) in *.
      destruct (Nat.ltb_spec i len); cbn [andb]; auto. destruct (Nat.leb_spec st (off + i)); cbn [andb].
      * destruct (Nat.eq_dec st (off + i)) as [E|E]. { rewrite <- E, Nat.sub_diag. cbn [nth]. replace (S st <=? st) with false by lia. auto. }
        replace (S st <=? off + i) with true by lia. cbn [andb]. replace (off + i - st) with (S (off + i - S st)) by lia. auto.
      * replace (S st <=? off + i) with false by lia. auto.
  - assert (ones (b :: t) = 1) as Z by lia. rewrite Z. eexists. split; [reflexivity|]. apply (int_tail (b :: t)); auto.
Qed.
Theorem decode_int_ok : forall l off len, length l = n -> 1 <= len -> off + len <= n ->
  decode_int n (ones l) (enc l (ones l)) off len = Some (bits_N (sub l off len)).
Proof.
  intros l off len L L1 O. unfold decode_int.
  assert (TB : forall i, nth i (sub l off len) false = (i <? len) && nth (off + i) l false).
  { intro i. destruct (Nat.ltb_spec i len). { apply sub_nth. auto. } apply nth_overflow. rewrite sub_length by lia. auto. }
  destruct (Nat.eqb_spec (ones l) n).
  { f_equal. apply N_testbit_ext. intro i. rewrite bits_N_testbit, TB. destruct (Nat.ltb_spec i len).
    - rewrite N.ones_spec_low by lia. rewrite ones_full by lia. auto.
    - rewrite N.ones_spec_high by lia. auto. }
  destruct (Nat.eqb_spec (ones l) 0).
  { f_equal. apply N_testbit_ext. intro i. rewrite N.bits_0, bits_N_testbit, TB. rewrite ones_0_false by auto. rewrite andb_false_r. auto. }
  destruct (Nat.eqb_spec (ones l) 1) as [E1|].
  { rewrite E1. f_equal. pose proof (int_tail l off len 0 L1 E1 ltac:(lia)) as T. cbv zeta in T. apply N_testbit_ext. intro i. rewrite bits_N_testbit, TB.
    rewrite N.lor_0_l in T. rewrite T. rewrite N.bits_0. cbn [orb]. rewrite L, Nat.sub_diag, Nat.sub_0_r. rewrite andb_true_r. auto. }
  destruct (int_lin_ok l off len 0 L1 ltac:(lia) ltac:(lia)) as [r [R1 R2]]. rewrite L, Nat.sub_diag in *. rewrite R1. f_equal.
  apply N_testbit_ext. intro i. rewrite R2, bits_N_testbit, TB. rewrite N.bits_0, Nat.sub_0_r. cbn [orb]. rewrite andb_true_r. auto.
Qed.
End D.
