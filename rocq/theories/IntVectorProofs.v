(** * Proofs about int_vector: access, histories, resizing (C04, C05) *)
From Coq Require Import NArith ZArith List Bool Arith Lia.
From Verif Require Import Base Bits SpecBits BitsMem IntVector SpecIntVector.
Import ListNotations.

Definition elems (v : ivec) : list N :=
  map (fun i => field (iv_data v) (i * iv_width v) (iv_width v)) (seq 0 (iv_len v)).

Lemma elems_length : forall v, length (elems v) = iv_len v.
Proof. intros. unfold elems. rewrite map_length, seq_length. auto. Qed.
Lemma nth_elems : forall v i, i < iv_len v ->
  nth i (elems v) 0%N = field (iv_data v) (i * iv_width v) (iv_width v).
Proof. intros. unfold elems. rewrite nth_map_seq; auto. Qed.

Lemma fits_at : forall m p len, 1 <= len <= 64 -> p + len <= 64 * length m -> fits m (p / 64) (p mod 64) len.
Proof. intros. unfold fits. lia. Qed.

Lemma p64 : forall p, 64 * (p / 64) + p mod 64 = p. Proof. intros. lia. Qed.

Lemma read_at : forall m p len, words_ok m -> 1 <= len <= 64 -> p + len <= 64 * length m ->
  read_int m (p / 64) (p mod 64) len = Some (field m p len).
Proof. intros. rewrite read_int_correct by auto using fits_at. rewrite p64. auto. Qed.

Lemma write_at : forall m p len x, words_ok m -> 1 <= len <= 64 -> p + len <= 64 * length m ->
  exists m', write_int m (p / 64) x (p mod 64) len = Some m' /\ mem_set m p len x m'.
Proof.
  intros. destruct (write_int_correct m (p / 64) x (p mod 64) len) as [m' [A B]]; auto using fits_at.
  rewrite p64 in B. eauto.
Qed.

Lemma elem_bound : forall s w i, 1 <= w -> i < s / w -> i * w + w <= s.
Proof. intros. assert ((i + 1) * w <= s / w * w) by (apply Nat.mul_le_mono_r; lia).
  pose proof (Nat.div_mod s w ltac:(lia)). nia. Qed.

Lemma iv_elem_bound : forall v i, iv_ok v -> i < iv_len v ->
  i * iv_width v + iv_width v <= iv_size v /\ i * iv_width v + iv_width v <= 64 * length (iv_data v).
Proof.
  intros v i [A [B C]] H. unfold iv_len in H. pose proof (elem_bound _ _ _ (proj1 B) H). lia.
Qed.

Lemma iv_get_elems : forall v i, iv_ok v -> i < iv_len v -> iv_get v i = Some (nth i (elems v) 0%N).
Proof.
  intros v i O H. rewrite nth_elems by auto. destruct (iv_elem_bound v i O H). destruct O as [A [B C]].
  unfold iv_get, iv_get_int. apply read_at; auto; lia.
Qed.

Lemma reads_elems : forall v, iv_ok v -> reads v (elems v).
Proof.
  intros. split; [rewrite elems_length; auto|]. intros i Hi. rewrite elems_length in Hi.
  apply iv_get_elems; auto.
Qed.
Lemma reads_unique : forall v l, iv_ok v -> reads v l -> l = elems v.
Proof.
  intros v l O [A B]. apply list_nth_ext with 0%N; [rewrite elems_length; auto|].
  intros i Hi. specialize (B i Hi). rewrite iv_get_elems in B by (auto; lia). congruence.
Qed.

Lemma elems_lt : forall v i, i < iv_len v -> (nth i (elems v) 0 < 2 ^ N.of_nat (iv_width v))%N.
Proof. intros. rewrite nth_elems by auto. apply field_lt. Qed.

Lemma mem_set_elems : forall v i x m', iv_ok v -> i < iv_len v ->
  mem_set (iv_data v) (i * iv_width v) (iv_width v) x m' ->
  elems (mkiv (iv_size v) m' (iv_width v)) = upd (elems v) i (x mod 2 ^ N.of_nat (iv_width v))%N.
Proof.
  intros v i x m' O H S. apply list_nth_ext with 0%N.
  { rewrite upd_length, !elems_length. reflexivity. }
  intros j Hj. rewrite elems_length in Hj. unfold iv_len in Hj. cbn [iv_size iv_width] in Hj.
  rewrite nth_elems by auto. cbn [iv_data iv_width]. rewrite nth_upd. rewrite elems_length.
  destruct (Nat.eqb_spec j i); cbn [andb].
  - subst j. destruct (Nat.ltb_spec i (iv_len v)); [|lia]. eapply mem_set_read_same; eauto.
  - rewrite nth_elems by auto. eapply mem_set_read_other; eauto.
    destruct O as [A [B C]]. nia.
Qed.

Lemma ref_get_ok : forall v i, iv_ok v -> i < iv_len v -> iv_ref_get v i = Some (nth i (elems v) 0%N).
Proof. intros. rewrite <- iv_get_elems; auto. Qed.

Lemma ref_set_ok : forall v i x, iv_ok v -> i < iv_len v -> exists v',
  iv_ref_set v i x = Some v' /\ iv_ok v' /\ iv_size v' = iv_size v /\ iv_width v' = iv_width v /\
  length (iv_data v') = length (iv_data v) /\
  elems v' = upd (elems v) i (x mod 2 ^ N.of_nat (iv_width v))%N.
Proof.
  intros v i x O H. destruct (iv_elem_bound v i O H) as [E1 E2]. pose proof O as [A [B C]].
  destruct (write_at (iv_data v) (i * iv_width v) (iv_width v) x A B) as [m' [W S]]; [lia|].
  exists (mkiv (iv_size v) m' (iv_width v)). split.
  { unfold iv_ref_set. rewrite W. reflexivity. }
  pose proof S as [L [M _]]. split.
  { split; [auto|]. split; auto. cbn. lia. }
  repeat split; auto. apply mem_set_elems; auto.
Qed.

Lemma zmod_N : forall w x, zmod w (Z.of_N x) = (x mod 2 ^ N.of_nat w)%N.
Proof.
  intros. unfold zmod. rewrite <- (N2Z.id (x mod 2 ^ N.of_nat w)).
  rewrite N2Z.inj_mod, N2Z.inj_pow, nat_N_Z. reflexivity.
Qed.

Lemma pow2_divide : forall w, w <= 64 -> exists c, (2 ^ 64 = c * 2 ^ Z.of_nat w)%Z.
Proof.
  intros. exists (2 ^ (64 - Z.of_nat w))%Z. rewrite <- Z.pow_add_r by lia. f_equal. lia.
Qed.

Lemma zmod_of_word : forall w z, w <= 64 -> zmod w (z mod 2 ^ 64) = zmod w z.
Proof.
  intros. unfold zmod. f_equal. destruct (pow2_divide w H) as [c E]. rewrite E.
  symmetry. apply Znumtheory.Zmod_div_mod.
  - apply Z.pow_pos_nonneg; lia. - rewrite <- E. reflexivity. - exists c. reflexivity.
Qed.

Lemma mod_wadd : forall w x y, w <= 64 ->
  (wadd x y mod 2 ^ N.of_nat w)%N = zmod w (Z.of_N x + Z.of_N y).
Proof.
  intros. rewrite <- zmod_N. unfold wadd. rewrite N2Z.inj_mod. change (Z.of_N W64) with (2 ^ 64)%Z.
  rewrite zmod_of_word by auto. f_equal. lia.
Qed.
Lemma mod_wsub : forall w x y, w <= 64 -> is_word y ->
  (wsub x y mod 2 ^ N.of_nat w)%N = zmod w (Z.of_N x - Z.of_N y).
Proof.
  intros. rewrite <- zmod_N. unfold wsub. rewrite N2Z.inj_mod. change (Z.of_N W64) with (2 ^ 64)%Z.
  rewrite zmod_of_word by auto. unfold is_word in *.
  replace (Z.of_N (x + (W64 - y))) with (Z.of_N x - Z.of_N y + 1 * 2 ^ 64)%Z.
  2: { rewrite N2Z.inj_add, N2Z.inj_sub by lia. change (Z.of_N W64) with (2 ^ 64)%Z. lia. }
  rewrite <- (zmod_of_word w (_ + _)) by auto. rewrite Z_mod_plus_full. apply zmod_of_word. auto.
Qed.

(** ** resize *)
Lemma mrealloc_length : forall g m n, length (mrealloc g m n) = n.
Proof. intros. unfold mrealloc. rewrite map_length, seq_length. auto. Qed.
Lemma nth_mrealloc : forall g m n i, i < n ->
  nth i (mrealloc g m n) 0%N = if i <? length m then nth i m 0%N else g i.
Proof. intros. unfold mrealloc. rewrite nth_map_seq; auto. Qed.
Lemma mrealloc_ok : forall g m n, fresh_ok g -> words_ok m -> words_ok (mrealloc g m n).
Proof.
  intros. unfold words_ok, mrealloc. rewrite Forall_forall. intros x Hx.
  apply in_map_iff in Hx. destruct Hx as [i [E _]]. subst x.
  destruct (i <? length m); auto. apply words_ok_nth. auto.
Qed.

(** bit-level effect of bit_resize *)
Lemma bit_resize_bits : forall g v n, fresh_ok g -> words_ok (iv_data v) ->
  iv_size v <= 64 * length (iv_data v) ->
  exists v', iv_bit_resize g v n = Some v' /\ iv_size v' = n /\ iv_width v' = iv_width v /\
    words_ok (iv_data v') /\ n <= 64 * length (iv_data v') /\ 0 < length (iv_data v') /\
    (forall p, p < n -> p < iv_size v -> mbit (iv_data v') p = mbit (iv_data v) p).
Proof.
  intros g v n G A C. unfold iv_bit_resize.
  destruct (negb ((iv_size v + 63) / 64 =? (n + 63) / 64) || (length (iv_data v) =? 0)) eqn:E.
  - set (m := mrealloc g (iv_data v) ((n + 64) / 64)).
    assert (Lm : length m = (n + 64) / 64) by apply mrealloc_length.
    assert (Wm : words_ok m) by (apply mrealloc_ok; auto).
    assert (K : forall p, p < n -> p < iv_size v -> mbit m p = mbit (iv_data v) p).
    { intros p H1 H2. unfold mbit. unfold m. rewrite nth_mrealloc by lia.
      replace (p / 64 <? length (iv_data v)) with true by lia. auto. }
    assert (exists m1, (if n <? (n + 63) / 64 * 64 then write_int m (n / 64) 0 (n mod 64) ((n + 63) / 64 * 64 - n)
            else Some m) = Some m1 /\ words_ok m1 /\ length m1 = length m /\
            forall p, p < n -> mbit m1 p = mbit m p) as [m1 [E1 [W1 [L1 K1]]]].
    { destruct (Nat.ltb_spec n ((n + 63) / 64 * 64)).
      - destruct (write_at m n ((n + 63) / 64 * 64 - n) 0 Wm) as [m1 [R [S1 [S2 S3]]]]; try lia.
        exists m1. repeat split; auto. intros p Hp. rewrite S3.
        replace (n <=? p) with false by lia. auto.
      - exists m. auto. }
    rewrite E1. cbn [obind].
    destruct (Nat.eqb_spec (n mod 64) 0) as [Z|Z].
    + rewrite st_some by lia. cbn [obind]. eexists. split; [reflexivity|]. cbn [iv_size iv_data iv_width].
      split; auto. split; auto. split. { apply words_ok_upd; auto. reflexivity. }
      rewrite upd_length. split; [lia|]. split; [lia|]. intros p H1 H2. rewrite mbit_upd by lia.
      replace (p / 64 =? n / 64) with false by lia. rewrite K1 by auto. auto.
    + cbn [obind]. eexists. split; [reflexivity|]. cbn [iv_size iv_data iv_width].
      split; auto. split; auto. split; auto. split; [lia|]. split; [lia|]. intros p H1 H2. rewrite K1 by auto. auto.
  - apply orb_false_iff in E. destruct E as [E1 E2]. eexists. split; [reflexivity|]. cbn [iv_size iv_data iv_width].
    repeat split; auto; lia.
Qed.

(** after a bit_resize that changes the number of words (or of a null vector), the padding word is accessible and zero *)
Lemma bit_resize_padding : forall g v n v', iv_bit_resize g v n = Some v' ->
  ((iv_size v + 63) / 64 <> (n + 63) / 64 \/ iv_data v = []) -> padding_ok v'.
Proof.
  intros g v n v' R H. unfold iv_bit_resize in R.
  assert (T : negb ((iv_size v + 63) / 64 =? (n + 63) / 64) || (length (iv_data v) =? 0) = true).
  { destruct H as [H|H]; [apply Nat.eqb_neq in H; rewrite H; auto|rewrite H; apply orb_true_r]. }
  rewrite T in R. clear T H. unfold padding_ok.
  apply obind_inv in R. destruct R as [m1 [R1 R]]. apply obind_inv in R. destruct R as [m2 [R2 R]].
  apply some_inj in R. subst v'. cbn [iv_size iv_data].
  assert (L1 : length m1 = (n + 64) / 64).
  { destruct (n <? (n + 63) / 64 * 64).
    - destruct (Nat.eq_dec (length m1) ((n + 64) / 64)); auto. exfalso.
      unfold write_int in R1. repeat (match type of R1 with context [if ?c then _ else _] => destruct c end);
      repeat (apply obind_inv in R1; destruct R1 as [? [? R1]]);
      unfold st in *; repeat (match goal with H : context [if ?c then _ else _] |- _ => destruct c; try discriminate end);
      repeat (match goal with H : Some _ = Some _ |- _ => apply some_inj in H; subst end);
      rewrite ?upd_length, ?mrealloc_length in *; try lia; try discriminate.
    - apply some_inj in R1. subst m1. apply mrealloc_length. }
  assert (length m2 = length m1).
  { destruct (n mod 64 =? 0); [|apply some_inj in R2; subst; auto].
    unfold st in R2. destruct (n / 64 <? length m1); [|discriminate]. apply some_inj in R2. subst. apply upd_length. }
  lia.
Qed.

Lemma resize_ok : forall g v n, fresh_ok g -> iv_ok v ->
  exists v', iv_resize g v n = Some v' /\ iv_ok v' /\ iv_width v' = iv_width v /\ iv_len v' = n /\
    forall i, i < n -> i < iv_len v -> nth i (elems v') 0%N = nth i (elems v) 0%N.
Proof.
  intros g v n G O. pose proof O as [A [B C]]. unfold iv_resize.
  destruct (bit_resize_bits g v (n * iv_width v) G A C) as [v' [R [S [W [K [L [_ T]]]]]]].
  exists v'. split; auto.
  assert (Ln : iv_len v' = n). { unfold iv_len. rewrite S, W. apply Nat.div_mul. lia. }
  split. { split; auto. split; [lia|]. rewrite S. auto. }
  split; auto. split; auto. intros i H1 H2. rewrite !nth_elems by lia. rewrite W.
  apply field_ext. intros k Hk. destruct (iv_elem_bound v i O H2) as [E1 E2].
  apply T; [|lia]. nia.
Qed.

(** ** histories *)
Lemma exec_ok : forall g v op t, fresh_ok g -> iv_ok v -> ops_pre (iv_len v) (op :: t) ->
  exists v', iv_exec g v op = Some v' /\ iv_ok v' /\ iv_width v' = iv_width v /\
    op_spec (iv_width v) op (elems v) (elems v') /\ ops_pre (iv_len v') t.
Proof.
  intros g v op t G O P. pose proof O as [A [B C]].
  assert (SET : forall i x, i < iv_len v -> exists v', iv_ref_set v i x = Some v' /\ iv_ok v' /\
     iv_width v' = iv_width v /\ elems v' = upd (elems v) i (x mod 2 ^ N.of_nat (iv_width v))%N /\ iv_len v' = iv_len v).
  { intros i x H. destruct (ref_set_ok v i x O H) as [v' [R [O' [S [W [_ E]]]]]]. exists v'.
    repeat split; auto; try apply O'. unfold iv_len. rewrite S, W. auto. }
  destruct op; cbn [ops_pre] in P; cbn [iv_exec op_spec]; rewrite ?elems_length.
  - destruct P as [P1 [P2 P3]]. destruct (SET i x P1) as [v' [R [O' [W [E L]]]]].
    exists v'. rewrite R, E, L, zmod_N. auto 10.
  - destruct P as [P1 P3]. unfold iv_ref_inc. rewrite ref_get_ok by auto. cbn [obind].
    destruct (SET i (wadd (nth i (elems v) 0%N) 1) P1) as [v' [R [O' [W [E L]]]]].
    exists v'. rewrite R, E, L, mod_wadd by lia. auto 10.
  - destruct P as [P1 P3]. unfold iv_ref_dec. rewrite ref_get_ok by auto. cbn [obind].
    destruct (SET i (wsub (nth i (elems v) 0%N) 1) P1) as [v' [R [O' [W [E L]]]]].
    exists v'. rewrite R, E, L, mod_wsub by (try lia; reflexivity). auto 10.
  - destruct P as [P1 [P2 P3]]. unfold iv_ref_add. rewrite ref_get_ok by auto. cbn [obind].
    destruct (SET i (wadd (nth i (elems v) 0%N) x) P1) as [v' [R [O' [W [E L]]]]].
    exists v'. rewrite R, E, L, mod_wadd by lia. auto 10.
  - destruct P as [P1 [P2 P3]]. unfold iv_ref_sub. rewrite ref_get_ok by auto. cbn [obind].
    destruct (SET i (wsub (nth i (elems v) 0%N) x) P1) as [v' [R [O' [W [E L]]]]].
    exists v'. rewrite R, E, L, mod_wsub by (auto; lia). auto 10.
  - destruct P as [P1 [P2 P3]]. unfold iv_ref_swap. rewrite !ref_get_ok by auto. cbn [obind].
    destruct (SET i (nth j (elems v) 0%N) P1) as [v1 [R [O1 [W [E L]]]]]. rewrite R. cbn [obind].
    destruct (ref_set_ok v1 j (nth i (elems v) 0%N) O1 ltac:(lia)) as [v2 [R2 [O2 [S2 [W2 [_ E2]]]]]].
    exists v2. split; auto. split; auto. split; [congruence|].
    assert (iv_len v2 = iv_len v) as L2. { rewrite <- L. unfold iv_len. rewrite S2, W2. auto. }
    rewrite L2. split; auto. split; auto. split; auto.
    rewrite E2, E, W. rewrite !N.mod_small by (apply elems_lt; auto). auto.
  - destruct (resize_ok g v n G O) as [v' [R [O' [W [L K]]]]]. exists v'. rewrite R, L.
    repeat split; auto; try apply O'. rewrite elems_length. auto.
Qed.

Lemma iv_history : forall g ops v l, fresh_ok g -> iv_ok v -> reads v l -> ops_pre (iv_len v) ops ->
  exists v' l', iv_run g v ops = Some v' /\ iv_ok v' /\ iv_width v' = iv_width v /\
    ops_spec (iv_width v) ops l l' /\ reads v' l'.
Proof.
  intros g ops. induction ops as [|op t IH]; intros v l G O R P.
  - exists v, l. repeat split; auto; try apply O; try apply R. constructor.
  - apply reads_unique in R; auto. subst l.
    destruct (exec_ok g v op t G O P) as [v1 [E [O1 [W [S P1]]]]].
    destruct (IH v1 (elems v1) G O1 (reads_elems v1 O1) P1) as [v2 [l2 [E2 [O2 [W2 [S2 R2]]]]]].
    exists v2, l2. cbn [iv_run]. rewrite E. cbn [obind]. split; auto. split; auto. split; [congruence|].
    split; auto. econstructor; eauto. rewrite <- W. auto.
Qed.

(** ** other ways to access elements *)
Lemma ref_get_reads : forall v l i, iv_ok v -> reads v l -> i < length l -> iv_ref_get v i = Some (nth i l 0%N).
Proof. intros v l i O R H. apply reads_unique in R; auto. subst l. rewrite elems_length in H. apply ref_get_ok; auto. Qed.

Lemma get_set_int : forall v p len x, iv_ok v -> 1 <= len <= 64 -> p + len <= iv_size v ->
  exists v', iv_set_int v p x len = Some v' /\ iv_ok v' /\ iv_size v' = iv_size v /\ iv_width v' = iv_width v /\
    iv_get_int v' p len = Some (x mod 2 ^ N.of_nat len)%N /\
    (forall q l, 1 <= l <= 64 -> q + l <= iv_size v -> q + l <= p \/ p + len <= q ->
       iv_get_int v' q l = iv_get_int v q l).
Proof.
  intros v p len x [A [B C]] H1 H2. destruct (write_at (iv_data v) p len x A H1) as [m' [W S]]; [lia|].
  exists (mkiv (iv_size v) m' (iv_width v)). pose proof S as [L [M _]].
  unfold iv_set_int, iv_get_int. rewrite W. cbn [obind iv_data iv_size iv_width]. split; auto.
  split. { repeat split; cbn; auto; lia. } split; auto. split; auto. split.
  - rewrite read_at by (auto; lia). erewrite mem_set_read_same; eauto.
  - intros. rewrite !read_at by (auto; lia). erewrite mem_set_read_other; eauto.
Qed.

Lemma get_int_bits : forall v p len, iv_ok v -> 1 <= len <= 64 -> p + len <= iv_size v ->
  exists x, iv_get_int v p len = Some x /\ forall k, tb x k = (k <? len) && nth (p + k) (iv_bits v) false.
Proof.
  intros v p len [A [B C]] H1 H2. unfold iv_get_int. rewrite read_at by (auto; lia).
  eexists. split; [reflexivity|]. intro k. rewrite tb_field. destruct (Nat.ltb_spec k len); auto. cbn [andb].
  unfold iv_bits. rewrite nth_map_seq by lia. auto.
Qed.

(** typed access of the 8/16/32/64 bit vectors *)
Lemma sub_bound : forall k i, k = 8 \/ k = 16 \/ k = 32 \/ k = 64 -> i * k mod 64 + k <= 64.
Proof. intros k i H. destruct H as [->|[->|[->| ->]]]; lia. Qed.
Lemma get_sub_ok : forall k v i, k = 8 \/ k = 16 \/ k = 32 \/ k = 64 -> iv_width v = k -> iv_ok v -> i < iv_len v ->
  iv_get_sub k v i = iv_get v i.
Proof.
  intros k v i Hk W O H. destruct (iv_elem_bound v i O H) as [E1 E2]. pose proof (sub_bound k i Hk).
  unfold iv_get_sub, iv_get, iv_get_int, read_int. rewrite W in *. rewrite ld_some by lia. cbn [obind].
  rewrite shr_c_some by lia. cbn [obind]. replace (64 <? i * k mod 64 + k) with false by lia. auto.
Qed.
Lemma set_sub_ok : forall k v i x, k = 8 \/ k = 16 \/ k = 32 \/ k = 64 -> iv_width v = k -> iv_ok v -> i < iv_len v ->
  iv_set_sub k v i x = iv_ref_set v i x.
Proof.
  intros k v i x Hk W O H. destruct (iv_elem_bound v i O H) as [E1 E2]. pose proof (sub_bound k i Hk) as SB.
  pose proof O as [A [B C]].
  destruct (write_at (iv_data v) (i * iv_width v) (iv_width v) x A B) as [m' [R [S1 [S2 S3]]]]; [lia|].
  unfold iv_set_sub, iv_ref_set. rewrite R. cbn [obind]. rewrite W in *. rewrite ld_some by lia. cbn [obind].
  rewrite st_some by lia. cbn [obind]. do 2 f_equal. apply mem_ext; auto.
  - apply words_ok_upd; auto. auto with word.
  - rewrite upd_length. auto.
  - intros p _. rewrite S3, mbit_upd by lia. destruct (Nat.eqb_spec (p / 64) (i * k / 64)) as [E|E].
    + assert (Hp : p mod 64 < 64) by lia.
      rewrite tb_lor, tb_land, tb_wnot, !tb_shl, tb_lo_set, tb_land, tb_lo_set.
      replace (p mod 64 <? 64) with true by lia. cbn [andb].
      unfold mbit. rewrite E.
      assert (PP : p = 64 * (i * k / 64) + p mod 64) by lia.
      assert (IK : i * k = 64 * (i * k / 64) + i * k mod 64) by lia.
      set (o := i * k mod 64) in *. set (q := p mod 64) in *. set (ww := i * k / 64) in *.
      replace (i * k <=? p) with (o <=? q) by lia. replace (p - i * k) with (q - o) by lia.
      replace (p <? i * k + k) with (q <? o + k) by lia.
      destruct (Nat.leb_spec o q); cbn [andb xorb].
      * replace (q - o <? k) with (q <? o + k) by lia.
        destruct (Nat.ltb_spec q (o + k)); cbn [andb xorb orb].
        { rewrite andb_false_r, andb_true_r. auto. }
        { rewrite andb_true_r, andb_false_r, orb_false_r. auto. }
      * rewrite andb_true_r, orb_false_r. auto.
    + replace ((i * k <=? p) && (p <? i * k + k)) with false; auto.
      destruct (Nat.leb_spec (i * k) p); destruct (Nat.ltb_spec p (i * k + k)); auto; lia.
Qed.

(** bit_vector access *)
Lemma bit1_test : forall x k, negb (N.land (shr x k) 1 =? 0)%N = tb x k.
Proof.
  intros. replace (N.land (shr x k) 1) with (b2n (tb x k)).
  - destruct (tb x k); auto.
  - change 1%N with (lo_set 1). apply tb_ext. intro j. rewrite tb_land, tb_lo_set, tb_shr.
    destruct j. { cbn [Nat.add]. rewrite andb_true_r. destruct (tb x k); auto. }
    replace (S j <? 1) with false by lia. rewrite andb_false_r. apply tb_high with 1; [destruct (tb x k); reflexivity|lia].
Qed.
Lemma mask_test : forall x k, k < 64 -> negb (N.land x (shl 1 k) =? 0)%N = tb x k.
Proof.
  intros x k H. destruct (tb x k) eqn:E.
  - destruct (N.eqb_spec (N.land x (shl 1 k)) 0) as [Z|Z]; auto.
    assert (tb (N.land x (shl 1 k)) k = true).
    { rewrite tb_land, E, tb_shl. replace (k <? 64) with true by lia. replace (k <=? k) with true by lia.
      rewrite Nat.sub_diag. auto. }
    rewrite Z in H0. rewrite tb_0 in H0. discriminate.
  - replace (N.land x (shl 1 k)) with 0%N; auto. apply tb_ext. intro j.
    rewrite tb_0, tb_land, tb_shl. destruct (Nat.eq_dec j k).
    + subst. rewrite E. auto.
    + destruct (Nat.leb_spec k j); cbn [andb]; [|rewrite andb_false_r; auto].
      assert (T : tb 1 (j - k) = false) by (apply tb_high with 1; [reflexivity|lia]). rewrite T.
      rewrite !andb_false_r. auto. rewrite !andb_false_r. auto.
Qed.

Lemma bv_get_ok : forall v i, words_ok (iv_data v) -> i < 64 * length (iv_data v) -> bv_get v i = Some (mbit (iv_data v) i).
Proof. intros v i A H. unfold bv_get. rewrite ld_some by lia. cbn [obind]. rewrite bit1_test. auto. Qed.
Lemma bv_ref_get_ok : forall v i, words_ok (iv_data v) -> i < 64 * length (iv_data v) -> bv_ref_get v i = Some (mbit (iv_data v) i).
Proof. intros v i A H. unfold bv_ref_get. rewrite ld_some by lia. cbn [obind]. rewrite mask_test by lia. auto. Qed.
Lemma field1 : forall m p, field m p 1 = b2n (mbit m p).
Proof. intros. unfold field. cbn [seq map N_of_bits]. destruct (mbit m p); auto. Qed.
Lemma tb_1 : forall j, tb 1 j = (j =? 0).
Proof. intros. destruct j; auto. Qed.
Lemma bv_ref_set_ok : forall v i b, iv_width v = 1 -> iv_ok v -> i < iv_len v ->
  bv_ref_set v i b = iv_ref_set v i (b2n b).
Proof.
  intros v i b W O H. destruct (iv_elem_bound v i O H) as [E1 E2]. pose proof O as [A [B C]].
  destruct (write_at (iv_data v) (i * iv_width v) (iv_width v) (b2n b) A B) as [m' [R [S1 [S2 S3]]]]; [lia|].
  unfold bv_ref_set, iv_ref_set. rewrite R. cbn [obind]. rewrite W in *. rewrite Nat.mul_1_r in *.
  rewrite ld_some by lia. cbn [obind]. rewrite st_some by lia. cbn [obind]. do 2 f_equal. apply mem_ext; auto.
  - apply words_ok_upd; auto. destruct b; auto with word.
  - rewrite upd_length. auto.
  - intros p _. rewrite S3, mbit_upd by lia. unfold mbit.
    destruct (Nat.eqb_spec (p / 64) (i / 64)) as [E|E].
    + rewrite <- E. replace ((i <=? p) && (p <? i + 1)) with (p mod 64 =? i mod 64).
      2: { destruct (Nat.eqb_spec (p mod 64) (i mod 64)); destruct (Nat.leb_spec i p); destruct (Nat.ltb_spec p (i + 1)); auto; lia. }
      destruct b; cbn [b2n].
      * rewrite tb_lor, tb_shl, tb_1. replace (p mod 64 <? 64) with true by lia. cbn [andb].
        destruct (Nat.eqb_spec (p mod 64) (i mod 64)).
        { replace (i mod 64 <=? p mod 64) with true by lia. replace (p mod 64 - i mod 64 =? 0) with true by lia.
          cbn [andb]. rewrite orb_true_r. symmetry. rewrite tb_1. replace (p - i =? 0) with true by lia. auto. }
        { replace ((i mod 64 <=? p mod 64) && (p mod 64 - i mod 64 =? 0)) with false; [apply orb_false_r|].
          destruct (Nat.leb_spec (i mod 64) (p mod 64)); auto. cbn [andb]. lia. }
      * rewrite tb_land, tb_wnot, tb_shl, tb_1, tb_0. replace (p mod 64 <? 64) with true by lia. cbn [andb].
        destruct (Nat.eqb_spec (p mod 64) (i mod 64)).
        { replace (i mod 64 <=? p mod 64) with true by lia. replace (p mod 64 - i mod 64 =? 0) with true by lia.
          cbn [andb xorb]. apply andb_false_r. }
        { replace ((i mod 64 <=? p mod 64) && (p mod 64 - i mod 64 =? 0)) with false; [apply andb_true_r|].
          destruct (Nat.leb_spec (i mod 64) (p mod 64)); auto. cbn [andb]. lia. }
    + replace ((i <=? p) && (p <? i + 1)) with false; auto.
      destruct (Nat.leb_spec i p); destruct (Nat.ltb_spec p (i + 1)); auto; lia.
Qed.

(** ** flip and bitwise operators *)
Lemma nth_word_map : forall f m k m' i, word_map f m k = Some m' -> i < length m ->
  nth i m' 0%N = if i <? k then f (nth i m 0%N) else nth i m 0%N.
Proof.
  intros f m k m' i H Hi. unfold word_map in H. destruct (Nat.leb_spec k (length m)); [|discriminate].
  apply some_inj in H. subst m'.
  assert (L : length (map f (firstn k m)) = k) by (rewrite map_length, firstn_length; lia).
  destruct (Nat.ltb_spec i k).
  - rewrite app_nth1 by lia. rewrite (nth_indep _ 0%N (f 0%N)) by lia. rewrite map_nth. f_equal.
    rewrite <- (firstn_skipn k m) at 2. rewrite app_nth1; auto. rewrite firstn_length. lia.
  - rewrite app_nth2 by lia. rewrite L. rewrite <- (firstn_skipn k m) at 2. rewrite app_nth2; rewrite firstn_length; [|lia].
    f_equal. lia.
Qed.
Lemma word_map_length : forall f m k m', word_map f m k = Some m' -> length m' = length m.
Proof.
  intros f m k m' H. unfold word_map in H. destruct (Nat.leb_spec k (length m)); [|discriminate].
  apply some_inj in H. subst m'. rewrite app_length, map_length, firstn_length, skipn_length. lia.
Qed.
Lemma word_map_ok : forall f m k m', (forall x, is_word x -> is_word (f x)) -> words_ok m -> word_map f m k = Some m' -> words_ok m'.
Proof.
  intros f m k m' F W H. unfold words_ok. rewrite Forall_forall. intros x Hx. destruct (In_nth _ _ 0%N Hx) as [i [Hi E]].
  rewrite (word_map_length _ _ _ _ H) in Hi. rewrite (nth_word_map _ _ _ _ _ H Hi) in E. subst x.
  destruct (i <? k); [apply F|]; apply words_ok_nth; auto.
Qed.

Lemma cap_div : forall v, iv_capacity v / 64 = (iv_size v + 63) / 64.
Proof. intros. unfold iv_capacity. rewrite Nat.div_mul; lia. Qed.

Lemma flip_ok : forall v, iv_ok v -> exists v', iv_flip v = Some v' /\ iv_ok v' /\ iv_width v' = iv_width v /\
  iv_size v' = iv_size v /\ iv_bits v' = map negb (iv_bits v).
Proof.
  intros v [A [B C]]. unfold iv_flip, iv_empty. destruct (Nat.eqb_spec (iv_size v) 0) as [E|E].
  - exists v. split; [auto|]. split; [split; auto|]. split; auto. split; auto. unfold iv_bits. rewrite E. auto.
  - unfold word_map at 1. replace (iv_capacity v / 64 <=? length (iv_data v)) with true by (rewrite cap_div; lia).
    cbn [obind]. eexists. split; [reflexivity|]. cbn [iv_size iv_data iv_width].
    set (m' := _ ++ _).
    assert (W : word_map wnot (iv_data v) (iv_capacity v / 64) = Some m').
    { unfold word_map. replace (iv_capacity v / 64 <=? length (iv_data v)) with true by (rewrite cap_div; lia). auto. }
    clearbody m'. pose proof (word_map_length _ _ _ _ W) as L. split.
    { split; cbn. { eapply word_map_ok; eauto. intros. auto with word. } split; auto. lia. }
    split; auto. split; auto. unfold iv_bits. cbn [iv_data iv_size]. rewrite map_map.
    apply map_ext_in. intros p Hp. apply in_seq in Hp. unfold mbit.
    rewrite (nth_word_map _ _ _ _ _ W) by lia. replace (p / 64 <? iv_capacity v / 64) with true by (rewrite cap_div; lia).
    rewrite tb_wnot. replace (p mod 64 <? 64) with true by lia. apply xorb_true_r.
Qed.

Lemma word_op_ok : forall f k m m2, k <= length m -> k <= length m2 -> exists m', word_op f k m m2 = Some m' /\
  length m' = length m /\ forall i, nth i m' 0%N = if i <? k then f (nth i m 0%N) (nth i m2 0%N) else nth i m 0%N.
Proof.
  intros f. induction k; intros m m2 H1 H2.
  - exists m. auto.
  - destruct m as [|a m]; [simpl in H1; lia|]. destruct m2 as [|b m2]; [simpl in H2; lia|]. cbn [length] in *.
    destruct (IHk m m2) as [m' [E [L N]]]; try lia. cbn [word_op]. rewrite E. cbn [obind].
    eexists. split; [reflexivity|]. cbn [length]. split; [lia|]. intros [|i]; auto. cbn [nth]. rewrite N.
    replace (S i <? S k) with (i <? k) by lia. auto.
Qed.

Lemma bitop_ok : forall f fb v v2, iv_ok v -> iv_ok v2 -> iv_size v = iv_size v2 ->
  (forall x y k, tb (f x y) k = fb (tb x k) (tb y k)) -> (forall x y, is_word x -> is_word y -> is_word (f x y)) ->
  exists v', iv_bitop f v v2 = Some v' /\ iv_ok v' /\ iv_width v' = iv_width v /\ iv_size v' = iv_size v /\
    forall p, p < iv_size v -> nth p (iv_bits v') false = fb (nth p (iv_bits v) false) (nth p (iv_bits v2) false).
Proof.
  intros f fb v v2 [A [B C]] [A2 [B2 C2]] E Hf Hw. unfold iv_bitop. rewrite cap_div.
  destruct (word_op_ok f ((iv_size v2 + 63) / 64) (iv_data v) (iv_data v2)) as [m' [R [L N]]]; try lia.
  rewrite R. cbn [obind]. eexists. split; [reflexivity|]. cbn [iv_size iv_data iv_width]. split.
  { split; cbn; [|split; auto; lia]. unfold words_ok. rewrite Forall_forall. intros x Hx.
    destruct (In_nth _ _ 0%N Hx) as [i [Hi Ei]]. subst x. rewrite N. pose proof (words_ok_nth _ i A). pose proof (words_ok_nth _ i A2).
    destruct (i <? _); auto. }
  split; auto. split; auto. intros p Hp. unfold iv_bits. cbn [iv_data iv_size]. rewrite !nth_map_seq by lia.
  unfold mbit. rewrite N. replace (p / 64 <? _) with true by lia. auto.
Qed.

(** ** copying, moving, swapping *)
Lemma bits_reads : forall v v', iv_ok v -> iv_ok v' -> iv_size v = iv_size v' -> iv_width v = iv_width v' ->
  iv_bits v = iv_bits v' -> elems v = elems v'.
Proof.
  intros v v' O O' S W E. apply list_nth_ext with 0%N. { rewrite !elems_length. unfold iv_len. congruence. }
  intros i Hi. rewrite elems_length in Hi. rewrite !nth_elems by (auto; unfold iv_len in *; congruence).
  rewrite <- W. apply field_ext. intros k Hk. destruct (iv_elem_bound v i O Hi) as [E1 _].
  assert (nth (i * iv_width v + k) (iv_bits v) false = nth (i * iv_width v + k) (iv_bits v') false) by congruence.
  unfold iv_bits in H. rewrite !nth_map_seq in H by lia. auto.
Qed.

Lemma copy_words_ok : forall dst src k, k <= length dst -> k <= length src -> exists m,
  copy_words dst src k = Some m /\ length m = length dst /\ forall i, nth i m 0%N = if i <? k then nth i src 0%N else nth i dst 0%N.
Proof.
  intros. unfold copy_words. replace (k <=? length dst) with true by lia. replace (k <=? length src) with true by lia.
  eexists. split; [reflexivity|]. split. { rewrite app_length, firstn_length, skipn_length. lia. }
  intro i. assert (L : length (firstn k src) = k) by (rewrite firstn_length; lia). destruct (Nat.ltb_spec i k).
  - rewrite app_nth1 by lia. rewrite <- (firstn_skipn k src) at 2. rewrite app_nth1; auto. lia.
  - rewrite app_nth2 by lia. rewrite L. rewrite <- (firstn_skipn k dst) at 2. rewrite app_nth2; rewrite firstn_length; [|lia].
    f_equal. lia.
Qed.

(** a dynamic vector (tw = 0) or two vectors of the same fixed width *)
Lemma set_width_ok : forall tw w old, (tw = 0 \/ old = w) -> 1 <= w <= 64 -> set_width tw w old = w.
Proof.
  intros tw w old H B. unfold set_width. destruct (Nat.eqb_spec tw 0).
  - replace ((0 <? w) && (w <=? 64)) with true by lia. auto. - destruct H; [lia|auto].
Qed.

Lemma assign_core : forall g t v, fresh_ok g -> words_ok (iv_data t) -> iv_size t <= 64 * length (iv_data t) -> iv_ok v ->
  exists r m, iv_bit_resize g t (iv_size v) = Some r /\
    (forall b : bool, (b = false -> iv_size v = 0) -> (if b then copy_words (iv_data r) (iv_data v) (iv_capacity v / 8 / 8) else Some (iv_data r)) = Some m \/ iv_size v = 0) /\
    copy_words (iv_data r) (iv_data v) (iv_capacity v / 8 / 8) = Some m /\
    words_ok (iv_data r) /\ words_ok m /\ iv_size r = iv_size v /\ iv_width r = iv_width t /\ iv_size v <= 64 * length m /\
    iv_size v <= 64 * length (iv_data r) /\
    forall p, p < iv_size v -> mbit m p = mbit (iv_data v) p.
Proof.
  intros g t v G At Ct [A [B C]]. destruct (bit_resize_bits g t (iv_size v) G At Ct) as [r [R [S [W [K [L [_ T]]]]]]].
  assert (CW : iv_capacity v / 8 / 8 = (iv_size v + 63) / 64) by (unfold iv_capacity; lia).
  destruct (copy_words_ok (iv_data r) (iv_data v) (iv_capacity v / 8 / 8)) as [m [E [Lm N]]]; try lia.
  exists r, m. split; auto. split. { intros b Hb. destruct b; [left; auto|right; auto]. }
  split; auto. split; auto. split.
  { unfold words_ok. rewrite Forall_forall. intros x Hx. destruct (In_nth _ _ 0%N Hx) as [i [Hi Ei]]. subst x. rewrite N.
    destruct (i <? _); apply words_ok_nth; auto. }
  split; auto. split; auto. split; [lia|]. split; auto. intros p Hp. unfold mbit. rewrite N.
  replace (p / 64 <? iv_capacity v / 8 / 8) with true by lia. auto.
Qed.

Lemma copy_assign_gen : forall g tw t v, fresh_ok g -> words_ok (iv_data t) -> iv_size t <= 64 * length (iv_data t) -> iv_ok v ->
  (tw = 0 \/ iv_width t = iv_width v) -> forall b : bool, (b = false -> iv_size v = 0) ->
  exists v', (let* r := iv_bit_resize g t (iv_size v) in
    let* m := (if b then copy_words (iv_data r) (iv_data v) (iv_capacity v / 8 / 8) else Some (iv_data r)) in
    Some (iv_set_width tw (mkiv (iv_size r) m (iv_width r)) (iv_width v))) = Some v' /\
    iv_ok v' /\ iv_size v' = iv_size v /\ iv_width v' = iv_width v /\ iv_bits v' = iv_bits v.
Proof.
  intros g tw t v G At Ct O T b Hb. destruct (assign_core g t v G At Ct O) as [r [m [R [_ [E [K [Km [S [W [L [L2 M]]]]]]]]]]].
  pose proof O as [A [B C]]. rewrite R. cbn [obind].
  assert (SW : set_width tw (iv_width v) (iv_width r) = iv_width v) by (apply set_width_ok; [destruct T; [auto|right; congruence]|auto]).
  destruct b.
  - rewrite E. cbn [obind]. eexists. split; [reflexivity|]. unfold iv_set_width. cbn [iv_size iv_data iv_width]. rewrite SW, S.
    repeat split; cbn; auto; try lia. unfold iv_bits. cbn [iv_data iv_size]. apply map_ext_in. intros p Hp. apply in_seq in Hp. apply M. lia.
  - specialize (Hb eq_refl). cbn [obind]. eexists. split; [reflexivity|]. unfold iv_set_width. cbn [iv_size iv_data iv_width]. rewrite SW, S.
    repeat split; cbn; auto; try lia. unfold iv_bits. cbn [iv_data iv_size]. rewrite Hb. auto.
Qed.

Lemma assign_ok : forall g tw t v, fresh_ok g -> iv_ok t -> iv_ok v -> (tw = 0 \/ iv_width t = iv_width v) ->
  exists v', iv_assign g tw t v = Some v' /\ iv_ok v' /\ iv_size v' = iv_size v /\ iv_width v' = iv_width v /\ iv_bits v' = iv_bits v.
Proof.
  intros g tw t v G [At [Bt Ct]] O T. unfold iv_assign. apply copy_assign_gen; auto. intro H. destruct (iv_size v); auto; discriminate.
Qed.
Lemma copy_ok : forall g tw v, fresh_ok g -> iv_ok v ->
  exists v', iv_copy g tw v = Some v' /\ iv_ok v' /\ iv_size v' = iv_size v /\ iv_width v' = iv_width v /\ iv_bits v' = iv_bits v.
Proof.
  intros g tw v G O. unfold iv_copy. apply (copy_assign_gen g tw (mkiv 0 [] (iv_width v)) v); auto.
  - constructor. - intro H. unfold iv_capacity in H. lia.
Qed.

Lemma swap_ok : forall tw a b, iv_ok a -> iv_ok b -> (tw = 0 \/ iv_width a = iv_width b) -> iv_swap tw a b = (b, a).
Proof.
  intros tw [sa da wa] [sb db wb] [_ [Ba _]] [_ [Bb _]] T. unfold iv_swap. cbn in *.
  rewrite !set_width_ok; auto. destruct T; auto.
Qed.
