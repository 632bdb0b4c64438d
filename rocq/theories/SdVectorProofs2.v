(** * Proofs about sd_vector: construction *)
From Coq Require Import NArith List Bool Arith Lia Sorting.Sorted.
From Verif Require Import Base Bits SpecBits RankSelect BitsProofs BitsProofs2 BitsMem IntVector SpecIntVector IntVectorProofs IntVectorProofs3 AbsVec SelectSupportProofs3 SdVector SpecSd SdVectorProofs.
Import ListNotations.

(** ** ascending lists *)
Lemma asc_app : forall xs x, ascending (xs ++ [x]) <-> ascending xs /\ Forall (fun y => y < x) xs.
Proof.
  induction xs; intros x; cbn; split; intros H.
  - split; constructor.
  - repeat constructor.
  - inversion H; subst. apply IHxs in H2. destruct H2 as [A1 A2]. rewrite Forall_app in H3. destruct H3 as [B1 B2]. inversion B2; subst.
    split; constructor; auto.
  - destruct H as [A B]. inversion A; subst. inversion B; subst. constructor. { apply IHxs. auto. } apply Forall_app. split; auto.
Qed.
Lemma positions_asc : forall f n, ascending (positions f n).
Proof.
  induction n. { constructor. } rewrite positions_S. destruct (f n); [|rewrite app_nil_r; auto]. apply asc_app. split; auto.
  apply Forall_forall. intros y Y. apply positions_In in Y. lia.
Qed.
Lemma asc_ext : forall xs ys, ascending xs -> ascending ys -> (forall x, In x xs <-> In x ys) -> xs = ys.
Proof.
  induction xs as [|x xs IH]; intros [|y ys] A1 A2 E; auto.
  - exfalso. apply (E y). cbn. auto.
  - exfalso. apply (E x). cbn. auto.
  - inversion A1; subst. inversion A2; subst. rewrite Forall_forall in *. assert (x = y).
    { destruct (proj1 (E x)) as [Q|Q]; [cbn; auto|auto|]. destruct (proj2 (E y)) as [P|P]; [cbn; auto|auto|]. specialize (H2 _ P). specialize (H4 _ Q). lia. }
    subst y. f_equal. apply IH; auto. intros z. specialize (E z). cbn in E. split; intros Z.
    + destruct (proj1 E) as [Q|Q]; auto. subst z. specialize (H2 _ Z). lia.
    + destruct (proj2 E) as [Q|Q]; auto. subst z. specialize (H4 _ Z). lia.
Qed.
Lemma memb_In : forall xs k, memb xs k = true <-> In k xs.
Proof. intros. unfold memb. rewrite existsb_exists. split; [intros [x [X1 X2]]; apply Nat.eqb_eq in X2; subst; auto|intros; exists k; split; auto; apply Nat.eqb_refl]. Qed.
Lemma positions_memb : forall xs n, ascending xs -> Forall (fun x => x < n) xs -> positions (memb xs) n = xs.
Proof.
  intros xs n A F. apply asc_ext; auto; [apply positions_asc|]. intros x. rewrite positions_In, memb_In. rewrite Forall_forall in F. split; [tauto|]. auto.
Qed.
Lemma asc_nth : forall xs i j d, ascending xs -> i < j -> j < length xs -> nth i xs d < nth j xs d.
Proof.
  induction xs; intros i j d A I J; cbn [length] in *; [lia|]. inversion A; subst. rewrite Forall_forall in *. destruct j; [lia|]. destruct i; cbn [nth].
  - apply H2. apply nth_In. lia.
  - apply IHxs; auto; lia.
Qed.
Lemma asc_length : forall xs n, ascending xs -> Forall (fun x => x < n) xs -> length xs <= n.
Proof.
  intros xs n A F. rewrite <- (positions_memb xs n A F). change (length (positions (memb xs) n)) with (rank_of (memb xs) n). apply rank_of_le.
Qed.

(** ** widths *)
Lemma pow2_nat : forall k, N.to_nat (2 ^ N.of_nat k) = 2 ^ k.
Proof. intros. rewrite N2Nat.inj_pow. rewrite Nat2N.id. reflexivity. Qed.
Lemma hiw_mono : forall a b, (a <= b)%N -> (b < W64)%N -> hiw a <= hiw b.
Proof.
  intros a b AB BW. unfold hiw. rewrite !hi_correct by (unfold is_word; lia). destruct (N.eq_dec a 0) as [->|Z]; [cbn; lia|].
  pose proof (N.log2_le_mono a b AB). lia.
Qed.
Section C.
Variables n m : nat.
Hypothesis NW : (N.of_nat n < W64)%N.
Hypothesis MN : m <= n.
Let logm := sd_logm n m.
Let wl := sd_logn n - logm.
Let L := 2 ^ wl.
Let K := 2 ^ logm.
Lemma logm_lt : logm < sd_logn n /\ sd_logn n <= 64.
Proof.
  unfold logm, sd_logm, sd_logn. pose proof (hiw_mono (N.of_nat m) (N.of_nat n) ltac:(lia) NW). pose proof (hiw_bound _ NW).
  destruct (Nat.eqb_spec (hiw (N.of_nat m)) (hiw (N.of_nat n))); lia.
Qed.
Lemma n_div_K : n / L < K.
Proof.
  destruct logm_lt as [A1 A2]. apply Nat.div_lt_upper_bound. { unfold L. apply Nat.pow_nonzero. lia. }
  unfold L, K. rewrite <- Nat.pow_add_r. replace (wl + logm) with (sd_logn n) by (unfold wl; lia).
  pose proof (hiw_fits (N.of_nat n) (N.of_nat n) NW ltac:(lia)) as H. rewrite <- pow2_nat. unfold sd_logn. lia.
Qed.
(** the state after the positions [p] *)
Definition hit (p : list nat) (k : nat) : Prop := exists j, j < length p /\ k = nth j p 0 / L + j.
Definition pushed (p : list nat) (s : sdst) : Prop :=
  let '(mm, lh, hp, low, high) := s in
  mm = length p /\ lh = last p 0 / L /\ hp = lh + mm /\ av_w low = wl /\
  av_l low = map (fun x => N.of_nat (x mod L)) p ++ repeat 0%N (m - mm) /\
  length high = m + K /\ forall k, nth k high false = true <-> hit p k.
Lemma start_pushed : pushed [] (snd (sd_start n m)) /\ fst (sd_start n m) = wl.
Proof.
  split; [|reflexivity]. cbn -[hiw av_new]. repeat split; auto.
  - rewrite Nat.div_0_l; auto. unfold L. apply Nat.pow_nonzero. lia.
  - unfold av_new. cbn [av_l]. rewrite N.mod_0_l by (apply N.pow_nonzero; lia). f_equal. lia.
  - apply repeat_length.
  - intros E. exfalso. assert (X : forall c q, nth q (repeat false c) false = false) by (induction c; intros [|q]; cbn; auto). rewrite X in E. discriminate.
  - intros [j [J _]]. cbn in J. lia.
Qed.
Lemma last_app1 : forall (l : list nat) x d, last (l ++ [x]) d = x.
Proof. intros. apply last_last. Qed.
Lemma last_lt : forall p x, p <> [] -> Forall (fun y => y < x) p -> last p 0 < x.
Proof.
  intros p x NE F. destruct (exists_last NE) as [q [z ->]]. rewrite last_last. rewrite Forall_app in F. destruct F as [_ F]. inversion F. auto.
Qed.
Lemma nth_upd_b : forall (l : list bool) i x k, i < length l -> nth k (upd l i x) false = if k =? i then x else nth k l false.
Proof. intros. destruct (Nat.eqb_spec k i) as [->|]. { apply nth_upd_eq. auto. } apply nth_upd_neq. auto. Qed.
Lemma upd_app_mid : forall A (l : list A) y r x, upd (l ++ y :: r) (length l) x = l ++ x :: r.
Proof. induction l; intros; cbn; f_equal; auto. Qed.
Lemma push_ok : forall p s x, pushed p s -> ascending (p ++ [x]) -> x < n -> length p < m -> exists s', sd_push wl s x = Some s' /\ pushed (p ++ [x]) s'.
Proof.
  intros p [[[[mm lh] hp] low] high] x [E1 [E2 [E3 [E4 [E5 [E6 E7]]]]]] A X LM. apply asc_app in A. destruct A as [A1 A2].
  assert (LP : L <> 0) by (apply Nat.pow_nonzero; lia).
  assert (HL : lh <= x / L). { rewrite E2. apply Nat.div_le_mono; auto. destruct p as [|y p]; [cbn; lia|]. pose proof (last_lt (y :: p) x ltac:(discriminate) A2). lia. }
  assert (XK : x / L < K). { pose proof n_div_K. pose proof (Nat.div_le_mono x n L LP ltac:(lia)). lia. }
  unfold sd_push. fold L. unfold av_set, av_size. rewrite E5, app_length, map_length, repeat_length. replace (mm <? length p + (m - mm)) with true by lia. cbn [obind].
  rewrite aset_some by lia. cbn [obind]. eexists. split; [reflexivity|]. cbn [pushed]. rewrite app_length, last_app1. cbn [length av_w av_l].
  split; [lia|]. split; auto. split; [lia|]. split; auto. split.
  - rewrite E4. assert (XM : (N.of_nat x mod 2 ^ N.of_nat wl)%N = N.of_nat (x mod L)). { rewrite Nat2N.inj_mod. f_equal. unfold L. rewrite <- pow2_nat. lia. }
    rewrite XM. rewrite map_app. cbn [map]. replace (m - mm) with (S (m - S mm)) by lia. cbn [repeat].
    rewrite <- app_assoc. cbn [app]. rewrite E1. pose proof (map_length (fun x => N.of_nat (x mod L)) p) as ML. rewrite <- ML. apply upd_app_mid.
  - split. { rewrite upd_length. auto. } intros k. rewrite nth_upd_b by lia. destruct (Nat.eqb_spec k (hp + x / L - lh)) as [EK|EK].
    + split; auto. intros _. exists (length p). rewrite app_length. cbn [length]. split; [lia|]. rewrite app_nth2, Nat.sub_diag by lia. cbn. lia.
    + rewrite E7. unfold hit. rewrite app_length. cbn [length]. split; intros [j [J1 J2]].
      * exists j. split; [lia|]. rewrite app_nth1 by lia. auto.
      * destruct (Nat.eq_dec j (length p)) as [->|NE].
        { exfalso. apply EK. rewrite app_nth2, Nat.sub_diag in J2 by lia. cbn in J2. lia. }
        exists j. split; [lia|]. rewrite app_nth1 in J2 by lia. auto.
Qed.
Lemma pushes_ok : forall xs p s, pushed p s -> ascending (p ++ xs) -> Forall (fun x => x < n) xs -> length p + length xs <= m ->
  exists s', sd_pushes wl xs s = Some s' /\ pushed (p ++ xs) s'.
Proof.
  induction xs as [|x xs IH]; intros p s P A F LM; cbn [sd_pushes]. { exists s. rewrite app_nil_r. auto. }
  inversion F; subst. cbn [length] in LM. replace (p ++ x :: xs) with ((p ++ [x]) ++ xs) in * by (rewrite <- app_assoc; auto).
  assert (A1 : ascending (p ++ [x])). { clear - A. revert A. generalize (p ++ [x]). intros l A. induction l; [constructor|]. cbn in A. inversion A; subst. rewrite Forall_app in *. constructor; [apply IHl; auto|tauto]. }
  destruct (push_ok p s x P A1 H1 ltac:(lia)) as [s1 [Q1 Q2]]. rewrite Q1. cbn [obind]. apply IH; auto. rewrite app_length. cbn. lia.
Qed.
Lemma finish_rep : forall B s, (forall k, B k = true -> k < n) -> rank_of B n = m -> pushed (positions B n) s -> sd_rep B n (sd_finish n wl s) K.
Proof.
  intros B [[[[mm lh] hp] low] high] BN RM [E1 [E2 [E3 [E4 [E5 [E6 E7]]]]]]. unfold sd_rep. cbn [sd_finish sd_size sd_wl sd_low sd_high]. fold L.
  split; auto. split; [apply n_div_K|]. split. { rewrite E5. replace (m - mm) with 0 by (unfold rank_of in RM; lia). cbn. apply app_nil_r. }
  split; [lia|]. intros k. rewrite E7. unfold hit, hix, sx. cbn [sd_wl]. fold L. reflexivity.
Qed.
End C.

(** ** the three constructors *)
Definition sd_good (B : nat -> bool) (n : nat) (d : sdv) : Prop := exists K, sd_rep B n d K.
Lemma sd_of_asc : forall xs n, (N.of_nat n < W64)%N -> ascending xs -> Forall (fun x => x < n) xs ->
  let '(wl, s) := sd_start n (length xs) in exists s', sd_pushes wl xs s = Some s' /\ sd_good (memb xs) n (sd_finish n wl s') /\ pushed n (length xs) xs s'.
Proof.
  intros xs n NW A F. pose proof (asc_length xs n A F) as LX. destruct (start_pushed n (length xs) NW LX) as [S1 S2].
  destruct (sd_start n (length xs)) as [wl s] eqn:E. cbn [fst snd] in *.
  destruct (pushes_ok n (length xs) NW LX xs [] s S1) as [s' [P1 P2]]; auto. rewrite S2. exists s'. split; auto. split; auto. eexists.
  apply finish_rep; auto.
  - intros k M. apply memb_In in M. rewrite Forall_forall in F. auto.
  - unfold rank_of. rewrite positions_memb; auto.
  - cbn [app] in P2. rewrite positions_memb; auto.
Qed.
Lemma asc_sorted : forall xs, ascending xs -> is_sorted xs = true.
Proof.
  induction xs as [|x [|y xs] IH]; intros A; auto. inversion A; subst. change (is_sorted (x :: y :: xs)) with ((x <=? y) && is_sorted (y :: xs)). rewrite IH by auto. inversion H2; subst. rewrite andb_true_r. apply Nat.leb_le. lia.
Qed.
Lemma asc_last : forall xs, ascending xs -> Forall (fun x => x < last xs 0 + 1) xs.
Proof.
  intros xs A. destruct xs as [|x0 xs0]; [constructor|]. destruct (exists_last (l := x0 :: xs0)) as [q [z E]]; [discriminate|]. rewrite E in *. rewrite last_last.
  apply asc_app in A. destruct A as [_ A]. apply Forall_app. split; [|repeat constructor; lia]. eapply Forall_impl; [|apply A]. cbn. intros. lia.
Qed.
Lemma sd_of_list_ok : forall xs, xs <> [] -> ascending xs -> N.lt (N.of_nat (last xs 0 + 1)) W64 ->
  exists d, sd_of_list xs = Some d /\ sd_good (memb xs) (last xs 0 + 1) d.
Proof.
  intros xs NE A NW. pose proof (asc_last xs A) as F. unfold sd_of_list. destruct xs as [|x0 xs0]; [congruence|].
  rewrite asc_sorted by auto. cbn [negb]. remember (x0 :: xs0) as xs eqn:EX. pose proof (asc_length _ _ A F) as LX.
  destruct (logm_lt _ (length xs) NW LX) as [A1 A2]. replace (sd_logn (last xs 0 + 1) <? sd_logm (last xs 0 + 1) (length xs)) with false by lia.
  pose proof (sd_of_asc xs _ NW A F) as P. destruct (sd_start (last xs 0 + 1) (length xs)) as [wl s]. destruct P as [s' [P1 [P2 _]]]. rewrite P1. cbn [obind]. eauto.
Qed.
Lemma sb_sets_pushes : forall xs b s', sd_pushes (sb_wl b) xs (sb_st b) = Some s' ->
  exists b', sb_sets b xs = Some b' /\ sb_st b' = s' /\ sb_n b' = sb_n b /\ sb_cap b' = sb_cap b /\ sb_wl b' = sb_wl b.
Proof.
  induction xs as [|x xs IH]; intros b s' H; cbn [sd_pushes sb_sets] in *. { apply some_inj in H. subst. eauto 10. }
  unfold sb_set. destruct (sd_push (sb_wl b) (sb_st b) x) as [s1|]; [|discriminate]. cbn [obind] in *.
  destruct (IH (mksdb (sb_n b) (sb_cap b) (sb_wl b) (x + 1) s1) s' H) as [b' [E1 [E2 [E3 [E4 E5]]]]]. exists b'. rewrite E1. auto.
Qed.
Lemma sd_of_builder_ok : forall n xs, (N.of_nat n < W64)%N -> ascending xs -> Forall (fun x => x < n) xs ->
  exists d, (let* b := sb_new n (length xs) in let* b := sb_sets b xs in sd_of_builder b) = Some d /\ sd_good (memb xs) n d.
Proof.
  intros n xs NW A F. pose proof (asc_length xs n A F) as LX. unfold sb_new. replace (n <? length xs) with false by lia.
  pose proof (sd_of_asc xs _ NW A F) as P. destruct (sd_start n (length xs)) as [wl s]. destruct P as [s' [P1 [P2 P3]]]. cbn [obind].
  destruct (sb_sets_pushes xs (mksdb n (length xs) wl 0 s) s' P1) as [b' [E1 [E2 [E3 [E4 E5]]]]]. rewrite E1. cbn [obind]. unfold sd_of_builder, sb_items. rewrite E2, E4, E3, E5. cbn [sb_cap sb_n sb_wl].
  destruct s' as [[[[mm lh] hp] low] high]. destruct P3 as [-> P3]. rewrite Nat.eqb_refl. cbn [negb]. eauto.
Qed.
(** a builder that is not full is rejected *)
Lemma sd_of_builder_throws : forall n c xs, (N.of_nat n < W64)%N -> ascending xs -> Forall (fun x => x < n) xs -> length xs < c -> c <= n ->
  exists b, (let* b := sb_new n c in sb_sets b xs) = Some b /\ sd_of_builder b = None.
Proof.
  intros n c xs NW A F LC CN. unfold sb_new. replace (n <? c) with false by lia. destruct (start_pushed n c NW CN) as [S1 S2].
  destruct (sd_start n c) as [wl s] eqn:E. cbn [fst snd obind] in *. destruct (pushes_ok n c NW CN xs [] s S1 A F ltac:(cbn; lia)) as [s' [P1 P2]]. rewrite <- S2 in P1.
  destruct (sb_sets_pushes xs (mksdb n c wl 0 s) s' P1) as [b' [E1 [E2 [E3 [E4 E5]]]]]. exists b'. split; auto. unfold sd_of_builder, sb_items. rewrite E2, E4. cbn [sb_cap].
  destruct s' as [[[[mm lh] hp] low] high]. destruct P2 as [-> P2]. cbn [app]. replace (length xs =? c) with false by lia. reflexivity.
Qed.

(** ** from a bit_vector *)
Section BV.
Variable v : ivec.
Hypothesis OK : iv_ok v.
Hypothesis NW : (N.of_nat (iv_size v) < W64)%N.
Let n := iv_size v.
Let m := rank_of (iv_bit v) n.
Let wl := sd_logn n - sd_logm n m.
Lemma iv_bit_lt : forall k, iv_bit v k = true -> k < n.
Proof.
  intros k H. destruct (Nat.lt_ge_cases k n) as [|C]; auto. unfold iv_bit in H. rewrite nth_overflow in H; [discriminate|]. unfold iv_bits. rewrite map_length, seq_length. auto.
Qed.
Lemma pos_gap : forall f a b, a <= b -> (forall k, a <= k < b -> f k = false) -> positions f b = positions f a.
Proof.
  intros f a b H. induction H; intros G; auto. rewrite positions_S. rewrite G by lia. rewrite app_nil_r. apply IHle. intros. apply G. lia.
Qed.
Lemma word_loop_ok : forall c fuel w p s, is_word w -> c <= 64 -> 64 - c < fuel -> p mod 64 = c mod 64 -> p <= n -> let e := p + (64 - c) in
  (forall k, k < 64 - c -> p + k < n -> tb w k = iv_bit v (p + k)) -> (forall k, 64 - c <= k -> tb w k = false) ->
  pushed n m (positions (iv_bit v) p) s ->
  exists s', sd_word_loop fuel wl n w p s = Some s' /\ pushed n m (positions (iv_bit v) (min e n)) s'.
Proof.
  intros c fuel. revert c. induction fuel; intros c w p s WW C F PM PN e TB TZ P; [lia|]. cbn [sd_word_loop].
  assert (MN : m <= n) by apply rank_of_le.
  destruct (N.eqb_spec w 0) as [->|NZ].
  - exists s. split; auto. rewrite (pos_gap _ p (min e n)); auto; [unfold e; lia|]. intros k K. replace k with (p + (k - p)) by lia. rewrite <- TB; [apply tb_0|unfold e in *; lia|lia].
  - rewrite lo_correct by auto. rewrite Nat2N.id. destruct (lsb_is_lsb w NZ) as [L1 L2]. set (off := lsb w) in *.
    assert (OC : off < 64 - c). { destruct (Nat.lt_ge_cases off (64 - c)); auto. rewrite TZ in L1 by lia. discriminate. }
    destruct (Nat.leb_spec n (p + off)) as [LE|LE].
    + exists s. split; auto. rewrite (pos_gap _ p (min e n)); auto; [unfold e; lia|]. intros k K. replace k with (p + (k - p)) by lia. rewrite <- TB; [apply L2; lia|unfold e in *; lia|lia].
    + assert (PE : positions (iv_bit v) (p + off) = positions (iv_bit v) p). { apply pos_gap; [lia|]. intros k K. replace k with (p + (k - p)) by lia. rewrite <- TB by lia. apply L2. lia. }
      assert (PS : positions (iv_bit v) (S (p + off)) = positions (iv_bit v) p ++ [p + off]). { rewrite positions_S, PE. rewrite <- TB by lia. rewrite L1. auto. }
      destruct (push_ok n m NW MN (positions (iv_bit v) p) s (p + off)) as [s1 [Q1 Q2]]; auto.
      { rewrite <- PS. apply positions_asc. }
      { assert (LE2 : rank_of (iv_bit v) (S (p + off)) <= m) by (apply rank_of_mono; lia). unfold rank_of in LE2. rewrite PS, app_length in LE2. cbn in LE2. lia. }
      fold wl in Q1. rewrite Q1. cbn [obind]. rewrite <- PS in Q2. replace (p + off + 1) with (S (p + off)) by lia.
      destruct (IHfuel (c + off + 1) (shr (shr w off) 1) (S (p + off)) s1) as [s' [R1 R2]]; auto; try lia.
      * auto with word.
      * intros k K1 K2. rewrite !tb_shr. rewrite TB by lia. f_equal. lia.
      * intros k K1. rewrite !tb_shr. apply TZ. lia.
      * exists s'. split; auto. replace (min e n) with (min (S (p + off) + (64 - (c + off + 1))) n) by (unfold e; lia). auto.
Qed.
Lemma words_loop_ok : forall todo i s, 64 * (i + todo) < n + 64 -> 64 * i <= n -> pushed n m (positions (iv_bit v) (64 * i)) s ->
  exists s', sd_words_loop todo i wl n (iv_data v) s = Some s' /\ pushed n m (positions (iv_bit v) (if todo =? 0 then 64 * i else min (64 * (i + todo)) n)) s'.
Proof.
  induction todo; intros i s T I P; cbn [sd_words_loop]. { exists s. auto. }
  destruct OK as [WO [_ SZ]]. rewrite ld_some by lia. cbn [obind].
  destruct (word_loop_ok 0 65 (nth i (iv_data v) 0%N) (64 * i) s) as [s1 [Q1 Q2]]; auto; try lia.
  - apply words_ok_nth. auto.
  - intros k K1 K2. rewrite iv_bit_mbit by auto. unfold mbit. replace ((64 * i + k) / 64) with i by lia. replace ((64 * i + k) mod 64) with k by lia. auto.
  - intros k K1. apply tb_word_high; [apply words_ok_nth; auto|lia].
  - rewrite Q1. cbn [obind]. destruct (Nat.eq_dec todo 0) as [->|NZ].
    + exists s1. split; auto. cbn [Nat.eqb]. replace (min (64 * (i + 1)) n) with (min (64 * i + (64 - 0)) n) by lia. auto.
    + destruct (IHtodo (S i) s1) as [s' [R1 R2]]; try lia. { replace (64 * S i) with (min (64 * i + (64 - 0)) n) by lia. auto. }
      exists s'. split; auto. cbn [Nat.eqb]. replace (todo =? 0) with false in R2 by lia. replace (i + S todo) with (S i + todo) by lia. auto.
Qed.
Lemma sd_of_bv_ok : exists d, sd_of_bv v = Some d /\ sd_good (iv_bit v) n d.
Proof.
  unfold sd_of_bv. rewrite cnt_one_bits_ok by auto. cbn [obind]. rewrite count_true_iv_bits, Nat2N.id.
  assert (EM : rank_of (mbit (iv_data v)) (iv_size v) = m). { apply rank_of_ext. intros. symmetry. apply iv_bit_mbit. auto. }
  rewrite EM. fold n. destruct (start_pushed n m NW (rank_of_le _ _)) as [S1 S2]. destruct (sd_start n m) as [wl' s]. cbn [fst snd] in *. subst wl'. fold wl.
  destruct (words_loop_ok ((n + 63) / 64) 0 s) as [s' [Q1 Q2]]; try lia. { exact S1. }
  rewrite Q1. cbn [obind]. eexists. split; [reflexivity|]. eexists. apply finish_rep; auto.
  - apply rank_of_le.
  - apply iv_bit_lt.
  - destruct (Nat.eqb_spec ((n + 63) / 64) 0) as [Z|Z]. { assert (Z0 : n = 0) by lia. replace (positions (iv_bit v) n) with (positions (iv_bit v) (64 * 0)); [auto|]. rewrite Z0. reflexivity. }
    replace (min (64 * (0 + (n + 63) / 64)) n) with n in Q2 by lia. auto.
Qed.
End BV.
