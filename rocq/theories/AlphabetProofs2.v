(** * succinct_byte_alphabet and int_alphabet *)
From Coq Require Import List Arith Bool Lia Permutation.
From Verif Require Import Base SpecBits RankSelect AbsVec FnArr WtBase SpecCsa Alphabet AlphabetProofs.
Import ListNotations.

(** ** the marker bit vector *)
Lemma marker_bit : forall M (f : nat -> bool) c, c < M -> t_bit (farr M f) c = f c.
Proof. intros. unfold t_bit. apply farr_nth. auto. Qed.
Lemma marker_c2c : forall t M c, (forall x, In x t -> x < M) -> In c t -> mk_c2c (farr M (pres t)) c = Some (dless t c).
Proof.
  intros t M c B I. unfold mk_c2c. pose proof (B c I). rewrite farr_length. replace (M <=? c) with false by (symmetry; apply Nat.leb_gt; auto).
  unfold t_get. rewrite farr_nth_error by auto. cbn [obind]. rewrite (proj2 (pres_in t c) I). cbn [negb]. unfold t_rank. rewrite farr_length.
  replace (c <=? M) with true by (symmetry; apply Nat.leb_le; lia). rewrite dless_rank. f_equal. apply rank_of_ext. intros. apply marker_bit. lia.
Qed.
Lemma marker_abs : forall t M c, ~ In c t -> mk_c2c (farr M (pres t)) c = Some 0.
Proof.
  intros t M c I. unfold mk_c2c. rewrite farr_length. destruct (Nat.leb_spec M c); auto.
  unfold t_get. rewrite farr_nth_error by auto. cbn [obind]. destruct (pres t c) eqn:P; auto. apply pres_in in P. contradiction.
Qed.
Lemma marker_c2ch : forall t M c, (forall x, In x t -> x < M) -> In c t -> mk_c2ch (farr M (pres t)) (dless t c) = Some c.
Proof.
  intros t M c B I. unfold mk_c2ch, t_sel1. replace (dless t c + 1 =? 0) with false by (symmetry; apply Nat.eqb_neq; lia). rewrite Nat.add_sub, farr_length.
  rewrite (positions_ext _ (pres t)) by (intros; apply marker_bit; auto). rewrite dless_rank. pose proof (rank_lt_sigma t M c I (B _ I)).
  rewrite nth_error_nth' with (d := 0) by auto. f_equal. apply sym_rank; auto.
Qed.

(** ** succinct_byte_alphabet *)
Lemma scompact_ok : forall t k i g, i + k = 256 ->
  (forall j, i <= j -> j < 257 -> g j = cnt1 t j) ->
  (forall j, j < rank_of (pres t) i -> g j = cnt1 t (nth j (positions (pres t) i) 0)) ->
  exists g', sba_compact k i (farr 257 g) (farr 256 (fun c => (c <? i) && pres t c)) (rank_of (pres t) i)
     = Some (farr 257 g', farr 256 (pres t), rank_of (pres t) 256) /\
  (forall j, j < rank_of (pres t) 256 -> g' j = cnt1 t (sym t 256 j)).
Proof.
  intros t. induction k as [|k IH]; intros i g E G1 G2.
  - assert (i = 256) by lia. clear E. subst i. cbn [sba_compact]. exists g. split; [|auto].
    rewrite (farr_ext bool 256 _ (pres t)); [reflexivity|]. intros j J. replace (j <? 256) with true by (symmetry; apply Nat.ltb_lt; auto). auto.
  - assert (L : i < 256) by (clear - E; lia). assert (L' : i < 257) by (clear - L; lia). assert (E' : S i + k = 256) by (clear - E; lia). clear E.
    assert (R : rank_of (pres t) i <= i) by apply rank_of_le.
    cbn [sba_compact]. rewrite farr_nth_error by auto. cbn [obind]. rewrite G1 by auto.
    destruct (Nat.eqb_spec (cnt1 t i) 0) as [Z|Z].
    + assert (P : pres t i = false) by (unfold pres; rewrite Z; auto).
      assert (RS : rank_of (pres t) (S i) = rank_of (pres t) i) by (rewrite rank_of_S, P; cbn; apply Nat.add_0_r).
      assert (PS : positions (pres t) (S i) = positions (pres t) i) by (rewrite positions_S, P; apply app_nil_r).
      destruct (IH (S i) g E') as (g' & X & Y); rewrite ?RS, ?PS; auto. { intros j J1 J2. apply G1; auto. clear - J1. lia. }
      exists g'. split; auto. rewrite <- X. rewrite RS. f_equal. apply farr_ext. intros j J.
      destruct (Nat.eqb_spec j i) as [-> | N]. { rewrite P, !andb_false_r. auto. } replace (j <? S i) with (j <? i) by (clear - N; destruct (Nat.ltb_spec j i), (Nat.ltb_spec j (S i)); auto; lia). auto.
    + assert (P : pres t i = true) by (unfold pres; apply Nat.ltb_lt; clear - Z; lia).
      assert (RS : rank_of (pres t) (S i) = S (rank_of (pres t) i)) by (rewrite rank_of_S, P; cbn; apply Nat.add_1_r).
      assert (PS : positions (pres t) (S i) = positions (pres t) i ++ [i]) by (rewrite positions_S, P; auto).
      assert (PL : length (positions (pres t) i) = rank_of (pres t) i) by auto.
      rewrite farr_aset by auto. cbn [obind]. rewrite farr_aset by (clear - R L'; lia). cbn [obind].
      destruct (IH (S i) (fun j => if j =? rank_of (pres t) i then cnt1 t i else g j) E') as (g' & X & Y).
      * intros j J1 J2. replace (j =? rank_of (pres t) i) with false by (symmetry; apply Nat.eqb_neq; clear - J1 R; lia). apply G1; auto. clear - J1. lia.
      * intros j J. rewrite RS in J. rewrite PS. destruct (Nat.eqb_spec j (rank_of (pres t) i)) as [-> | N].
        { rewrite <- PL, nth_middle. auto. } rewrite app_nth1 by (rewrite PL; clear - J N; lia). apply G2. clear - J N. lia.
      * exists g'. split; auto. rewrite <- X. rewrite RS. f_equal. apply farr_ext. intros j J.
        destruct (Nat.eqb_spec j i) as [-> | N]. { rewrite P. replace (i <? S i) with true by (symmetry; apply Nat.ltb_lt; lia). auto. }
        replace (j <? S i) with (j <? i) by (clear - N; destruct (Nat.ltb_spec j i), (Nat.ltb_spec j (S i)); auto; lia). auto.
Qed.

Lemma wset_some : forall w n f i x, x < 2 ^ w -> i < n -> wset w (farr n f) i x = Some (farr n (fun j => if j =? i then x else f j)).
Proof. intros. unfold wset. replace (x <? 2 ^ w) with true by (symmetry; apply Nat.ltb_lt; auto). apply farr_aset. auto. Qed.

Lemma sfill_ok : forall w N g i n f, i < n -> i <= N -> (forall j, j < i -> g j < 2 ^ w) ->
  sba_fill w i (farr N g) (farr n f) = Some (farr n (fun j => if (1 <=? j) && (j <=? i) then g (j - 1) else f j)).
Proof.
  intros w N g. induction i as [|i IH]; intros n f L L2 F.
  - cbn [sba_fill]. f_equal. apply farr_ext. intros j J. destruct j; auto.
  - cbn [sba_fill]. rewrite farr_nth_error by lia. cbn [obind]. rewrite wset_some; [|apply F; lia|lia]. cbn [obind]. rewrite IH by (auto; lia). f_equal. apply farr_ext. intros j J.
    destruct (Nat.leb_spec 1 j); cbn [andb]; [|replace (j =? S i) with false by (symmetry; apply Nat.eqb_neq; lia); auto].
    destruct (Nat.leb_spec j i).
    + replace (j <=? S i) with true by (symmetry; apply Nat.leb_le; lia). auto.
    + destruct (Nat.eqb_spec j (S i)) as [-> | M]. { rewrite Nat.leb_refl. f_equal. lia. } replace (j <=? S i) with false by (symmetry; apply Nat.leb_gt; lia). auto.
Qed.

Lemma ssums_ok : forall w (g : nat -> nat) n k i, 1 <= i -> i + k = n -> (forall j, j < n -> psum g j < 2 ^ w) ->
  sba_sums w k i (farr n (fun j => if j <? i then psum g j else g (j - 1))) = Some (farr n (fun j => psum g j)).
Proof.
  intros w g n. induction k as [|k IH]; intros i I E F; cbn [sba_sums].
  - f_equal. apply farr_ext. intros j J. replace (j <? i) with true by (symmetry; apply Nat.ltb_lt; lia). auto.
  - rewrite farr_nth_error by lia. cbn [obind]. rewrite farr_nth_error by lia. cbn [obind]. rewrite Nat.ltb_irrefl. replace (i - 1 <? i) with true by (symmetry; apply Nat.ltb_lt; lia).
    assert (Z : g (i - 1) + psum g (i - 1) = psum g i) by (replace i with (S (i - 1)) at 3 by lia; cbn [psum]; lia). rewrite Z.
    rewrite wset_some; [|apply F; lia|lia]. cbn [obind]. rewrite <- (IH (S i)) by (auto; lia). f_equal. apply farr_ext. intros j J.
    destruct (Nat.eqb_spec j i) as [-> | N].
    + replace (i <? S i) with true by (symmetry; apply Nat.ltb_lt; lia). auto.
    + replace (j <? S i) with (j <? i); auto. destruct (Nat.ltb_spec j i), (Nat.ltb_spec j (S i)); auto; lia.
Qed.

Lemma fits_len : forall (t : list nat) x, t <> [] -> x <= length t -> x < 2 ^ (Nat.log2 (length t) + 1).
Proof. intros. assert (0 < length t) by (destruct t; [congruence|cbn; lia]). pose proof (Nat.log2_spec (length t) H1). rewrite Nat.add_1_r. lia. Qed.

Lemma cnt1_le : forall t c, cnt1 t c <= length t.
Proof. intros. unfold cnt1. induction t; cbn; auto. destruct (c =? a); cbn; lia. Qed.

Theorem sba_ok : forall t, t <> [] -> (forall x, In x t -> x < 256) -> exists A, sba_make t = Some A /\ alph_ok 256 t A.
Proof.
  intros t N B. unfold sba_make.
  replace (length t =? 0) with false by (symmetry; apply Nat.eqb_neq; destruct t; [congruence|cbn; discriminate]).
  rewrite (farr_repeat nat 257 0), count_ok by (intros x X; specialize (B x X); clear - B; lia). cbn [obind].
  rewrite !(farr_repeat bool 256 false).
  destruct (scompact_ok t 256 0 (fun c => 0 + cnt1 t c)) as (g & X & G); auto. { intros j J. exfalso. rewrite rank_of_0 in J. clear - J. lia. }
  rewrite rank_of_0 in X.
  replace (farr 256 (fun c => (c <? 0) && pres t c)) with (farr 256 (fun _ => false)) in X by (apply farr_ext; intros; auto).
  rewrite X. cbn [obind]. pose proof (dist_256 t B) as DD. set (sg := rank_of (pres t) 256) in *.
  assert (SL : sg <= 256) by apply rank_of_le. rewrite farr_repeat.
  rewrite sfill_ok; [|lia|clear - SL; lia|]. 2: { intros j J. rewrite G by auto. apply fits_len; auto. apply cnt1_le. } cbn [obind].
  rewrite wset_some; [|apply fits_len; auto; lia|lia]. cbn [obind].
  rewrite (farr_ext nat _ _ (fun j => if j <? 1 then psum (fun j => cnt1 t (sym t 256 j)) j else cnt1 t (sym t 256 (j - 1)))).
  2: { intros j J. destruct j. { auto. } cbn [Nat.eqb]. replace (1 <=? S j) with true by auto. replace (S j <=? sg) with true by (symmetry; apply Nat.leb_le; lia). cbn [andb]. rewrite G by lia. auto. }
  rewrite ssums_ok; [|lia|lia|]. 2: { intros j J. apply fits_len; auto. apply (cum_le t 256); auto. fold sg. lia. }
  cbn [obind]. eexists. split; [reflexivity|]. constructor; cbn [al_sigma al_c2c al_c2ch al_C].
  - auto.
  - intros. apply marker_c2c; auto.
  - intros. apply marker_abs; auto.
  - intros. apply marker_c2ch; auto.
  - intros c I. apply C_ok; auto.
  - apply C1_ok; auto.
Qed.

(** ** int_alphabet *)
Definition keys (f : nat -> bool) (v : nat -> nat) (a n : nat) : list (nat * nat) := map (fun k => (k, v k)) (filter f (seq a n)).

Lemma map_inc_front : forall n a f v c, c < a -> map_inc (keys f v a n) c = (c, 1) :: keys f v a n.
Proof.
  induction n; intros; [reflexivity|]. unfold keys. cbn [seq filter]. destruct (f a) eqn:E.
  - cbn [map map_inc]. replace (c <? a) with true by (symmetry; apply Nat.ltb_lt; auto). auto.
  - apply (IHn (S a)). lia.
Qed.
Lemma keys_ext : forall n a f g v w, (forall k, a <= k < a + n -> f k = g k) -> (forall k, a <= k < a + n -> v k = w k) -> keys f v a n = keys g w a n.
Proof.
  induction n; intros; [reflexivity|]. unfold keys. cbn [seq filter]. rewrite (H a) by lia. specialize (IHn (S a) f g v w ltac:(intros; apply H; lia) ltac:(intros; apply H0; lia)). unfold keys in IHn.
  destruct (g a); cbn [map]; rewrite ?(H0 a) by lia; rewrite IHn; auto.
Qed.
Lemma map_inc_keys : forall n a f v c, a <= c < a + n -> (forall k, f k = false -> v k = 0) ->
  map_inc (keys f v a n) c = keys (fun k => f k || (k =? c)) (fun k => v k + b2nat (k =? c)) a n.
Proof.
  induction n as [|n IH]; intros a f v c L Z; [lia|]. unfold keys. cbn [seq filter]. destruct (Nat.eqb_spec a c) as [-> | N].
  - rewrite orb_true_r. cbn [map]. rewrite Nat.eqb_refl. cbn [b2nat].
    assert (T : keys (fun k => f k || (k =? c)) (fun k => v k + b2nat (k =? c)) (S c) n = keys f v (S c) n).
    { apply keys_ext; intros k K; replace (k =? c) with false by (symmetry; apply Nat.eqb_neq; lia); cbn; rewrite ?orb_false_r; auto. }
    unfold keys in T. rewrite T. destruct (f c) eqn:F.
    + cbn [map map_inc]. rewrite Nat.ltb_irrefl, Nat.eqb_refl. auto.
    + rewrite (Z c F). apply (map_inc_front n (S c)). lia.
  - rewrite orb_false_r. pose proof (IH (S a) f v c ltac:(lia) Z) as I. unfold keys in I. destruct (f a) eqn:F; [|exact I].
    cbn [map map_inc]. replace (c <? a) with false by (symmetry; apply Nat.ltb_ge; lia). replace (c =? a) with false by (symmetry; apply Nat.eqb_neq; lia).
    replace (a =? c) with false by (symmetry; apply Nat.eqb_neq; lia). cbn [b2nat]. rewrite Nat.add_0_r, I. auto.
Qed.

Lemma cnt1_app : forall a b c, cnt1 (a ++ b) c = cnt1 a c + cnt1 b c.
Proof. intros. unfold cnt1. rewrite filter_app, app_length. auto. Qed.
Lemma map_count_ok : forall M t, (forall x, In x t -> x < M) -> map_count t = keys (pres t) (cnt1 t) 0 M.
Proof.
  intros M. unfold map_count. induction t as [|x t IH] using rev_ind; intros B.
  - cbn [fold_left]. assert (E : keys (pres []) (cnt1 []) 0 M = []); [|rewrite E; auto]. unfold keys. replace (filter (pres []) (seq 0 M)) with (@nil nat); auto. induction (seq 0 M); auto.
  - rewrite fold_left_app. cbn [fold_left]. rewrite IH by (intros; apply B; apply in_or_app; auto).
    rewrite map_inc_keys. 2: { split; [lia|]. apply B. apply in_or_app. cbn. auto. } 2: { intros k. unfold pres. rewrite Nat.ltb_ge. lia. }
    apply keys_ext; intros k K; rewrite ?cnt1_app; unfold pres; rewrite ?cnt1_app; rewrite cnt1_cons; change (cnt1 [] k) with 0; destruct (k =? x); cbn [b2nat]; rewrite ?orb_true_r, ?orb_false_r, ?Nat.add_0_r; auto.
    symmetry. apply Nat.ltb_lt. lia.
Qed.

Lemma ia_mark_ok : forall D L f, (forall k v, In (k, v) D -> k < L) -> ia_mark D (farr L f) = Some (farr L (fun k => f k || existsb (fun e => fst e =? k) D)).
Proof.
  induction D as [|[k v] D IH]; intros L f B; cbn [ia_mark].
  - f_equal. apply farr_ext. intros. cbn. rewrite orb_false_r. auto.
  - rewrite farr_aset by (eapply B; left; reflexivity). cbn [obind]. rewrite IH by (intros; eapply B; right; eauto). f_equal. apply farr_ext. intros j J. cbn [existsb fst].
    rewrite (Nat.eqb_sym k j). destruct (j =? k); cbn; rewrite ?orb_true_r; auto.
Qed.
Lemma ia_fill_ok : forall w D n f sum idx, idx + length D <= n -> (forall k, k < length D -> sum + psum (fun i => snd (nth i D (0, 0))) k < 2 ^ w) ->
  ia_fill w D (farr n f) sum idx = Some (farr n (fun j => if (idx <=? j) && (j <? idx + length D) then sum + psum (fun i => snd (nth i D (0, 0))) (j - idx) else f j),
    sum + psum (fun i => snd (nth i D (0, 0))) (length D), idx + length D).
Proof.
  intros w. induction D as [|[k v] D IH]; intros n f sum idx L F; cbn [ia_fill length].
  - cbn [psum]. rewrite !Nat.add_0_r. f_equal. f_equal. f_equal. apply farr_ext. intros j J. destruct (Nat.leb_spec idx j), (Nat.ltb_spec j idx); auto; lia.
  - cbn [length] in L, F.
    assert (PS : forall m, psum (fun i => snd (nth i ((k, v) :: D) (0, 0))) (S m) = v + psum (fun i => snd (nth i D (0, 0))) m).
    { induction m; [cbn; lia|]. cbn [psum] in IHm |- *. cbn [nth] in *. lia. }
    rewrite wset_some; [|specialize (F 0 ltac:(lia)); cbn [psum] in F; lia|lia]. cbn [obind]. rewrite IH; [|lia|].
    2: { intros m K. specialize (F (S m) ltac:(lia)). rewrite PS in F. lia. }
    rewrite (PS (length D)). f_equal. f_equal; [|lia]. f_equal; [|lia]. apply farr_ext. intros j J.
    destruct (Nat.leb_spec (idx + 1) j), (Nat.ltb_spec j (idx + 1 + length D)); cbn [andb].
    + replace (idx <=? j) with true by (symmetry; apply Nat.leb_le; lia). replace (j <? idx + S (length D)) with true by (symmetry; apply Nat.ltb_lt; lia). cbn [andb].
      replace (j - idx) with (S (j - (idx + 1))) by lia. rewrite PS. lia.
    + replace (j =? idx) with false by (symmetry; apply Nat.eqb_neq; lia). replace (j <? idx + S (length D)) with false by (symmetry; apply Nat.ltb_ge; lia). rewrite andb_false_r. auto.
    + destruct (Nat.eqb_spec j idx) as [-> | N].
      * rewrite Nat.leb_refl. replace (idx <? idx + S (length D)) with true by (symmetry; apply Nat.ltb_lt; lia). cbn [andb]. rewrite Nat.sub_diag. cbn [psum]. lia.
      * replace (idx <=? j) with false by (symmetry; apply Nat.leb_gt; lia). auto.
    + lia.
Qed.

Lemma max_bound : forall t, (forall x, In x t -> x < S (list_max t)).
Proof. intros. pose proof (proj1 (list_max_le t (list_max t)) (le_n _)). rewrite Forall_forall in H0. specialize (H0 x H). lia. Qed.
Lemma max_in : forall t, t <> [] -> In (list_max t) t.
Proof.
  induction t; intros; [congruence|]. cbn [list_max fold_right In]. fold (list_max t). destruct (Nat.max_spec a (list_max t)) as [[A E]|[A E]]; rewrite E; auto. right. apply IHt. intro; subst. cbn in A. lia.
Qed.

Theorem ia_ok : forall t, t <> [] -> exists A, ia_make t = Some A /\ forall M, alph_ok M t A.
Proof.
  intros t N. set (M := S (list_max t)). assert (B : forall x, In x t -> x < M) by apply max_bound.
  assert (IM : In (list_max t) t) by (apply max_in; auto). assert (PM : pres t (list_max t) = true) by (apply pres_in; auto).
  unfold ia_make. replace (length t =? 0) with false by (symmetry; apply Nat.eqb_neq; destruct t; [congruence|cbn; discriminate]).
  rewrite (map_count_ok M) by auto. set (D := keys (pres t) (cnt1 t) 0 M).
  assert (LD : length D = rank_of (pres t) M) by (unfold D, keys; rewrite map_length; auto).
  assert (FL : fst (last D (0, 0)) = list_max t).
  { unfold D, keys, M. rewrite seq_S, filter_app. cbn [filter Nat.add]. rewrite PM, map_app. cbn [map]. rewrite last_last. auto. }
  assert (ND : forall j, j < length D -> snd (nth j D (0, 0)) = cnt1 t (sym t M j)).
  { intros j J. unfold D, keys. rewrite (nth_indep _ (0, 0) ((fun k => (k, cnt1 t k)) 0)) by (fold (keys (pres t) (cnt1 t) 0 M); fold D; auto).
    rewrite (map_nth (fun k => (k, cnt1 t k))). cbn [snd]. auto. }
  rewrite FL. replace (list_max t + 1) with M by (unfold M; lia). rewrite LD.
  assert (MK : ia_mark D (repeat false M) = Some (farr M (pres t))).
  { rewrite farr_repeat, ia_mark_ok. 2: { intros k v I. unfold D, keys in I. apply in_map_iff in I. destruct I as (y & E & I). apply filter_In in I. destruct I as [I _]. apply in_seq in I. injection E as -> _. lia. }
    f_equal. apply farr_ext. intros j J. cbn [orb]. destruct (pres t j) eqn:P.
    - apply existsb_exists. exists (j, cnt1 t j). split; [|apply Nat.eqb_refl]. unfold D, keys. apply in_map_iff. exists j. split; auto. apply filter_In. split; auto. apply in_seq. lia.
    - apply not_true_is_false. intros E. apply existsb_exists in E. destruct E as ([k v] & I & E). cbn in E. apply Nat.eqb_eq in E. subst k. unfold D, keys in I. apply in_map_iff in I. destruct I as (y & E & I). apply filter_In in I. destruct I as [_ I]. injection E as -> _. congruence. }
  assert (PS : forall k, k <= rank_of (pres t) M -> psum (fun i => snd (nth i D (0, 0))) k = psum (fun j => cnt1 t (sym t M j)) k).
  { intros k K. apply psum_ext. intros j J. apply ND. lia. }
  assert (FI : ia_fill (Nat.log2 (length t) + 1) D (repeat 0 (rank_of (pres t) M + 1)) 0 0 =
    Some (farr (rank_of (pres t) M + 1) (fun j => if j <? rank_of (pres t) M then psum (fun j => cnt1 t (sym t M j)) j else 0), length t, rank_of (pres t) M)).
  { rewrite farr_repeat, ia_fill_ok; [|lia|].
    - rewrite LD. cbn [Nat.add]. rewrite (PS (rank_of (pres t) M)) by lia. rewrite cum_all by auto. f_equal. f_equal. f_equal. apply farr_ext. intros j J. cbn [Nat.leb andb]. rewrite Nat.sub_0_r.
      destruct (Nat.ltb_spec j (rank_of (pres t) M)); auto. apply PS. lia.
    - intros k K. cbn [Nat.add]. rewrite PS by lia. apply fits_len; auto. apply cum_le; auto. lia. }
  rewrite MK, FI.
  assert (CC : wset (Nat.log2 (length t) + 1) (farr (rank_of (pres t) M + 1) (fun j => if j <? rank_of (pres t) M then psum (fun j => cnt1 t (sym t M j)) j else 0)) (rank_of (pres t) M) (length t)
     = Some (farr (rank_of (pres t) M + 1) (fun j => psum (fun j => cnt1 t (sym t M j)) j))).
  { rewrite wset_some; [|apply fits_len; auto|lia]. f_equal. apply farr_ext. intros j J. destruct (Nat.eqb_spec j (rank_of (pres t) M)) as [-> | E]. { symmetry. apply cum_all. auto. }
    replace (j <? rank_of (pres t) M) with true by (symmetry; apply Nat.ltb_lt; lia). auto. }
  destruct (Nat.eqb_spec M (rank_of (pres t) M)) as [E|E]; cbn [obind]; rewrite CC; cbn [obind].
  - change (0 <? length (@nil bool)) with false. eexists. split; [reflexivity|].
    assert (AP : forall c, c < M -> pres t c = true).
    { intros c L. destruct (pres t c) eqn:P; auto. pose proof (rank_of_step (pres t) (S c) M L). rewrite rank_of_S, P in H. cbn in H. pose proof (rank_of_le (pres t) c). lia. }
    assert (RC : forall c, c <= M -> rank_of (pres t) c = c) by (intros c L; apply rank_of_all_true; intros; apply AP; lia).
    intros M'. constructor; cbn [al_sigma al_c2c al_c2ch al_C].
    + symmetry. apply dist_rank. auto.
    + intros c I. pose proof (B c I). replace (rank_of (pres t) M <=? c) with false by (symmetry; apply Nat.leb_gt; lia). rewrite dless_rank, RC by lia. auto.
    + intros c L I. rewrite <- E. replace (M <=? c) with true; auto. symmetry. apply Nat.leb_le. destruct (Nat.le_gt_cases M c) as [|G]; auto. apply AP, pres_in in G. contradiction.
    + intros c I. rewrite dless_rank, RC; auto. pose proof (B c I). lia.
    + intros c I. apply C_ok; auto.
    + apply C1_ok; auto.
  - replace (0 <? length (farr M (pres t))) with true by (rewrite farr_length; unfold M; auto). eexists. split; [reflexivity|].
    intros M'. constructor; cbn [al_sigma al_c2c al_c2ch al_C].
    + symmetry. apply dist_rank. auto.
    + intros. apply marker_c2c; auto.
    + intros. apply marker_abs; auto.
    + intros. apply marker_c2ch; auto.
    + intros c I. apply C_ok; auto.
    + apply C1_ok; auto.
Qed.
