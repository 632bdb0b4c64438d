(** * Alphabet strategies: counting, compaction, cumulative counts *)
From Coq Require Import List Arith Bool Lia Permutation.
From Verif Require Import Base SpecBits RankSelect AbsVec FnArr WtBase SpecCsa Alphabet.
Import ListNotations.

(** ** Counting lemmas *)
Definition cnt1 (t : list nat) (c : nat) : nat := length (filter (Nat.eqb c) t).
Definition pres (t : list nat) (c : nat) : bool := 0 <? cnt1 t c.

Lemma cnt1_cons : forall x t c, cnt1 (x :: t) c = b2nat (c =? x) + cnt1 t c.
Proof. intros. unfold cnt1. cbn [filter]. destruct (c =? x); auto. Qed.
Lemma pres_in : forall t c, pres t c = true <-> In c t.
Proof.
  intros. unfold pres. rewrite Nat.ltb_lt. induction t as [|x t IH]; [cbn; lia|]. rewrite cnt1_cons. cbn [In].
  destruct (Nat.eqb_spec c x); cbn [b2nat]; [|cbn [Nat.add]]. { split; intros; [auto|lia]. } rewrite IH. split; [auto|]. intros [E | I]; [congruence|auto].
Qed.
Lemma pres_nodup : forall t c, pres t c = pres (nodup Nat.eq_dec t) c.
Proof. intros. destruct (pres t c) eqn:E; symmetry. { apply pres_in in E. apply pres_in. apply nodup_In. auto. } destruct (pres (nodup _ t) c) eqn:F; auto. apply pres_in, nodup_In, pres_in in F. congruence. Qed.

Lemma filter_length_perm : forall (f : nat -> bool) a b, Permutation a b -> length (filter f a) = length (filter f b).
Proof. induction 1; cbn [filter]; auto; [destruct (f x); cbn; auto | destruct (f x), (f y); auto | congruence]. Qed.

Lemma less_psum : forall t c, less t c = psum (cnt1 t) c.
Proof.
  intros t. induction c. { unfold less. cbn. induction t; auto. }
  cbn [psum]. rewrite <- IHc. unfold less, cnt1. clear IHc. induction t as [|x t IH]; auto. cbn [filter].
  destruct (Nat.ltb_spec x (S c)), (Nat.ltb_spec x c), (Nat.eqb_spec c x); cbn [length]; lia.
Qed.
Lemma less_le : forall t c, less t c <= length t.
Proof. intros. unfold less. induction t; cbn; auto. destruct (a <? c); cbn; lia. Qed.
Lemma less_all : forall t c, (forall x, In x t -> x < c) -> less t c = length t.
Proof. intros. unfold less. induction t; cbn; auto. rewrite (proj2 (Nat.ltb_lt a c)) by (apply H; left; auto). cbn. rewrite IHt; auto. intros. apply H. right. auto. Qed.
Lemma less_mono : forall t a b, a <= b -> less t a <= less t b.
Proof. intros. rewrite !less_psum. apply psum_mono. auto. Qed.

(** distinct symbols below [c] = rank of the presence predicate *)
Lemma dless_rank : forall t c, dless t c = rank_of (pres t) c.
Proof.
  intros. unfold dless, rank_of, positions. apply Permutation_length. apply NoDup_Permutation.
  - apply NoDup_filter, NoDup_nodup.
  - apply NoDup_filter, seq_NoDup.
  - intros x. rewrite !filter_In, nodup_In, in_seq, Nat.ltb_lt, pres_in. intuition lia.
Qed.
Lemma dist_rank : forall t M, (forall x, In x t -> x < M) -> dist t = rank_of (pres t) M.
Proof.
  intros. unfold dist, rank_of, positions. apply Permutation_length. apply NoDup_Permutation.
  - apply NoDup_nodup.
  - apply NoDup_filter, seq_NoDup.
  - intros x. rewrite filter_In, nodup_In, in_seq, pres_in. split; intros I; [|apply I]. split; auto. specialize (H x I). lia.
Qed.

(** ** What an alphabet has to provide; [M] bounds the symbols that may be looked up *)
Record alph_ok (M : nat) (t : list nat) (A : alph) : Prop := mk_aok {
  ao_sigma : al_sigma A = dist t;
  ao_c2c : forall c, In c t -> al_c2c A c = Some (dless t c);
  ao_abs : forall c, c < M -> ~ In c t -> al_c2c A c = Some 0;
  ao_c2ch : forall c, In c t -> al_c2ch A (dless t c) = Some c;
  ao_C : forall c, In c t -> nth_error (al_C A) (dless t c) = Some (less t c);
  ao_C1 : nth_error (al_C A) (dist t) = Some (length t) }.

(** the k-th distinct symbol *)
Definition sym (t : list nat) (M k : nat) : nat := nth k (positions (pres t) M) 0.
Lemma sym_sel : forall t M k, k < rank_of (pres t) M -> sym t M k < M /\ pres t (sym t M k) = true /\ rank_of (pres t) (sym t M k) = k.
Proof.
  intros. unfold sym. pose proof (nth_positions (pres t) M k 0 H) as P. destruct P as [[P1 P2] P3]. repeat split; auto; lia.
Qed.
Lemma sym_rank : forall t M c, In c t -> c < M -> sym t M (rank_of (pres t) c) = c.
Proof.
  intros. unfold sym. pose proof (select_positions (pres t) M (rank_of (pres t) c + 1) c 0) as S. replace (rank_of (pres t) c + 1 - 1) with (rank_of (pres t) c) in S by lia.
  apply S; auto. apply select_rank. apply pres_in. auto.
Qed.
Lemma rank_lt_sigma : forall t M c, In c t -> c < M -> rank_of (pres t) c < rank_of (pres t) M.
Proof. intros. pose proof (rank_of_mono (pres t) (S c) M ltac:(lia)). rewrite rank_of_S in H1. apply pres_in in H. rewrite H in H1. cbn in H1. lia. Qed.

(** summing over the symbols that occur *)
Lemma psum_rank : forall f h n, (forall c, f c = false -> h c = 0) -> psum h n = psum (fun j => h (nth j (positions f n) 0)) (rank_of f n).
Proof.
  intros f h n Z. induction n; auto. cbn [psum]. rewrite positions_S, rank_of_S. destruct (f n) eqn:E; cbn [b2nat].
  - rewrite Nat.add_1_r. cbn [psum]. unfold rank_of at 2. rewrite nth_middle. f_equal. rewrite IHn. apply psum_ext. intros j J. rewrite app_nth1 by apply J. auto.
  - rewrite Nat.add_0_r, app_nil_r, (Z n E). lia.
Qed.
Lemma positions_prefix : forall f a b j, a <= b -> j < rank_of f a -> nth j (positions f a) 0 = nth j (positions f b) 0.
Proof. intros. replace b with (a + (b - a)) by lia. rewrite positions_add, app_nth1; auto. Qed.

(** cumulative counts over the distinct symbols *)
Lemma cum_less : forall t M k, k < rank_of (pres t) M -> psum (fun j => cnt1 t (sym t M j)) k = less t (sym t M k).
Proof.
  intros. destruct (sym_sel t M k H) as (A & B & C). rewrite less_psum, (psum_rank (pres t) (cnt1 t)).
  - rewrite C. apply psum_ext. intros j J. unfold sym at 1. rewrite (positions_prefix _ (sym t M k) M) by lia. auto.
  - intros c. unfold pres. rewrite Nat.ltb_ge. lia.
Qed.
Lemma cum_all : forall t M, (forall x, In x t -> x < M) -> psum (fun j => cnt1 t (sym t M j)) (rank_of (pres t) M) = length t.
Proof.
  intros. rewrite <- (less_all t M H), less_psum, (psum_rank (pres t) (cnt1 t)) at 1; auto. intros c. unfold pres. rewrite Nat.ltb_ge. lia.
Qed.
Lemma cum_le : forall t M k, (forall x, In x t -> x < M) -> k <= rank_of (pres t) M -> psum (fun j => cnt1 t (sym t M j)) k <= length t.
Proof. intros. rewrite <- (cum_all t M) by auto. apply psum_mono. auto. Qed.

(** ** byte_alphabet *)
Lemma count_ok : forall t g N, (forall x, In x t -> x < N) -> count_syms (farr N g) t = Some (farr N (fun c => g c + cnt1 t c)).
Proof.
  induction t as [|x t IH]; intros g N B.
  - cbn [count_syms]. f_equal. apply farr_ext. intros. cbn. lia.
  - cbn [count_syms]. assert (x < N) by (apply B; left; auto). rewrite farr_nth_error by auto. cbn [obind]. rewrite farr_aset by auto. cbn [obind].
    rewrite IH by (intros; apply B; right; auto). f_equal. apply farr_ext. intros j J. rewrite cnt1_cons. destruct (Nat.eqb_spec j x); cbn [b2nat]; subst; lia.
Qed.

Lemma compact_ok : forall t k i g h, i + k = 256 ->
  (forall j, i <= j -> j < 257 -> g j = cnt1 t j) ->
  (forall j, j < rank_of (pres t) i -> g j = cnt1 t (nth j (positions (pres t) i) 0)) ->
  (forall j, j < rank_of (pres t) i -> h j = nth j (positions (pres t) i) 0) ->
  exists g' h', ba_compact k i (farr 257 g) (farr 256 (fun c => if (c <? i) && pres t c then rank_of (pres t) c else 0)) (farr 256 h) (rank_of (pres t) i)
     = Some (farr 257 g', farr 256 (fun c => if pres t c then rank_of (pres t) c else 0), farr 256 h', rank_of (pres t) 256) /\
  (forall j, j < rank_of (pres t) 256 -> g' j = cnt1 t (sym t 256 j)) /\
  (forall j, j < rank_of (pres t) 256 -> h' j = sym t 256 j).
Proof.
  intros t. induction k as [|k IH]; intros i g h E G1 G2 H.
  - assert (i = 256) by lia. clear E. subst i. cbn [ba_compact]. exists g, h. split; [|split; auto].
    rewrite (farr_ext nat 256 _ (fun c => if pres t c then rank_of (pres t) c else 0)); [reflexivity|]. intros j J.
    replace (j <? 256) with true by (symmetry; apply Nat.ltb_lt; auto). auto.
  - assert (L : i < 256) by (clear - E; lia). assert (L' : i < 257) by (clear - L; lia). assert (E' : S i + k = 256) by (clear - E; lia). clear E.
    assert (R : rank_of (pres t) i <= i) by apply rank_of_le.
    cbn [ba_compact]. rewrite farr_nth_error by auto. cbn [obind]. rewrite G1 by auto.
    destruct (Nat.eqb_spec (cnt1 t i) 0) as [Z|Z].
    + assert (P : pres t i = false) by (unfold pres; rewrite Z; auto).
      assert (RS : rank_of (pres t) (S i) = rank_of (pres t) i) by (rewrite rank_of_S, P; cbn; apply Nat.add_0_r).
      assert (PS : positions (pres t) (S i) = positions (pres t) i) by (rewrite positions_S, P; apply app_nil_r).
      destruct (IH (S i) g h E') as (g' & h' & X & Y); rewrite ?RS, ?PS; auto. { intros j J1 J2. apply G1; auto. clear - J1. lia. }
      exists g', h'. split; auto. rewrite <- X. rewrite RS. f_equal. apply farr_ext. intros j J.
      destruct (Nat.eqb_spec j i) as [-> | N]. { rewrite P, !andb_false_r. auto. } replace (j <? S i) with (j <? i) by (clear - N; destruct (Nat.ltb_spec j i), (Nat.ltb_spec j (S i)); auto; lia). auto.
    + assert (P : pres t i = true) by (unfold pres; apply Nat.ltb_lt; clear - Z; lia).
      assert (RS : rank_of (pres t) (S i) = S (rank_of (pres t) i)) by (rewrite rank_of_S, P; cbn; apply Nat.add_1_r).
      assert (PS : positions (pres t) (S i) = positions (pres t) i ++ [i]) by (rewrite positions_S, P; auto).
      assert (PL : length (positions (pres t) i) = rank_of (pres t) i) by auto.
      rewrite farr_aset by auto. cbn [obind]. rewrite farr_aset by (clear - R L; lia). cbn [obind]. rewrite farr_aset by (clear - R L'; lia). cbn [obind].
      destruct (IH (S i) (fun j => if j =? rank_of (pres t) i then cnt1 t i else g j) (fun j => if j =? rank_of (pres t) i then i else h j) E') as (g' & h' & X & Y).
      * intros j J1 J2. replace (j =? rank_of (pres t) i) with false by (symmetry; apply Nat.eqb_neq; clear - J1 R; lia). apply G1; auto. clear - J1. lia.
      * intros j J. rewrite RS in J. rewrite PS. destruct (Nat.eqb_spec j (rank_of (pres t) i)) as [-> | N].
        { rewrite <- PL, nth_middle. auto. } rewrite app_nth1 by (rewrite PL; clear - J N; lia). apply G2. clear - J N. lia.
      * intros j J. rewrite RS in J. rewrite PS. destruct (Nat.eqb_spec j (rank_of (pres t) i)) as [-> | N].
        { rewrite <- PL, nth_middle. auto. } rewrite app_nth1 by (rewrite PL; clear - J N; lia). apply H. clear - J N. lia.
      * exists g', h'. split; auto. rewrite <- X. rewrite RS. f_equal. apply farr_ext. intros j J.
        destruct (Nat.eqb_spec j i) as [-> | N]. { rewrite P. replace (i <? S i) with true by (symmetry; apply Nat.ltb_lt; lia). auto. }
        replace (j <? S i) with (j <? i) by (clear - N; destruct (Nat.ltb_spec j i), (Nat.ltb_spec j (S i)); auto; lia). auto.
Qed.

Lemma firstn_farr : forall A n m (f : nat -> A), m <= n -> firstn m (farr n f) = farr m f.
Proof. intros. unfold farr. rewrite firstn_map. f_equal. replace n with (m + (n - m)) by lia. rewrite seq_app, firstn_app, seq_length, Nat.sub_diag, firstn_all2 by (rewrite seq_length; lia). apply app_nil_r. Qed.

Lemma shift_ok : forall i n g, i < n -> shift_up i (farr n g) = Some (farr n (fun j => if (1 <=? j) && (j <=? i) then g (j - 1) else g j)).
Proof.
  induction i as [|i IH]; intros n g L.
  - cbn [shift_up]. f_equal. apply farr_ext. intros j J. destruct j; auto.
  - cbn [shift_up]. rewrite farr_nth_error by lia. cbn [obind]. rewrite farr_aset by lia. cbn [obind]. rewrite IH by lia. f_equal. apply farr_ext. intros j J.
    destruct (Nat.leb_spec 1 j); cbn [andb]; [|replace (j =? S i) with false by (symmetry; apply Nat.eqb_neq; lia); auto].
    destruct (Nat.leb_spec j i).
    + replace (j - 1 =? S i) with false by (symmetry; apply Nat.eqb_neq; lia). replace (j <=? S i) with true by (symmetry; apply Nat.leb_le; lia). auto.
    + destruct (Nat.eqb_spec j (S i)) as [-> | N]. { rewrite Nat.leb_refl. f_equal. lia. } replace (j <=? S i) with false by (symmetry; apply Nat.leb_gt; lia). auto.
Qed.

Lemma sums_ok : forall (g : nat -> nat) n k i, 1 <= i -> i + k = n ->
  prefix_sums k i (farr n (fun j => if j <? i then psum g j else g (j - 1))) = Some (farr n (fun j => psum g j)).
Proof.
  intros g n. induction k as [|k IH]; intros i I E; cbn [prefix_sums].
  - f_equal. apply farr_ext. intros j J. replace (j <? i) with true by (symmetry; apply Nat.ltb_lt; lia). auto.
  - rewrite farr_nth_error by lia. cbn [obind]. rewrite farr_nth_error by lia. cbn [obind]. rewrite Nat.ltb_irrefl. replace (i - 1 <? i) with true by (symmetry; apply Nat.ltb_lt; lia).
    rewrite farr_aset by lia. cbn [obind]. rewrite <- (IH (S i)) by lia. f_equal. apply farr_ext. intros j J.
    destruct (Nat.eqb_spec j i) as [-> | N].
    + replace (i <? S i) with true by (symmetry; apply Nat.ltb_lt; lia). replace i with (S (i - 1)) at 3 by lia. cbn [psum]. lia.
    + replace (j <? S i) with (j <? i); auto. destruct (Nat.ltb_spec j i), (Nat.ltb_spec j (S i)); auto; lia.
Qed.

Lemma dist_256 : forall t, (forall x, In x t -> x < 256) -> rank_of (pres t) 256 = dist t.
Proof. intros. symmetry. apply dist_rank. auto. Qed.

Lemma C_ok : forall t M c, (forall x, In x t -> x < M) -> In c t ->
  nth_error (farr (rank_of (pres t) M + 1) (fun j => psum (fun j => cnt1 t (sym t M j)) j)) (dless t c) = Some (less t c).
Proof.
  intros t M c B I. rewrite dless_rank. pose proof (rank_lt_sigma t M c I (B _ I)). rewrite farr_nth_error by lia. f_equal. rewrite cum_less by auto. rewrite sym_rank by auto. auto.
Qed.
Lemma C1_ok : forall t M, (forall x, In x t -> x < M) ->
  nth_error (farr (rank_of (pres t) M + 1) (fun j => psum (fun j => cnt1 t (sym t M j)) j)) (dist t) = Some (length t).
Proof. intros. rewrite (dist_rank t M) by auto. rewrite farr_nth_error by lia. f_equal. apply cum_all. auto. Qed.

Theorem ba_ok : forall t, t <> [] -> (forall x, In x t -> x < 256) -> exists A, ba_make t = Some A /\ alph_ok 256 t A.
Proof.
  intros t N B. unfold ba_make. destruct t as [|x0 t0] eqn:ET; [congruence|]. rewrite <- ET in *. clear ET x0 t0.
  replace (length t =? 0) with false by (symmetry; apply Nat.eqb_neq; destruct t; [congruence|cbn; discriminate]).
  rewrite (farr_repeat nat 257 0), count_ok by (intros x X; specialize (B x X); clear - B; lia). cbn [obind].
  rewrite !(farr_repeat nat 256 0).
  destruct (compact_ok t 256 0 (fun c => 0 + cnt1 t c) (fun _ => 0)) as (g & h & X & G & H); auto. { intros j J. exfalso. rewrite rank_of_0 in J. clear - J. lia. } { intros j J. exfalso. rewrite rank_of_0 in J. clear - J. lia. }
  rewrite rank_of_0 in X.
  replace (farr 256 (fun c => if (c <? 0) && pres t c then rank_of (pres t) c else 0)) with (farr 256 (fun _ => 0)) in X by (apply farr_ext; intros; auto).
  rewrite X. cbn [obind]. pose proof (dist_256 t B) as DD. set (sg := rank_of (pres t) 256) in *.
  assert (SL : sg <= 256) by apply rank_of_le.
  rewrite (firstn_farr nat 257) by (clear - SL; lia). rewrite shift_ok by lia. cbn [obind]. rewrite farr_aset by lia. cbn [obind].
  rewrite (farr_ext nat _ _ (fun j => if j <? 1 then psum (fun j => cnt1 t (sym t 256 j)) j else cnt1 t (sym t 256 (j - 1)))).
  2: { intros j J. destruct j. { auto. } cbn [Nat.eqb]. replace (1 <=? S j) with true by auto. replace (S j <=? sg) with true by (symmetry; apply Nat.leb_le; lia). cbn [andb]. rewrite G by lia. auto. }
  rewrite sums_ok by lia. cbn [obind]. eexists. split; [reflexivity|]. constructor; cbn [al_sigma al_c2c al_c2ch al_C].
  - auto.
  - intros c I. rewrite farr_nth_error by auto. rewrite (proj2 (pres_in t c) I), dless_rank. auto.
  - intros c L I. rewrite farr_nth_error by auto. destruct (pres t c) eqn:P; auto. apply pres_in in P. contradiction.
  - intros c I. rewrite (firstn_farr nat 256) by auto. rewrite dless_rank. pose proof (rank_lt_sigma t 256 c I (B _ I)). rewrite farr_nth_error by auto. rewrite H by auto. f_equal. apply sym_rank; auto.
  - intros c I. apply C_ok; auto.
  - apply C1_ok; auto.
Qed.
