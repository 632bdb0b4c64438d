(** * Proofs about bidirectional search *)
From Coq Require Import List Arith Bool Lia Permutation.
From Verif Require Import Base SpecBits RankSelect AbsVec FnArr WtBase WtProofs SpecCsa Alphabet AlphabetProofs AlphabetProofs2 Csa CsaSample SpecBidir CsaProofs CsaProofs2 CsaProofs3 CsaProofs4 CsaProofs5 CsaProofs6 Bidir.
Import ListNotations.

Lemma rank_window : forall (f g : nat -> bool) n l r, l <= r <= n -> (forall j, j < n -> g j = true <-> l <= j < r) ->
  rank_of (fun j => g j && f j) n = rank_of (fun k => f (l + k)) (r - l).
Proof.
  intros f g n l r L H. replace n with (l + (r - l) + (n - r)) by lia.
  assert (G : forall k, k <= n - r -> rank_of (fun j => g j && f j) (l + (r - l) + k) = rank_of (fun j => g j && f j) (l + (r - l))).
  { induction k; intros K; [f_equal; lia|]. rewrite Nat.add_succ_r, rank_of_S, IHk by lia.
    replace (g (l + (r - l) + k)) with false. { cbn [andb b2nat]. lia. } symmetry. apply not_true_is_false. rewrite H by lia. lia. }
  rewrite G by lia.
  assert (I : forall k, k <= r - l -> rank_of (fun j => g j && f j) (l + k) = rank_of (fun k => f (l + k)) k).
  { induction k; intros K.
    - rewrite Nat.add_0_r, rank_of_0. apply rank_none. intros j J. replace (g j) with false; auto. symmetry. apply not_true_is_false. rewrite H by lia. lia.
    - rewrite Nat.add_succ_r, !rank_of_S, IHk by lia. replace (g (l + k)) with true; auto. symmetry. apply H; lia. }
  apply I. lia.
Qed.
Lemma rank_split_off : forall (f : nat -> bool) m n, m <= n -> (forall j, m <= j < n -> f j = false) -> rank_of f n = rank_of f m.
Proof.
  intros f m n L H. replace n with (m + (n - m)) by lia. assert (n - m <= n - m) by lia. revert H0. generalize (n - m) at 1 3. intro k. induction k; intros K.
  - f_equal. lia.
  - rewrite Nat.add_succ_r, rank_of_S, IHk by lia. rewrite H by lia. cbn [b2nat]. lia.
Qed.
Lemma rank_rev : forall (f : nat -> bool) m, rank_of (fun q => f (m - 1 - q)) m = rank_of f m.
Proof.
  intros. apply (rank_perm f (fun q => m - 1 - q) m). apply NoDup_Permutation.
  - apply nodup_map; [apply seq_NoDup|]. intros x y X Y E. apply in_seq in X, Y. lia.
  - apply seq_NoDup.
  - intros x. rewrite in_map_iff. split.
    + intros (y & E & I). apply in_seq in I. apply in_seq. lia.
    + intros I. apply in_seq in I. exists (m - 1 - x). split; [lia|]. apply in_seq. lia.
Qed.
Lemma lex_next : forall w x a y b, lex_lt (w ++ x :: a) (w ++ y :: b) -> x <= y.
Proof. induction w; cbn [app lex_lt]; intros x s y b H; [lia|]. destruct H as [H|[_ H]]; [lia|eauto]. Qed.
Lemma occurs_split : forall (T w : list nat) p, occurs_at T w p -> skipn p T = w ++ skipn (p + length w) T.
Proof.
  intros T w p O. unfold occurs_at in O. rewrite <- (firstn_skipn (length w) (skipn p T)) at 1. rewrite O. f_equal.
  clear O. revert T. induction p; intros T; auto. destruct T; cbn [skipn Nat.add]; [rewrite !skipn_nil; auto|auto].
Qed.
Lemma occurs_iff : forall (T w : list nat) p, occurs_at T w p <-> (p + length w <= length T \/ w = []) /\ forall k, k < length w -> nth (p + k) T 0 = nth k w 0.
Proof.
  intros T w p. unfold occurs_at. split.
  - intros E. split.
    + apply (f_equal (@length nat)) in E. rewrite firstn_length, skipn_length in E. destruct w; auto. cbn [length] in *. left. lia.
    + intros k K. rewrite <- E. rewrite <- (firstn_skipn p T) at 1.
      destruct (Nat.le_gt_cases (length T) p).
      { apply (f_equal (@length nat)) in E. rewrite firstn_length, skipn_length in E. lia. }
      rewrite app_nth2, firstn_length, Nat.min_l by (rewrite ?firstn_length; lia). replace (p + k - p) with k by lia.
      rewrite <- (firstn_skipn (length w) (skipn p T)) at 1. rewrite app_nth1; auto. rewrite E. auto.
  - intros [[L|E] H]; [|subst; auto]. apply nth_ext with (d := 0) (d' := 0). { rewrite firstn_length, skipn_length. lia. }
    intros k K. rewrite firstn_length, skipn_length in K. rewrite <- H by lia. rewrite <- (firstn_skipn p T) at 2. rewrite app_nth2, firstn_length, Nat.min_l by (rewrite ?firstn_length; lia).
    replace (p + k - p) with k by lia. rewrite <- (firstn_skipn (length w) (skipn p T)) at 2. rewrite app_nth1; auto. rewrite firstn_length, skipn_length. lia.
Qed.

(** the backward text *)
Lemma rtext_ok : forall T, text_ok T -> text_ok (rtext T) /\ length (rtext T) = length T /\ rtext (rtext T) = T.
Proof.
  intros T (U & -> & N). unfold rtext. rewrite !removelast_last. split; [|split].
  - exists (rev U). split; auto. rewrite <- in_rev. auto.
  - rewrite !app_length, rev_length. auto.
  - rewrite rev_involutive. auto.
Qed.
Lemma rtext_in : forall T c, text_ok T -> (In c (rtext T) <-> In c T).
Proof. intros T c (U & -> & N). unfold rtext. rewrite removelast_last, !in_app_iff, <- in_rev. tauto. Qed.
Lemma rtext_nth : forall T p, text_ok T -> p < length T -> nth (length T - 1 - p) (rtext T) 0 = nth (pv T p) T 0.
Proof.
  intros T p (U & -> & N) L. unfold rtext, pv, n. rewrite removelast_last, app_length in *. cbn [length] in *. destruct (Nat.eqb_spec p 0) as [->|P].
  - rewrite app_nth2 by (rewrite rev_length; lia). rewrite rev_length. rewrite app_nth2 by lia. f_equal. lia.
  - rewrite app_nth1 by (rewrite rev_length; lia). rewrite rev_nth by lia. rewrite app_nth1 by lia. f_equal. lia.
Qed.

Section Step.
Variables T sa sa' : list nat.
Hypothesis TOK : text_ok T.
Hypothesis SA : is_sa T sa.
Notation R := (rtext T).
Hypothesis SA' : is_sa R sa'.
Let N := length T.
Let ROK : text_ok R := proj1 (rtext_ok T TOK).
Let RL : length R = N := proj1 (proj2 (rtext_ok T TOK)).

Lemma occ_bound : forall w p, ~ In 0 w -> p < N -> occurs_at T w p -> p + length w < N.
Proof.
  intros w p NZ P O. apply occurs_iff in O. destruct O as [[L| -> ] H]; [|cbn [length]; lia].
  destruct (Nat.eq_dec (p + length w) N); [|unfold N in *; lia]. exfalso. destruct (length w) eqn:E; [lia|]. specialize (H n ltac:(lia)).
  replace (p + n) with (N - 1) in H by lia. pose proof (tx_last T TOK) as TL. unfold tx, CsaProofs.n in TL. fold N in TL. rewrite TL in H. apply NZ. rewrite H. apply nth_In. lia.
Qed.
(** an occurrence of [w] and the occurrence of its reverse *)
Lemma occ_mirror : forall w p, ~ In 0 w -> p + length w < N -> (occurs_at T w p <-> occurs_at R (rev w) (N - 1 - p - length w)).
Proof.
  intros w p NZ L. rewrite !occurs_iff, rev_length, RL. fold N.
  assert (PV : forall q, 0 < q -> q < N -> nth (N - 1 - q) R 0 = nth (q - 1) T 0).
  { intros q Q1 Q2. unfold N. rewrite rtext_nth by auto. unfold pv. replace (q =? 0) with false by (symmetry; apply Nat.eqb_neq; lia). auto. }
  split; intros [_ H]; (split; [left; lia|]); intros k K.
  - rewrite rev_nth by auto. rewrite <- H by lia. replace (N - 1 - p - length w + k) with (N - 1 - (p + length w - k)) by lia. rewrite PV by lia. f_equal. lia.
  - specialize (H (length w - 1 - k) ltac:(lia)). rewrite rev_nth in H by lia. replace (length w - S (length w - 1 - k)) with k in H by lia. rewrite <- H.
    replace (N - 1 - p - length w + (length w - 1 - k)) with (N - 1 - (p + k + 1)) by lia. rewrite PV by lia. f_equal. lia.
Qed.
(** symbols in front of the occurrences of [w] = symbols behind the occurrences of its reverse *)
Lemma mirror_count : forall (f : nat -> bool) w l r l' r', ~ In 0 w -> sa_interval T sa w l r -> sa_interval R sa' (rev w) l' r' -> length w < N ->
  rank_of (fun k => f (bw T sa (l + k))) (r - l) = rank_of (fun k => f (nth (nth (l' + k) sa' 0 + length w) R 0)) (r' - l').
Proof.
  intros f w l r l' r' NZ [I1 I2] [J1 J2] LW. rewrite RL in J1, J2.
  rewrite <- (rank_window (fun j => f (bw T sa j)) (fun j => occurs_dec T w (row sa j)) N l r I1).
  2:{ intros j Hj. rewrite occurs_dec_iff. symmetry. apply I2. auto. }
  rewrite <- (rank_window (fun j => f (nth (nth j sa' 0 + length w) R 0)) (fun j => occurs_dec R (rev w) (row sa' j)) N l' r' J1).
  2:{ intros j Hj. rewrite occurs_dec_iff. symmetry. apply J2. auto. }
  rewrite (rank_of_ext (fun j => occurs_dec T w (row sa j) && f (bw T sa j)) (fun j => (fun p => occurs_dec T w p && f (tx T (pv T p))) (row sa j))) by reflexivity.
  rewrite (rank_perm (fun p => occurs_dec T w p && f (tx T (pv T p))) (row sa) N) by (apply (row_perm T sa SA)).
  pose proof (row_perm R sa' SA') as RP. unfold CsaProofs.n in RP. rewrite RL in RP.
  rewrite (rank_of_ext (fun j => occurs_dec R (rev w) (row sa' j) && f (nth (nth j sa' 0 + length w) R 0)) (fun j => (fun q => occurs_dec R (rev w) q && f (nth (q + length w) R 0)) (row sa' j))) by reflexivity.
  rewrite (rank_perm (fun q => occurs_dec R (rev w) q && f (nth (q + length w) R 0)) (row sa') N) by exact RP.
  set (m := N - length w).
  rewrite (rank_split_off (fun p => occurs_dec T w p && f (tx T (pv T p))) m N) by
    (try (unfold m; lia); intros j Hj; apply andb_false_iff; left; apply not_true_is_false; rewrite occurs_dec_iff; intro O; apply occ_bound in O; auto; unfold m in Hj; lia).
  rewrite (rank_split_off (fun q => occurs_dec R (rev w) q && f (nth (q + length w) R 0)) m N).
  2: unfold m; lia.
  2:{ intros j Hj. destruct w as [|a w']. { cbn [length] in *. unfold m in Hj. lia. }
      apply andb_false_iff. left. apply not_true_is_false. rewrite occurs_dec_iff, occurs_iff, rev_length, RL. intros [[O|O] O2].
      - assert (NZ' : ~ In 0 (rev (a :: w'))) by (rewrite <- in_rev; auto). specialize (O2 (length (a :: w') - 1)). cbn [length] in *.
        unfold m in Hj. replace (j + (S (length w') - 1)) with (N - 1) in O2 by lia. pose proof (tx_last R ROK) as TL. unfold tx, CsaProofs.n in TL. rewrite RL in TL. rewrite TL in O2 by lia.
        apply NZ'. rewrite O2 by lia. apply nth_In. rewrite rev_length. cbn [length]. lia.
      - apply (f_equal (@length nat)) in O. rewrite rev_length in O. discriminate. }
  rewrite <- rank_rev. apply rank_of_ext. intros q Hq. unfold m in *.
  assert (E : occurs_dec T w (N - length w - 1 - q) = occurs_dec R (rev w) q).
  { apply eq_true_iff_eq. rewrite !occurs_dec_iff. rewrite occ_mirror by (auto; lia). replace (N - 1 - (N - length w - 1 - q) - length w) with q by lia. tauto. }
  rewrite E. f_equal. f_equal. unfold tx. rewrite <- rtext_nth by (auto; unfold N in *; lia). fold N. f_equal. lia.
Qed.
(** the rows of one interval are sorted by the symbol behind the pattern *)
Lemma next_rows : forall w l' r' c, ~ In 0 w -> sa_interval R sa' w l' r' ->
  let nxt k := nth (nth (l' + k) sa' 0 + length w) R 0 in
  sa_interval R sa' (w ++ [c]) (l' + rank_of (fun k => nxt k <? c) (r' - l')) (l' + rank_of (fun k => nxt k <? S c) (r' - l')).
Proof.
  intros w l' r' c NZ I nxt.
  assert (NB : forall p, p < N -> occurs_at R w p -> p + length w < N).
  { intros p P O. apply occurs_iff in O. rewrite RL in O. destruct O as [[L| -> ] H]; [|cbn [length]; lia].
    destruct (Nat.eq_dec (p + length w) N); [|lia]. exfalso. destruct (length w) eqn:E; [lia|]. specialize (H n ltac:(lia)).
    replace (p + n) with (N - 1) in H by lia. pose proof (tx_last R ROK) as TL. unfold tx, CsaProofs.n in TL. rewrite RL in TL. rewrite TL in H. apply NZ. rewrite H. apply nth_In. lia. }
  destruct I as [I1 I2]. rewrite RL in I1, I2.
  assert (RW : forall j, j < N -> nth j sa' 0 < N).
  { intros j J. pose proof (row_lt R sa' SA' j). unfold row, CsaProofs.n in *. rewrite RL in *. auto. }
  assert (MONO : forall i j, i < j < r' - l' -> nxt i <= nxt j).
  { intros i j L. assert (Oi : occurs_at R w (nth (l' + i) sa' 0)) by (apply I2; lia). assert (Oj : occurs_at R w (nth (l' + j) sa' 0)) by (apply I2; lia).
    pose proof (row_sx R sa' SA' (l' + i) (l' + j)) as X. unfold CsaProofs.n in X. rewrite RL in X. specialize (X ltac:(lia)). unfold sx, row in X.
    rewrite (occurs_split _ _ _ Oi), (occurs_split _ _ _ Oj) in X.
    assert (C : forall p, p < N -> skipn p R = nth p R 0 :: skipn (S p) R) by (intros p P; apply (sx_cons R p); unfold CsaProofs.n; rewrite RL; auto).
    rewrite (C (nth (l' + i) sa' 0 + length w)) in X by (apply NB; auto; apply RW; lia). rewrite (C (nth (l' + j) sa' 0 + length w)) in X by (apply NB; auto; apply RW; lia).
    apply lex_next in X. auto. }
  assert (D : forall d k, k < r' - l' -> (nxt k < d <-> k < rank_of (fun k => nxt k <? d) (r' - l'))).
  { intros d k K. rewrite <- (down_rank (fun k => nxt k <? d) (r' - l')); auto. { rewrite Nat.ltb_lt. tauto. }
    intros i j L. rewrite !Nat.ltb_lt. pose proof (MONO i j L). lia. }
  assert (LE : rank_of (fun k => nxt k <? c) (r' - l') <= rank_of (fun k => nxt k <? S c) (r' - l')).
  { assert (G : forall m, rank_of (fun k => nxt k <? c) m <= rank_of (fun k => nxt k <? S c) m); [|apply G].
    induction m; [rewrite !rank_of_0; auto|]. rewrite !rank_of_S. destruct (Nat.ltb_spec (nxt m) c), (Nat.ltb_spec (nxt m) (S c)); cbn [b2nat]; lia. }
  pose proof (rank_of_le (fun k => nxt k <? S c) (r' - l')) as LE2.
  split; [rewrite RL; lia|]. intros j J. rewrite RL in J.
  assert (OA : occurs_at R (w ++ [c]) (nth j sa' 0) <-> occurs_at R w (nth j sa' 0) /\ nth (nth j sa' 0 + length w) R 0 = c).
  { rewrite !occurs_iff, app_length, RL. cbn [length]. pose proof (RW j J) as RJ. split.
    - intros [[A|A] B]; [|destruct w; discriminate]. split; [split; [left; lia|]|].
      + intros k K. rewrite B by lia. apply app_nth1. auto.
      + rewrite B by lia. rewrite app_nth2, Nat.sub_diag by lia. auto.
    - intros [A B]. assert (nth j sa' 0 + length w < N) by (apply NB; auto; apply occurs_iff; rewrite RL; auto). split; [left; lia|]. destruct A as [_ A].
      intros k K. destruct (Nat.eq_dec k (length w)) as [->|]. { rewrite B, app_nth2, Nat.sub_diag by lia. auto. } rewrite A by lia. rewrite app_nth1 by lia. auto. }
  rewrite OA, <- I2 by auto. split.
  - intros H. split; [lia|]. replace j with (l' + (j - l')) by lia. fold (nxt (j - l')).
    pose proof (D c (j - l') ltac:(lia)). pose proof (D (S c) (j - l') ltac:(lia)). lia.
  - intros [H E]. replace j with (l' + (j - l')) in E by lia. fold (nxt (j - l')) in E.
    pose proof (D c (j - l') ltac:(lia)). pose proof (D (S c) (j - l') ltac:(lia)). lia.
Qed.
End Step.

(** ** both intervals *)
Lemma interval_short : forall T sa w l r, text_ok T -> is_sa T sa -> ~ In 0 w -> sa_interval T sa w l r -> l < r -> length w < length T.
Proof.
  intros T sa w l r TOK SA NZ [A B] L. assert (O : occurs_at T w (nth l sa 0)) by (apply B; lia).
  pose proof (row_lt T sa SA l ltac:(unfold n; lia)) as RL. apply (occ_bound T TOK) in O; auto. lia.
Qed.
Lemma interval_len : forall T sa sa' w l r l' r', text_ok T -> is_sa T sa -> is_sa (rtext T) sa' -> ~ In 0 w -> bi_interval T sa sa' w l r l' r' -> r - l = r' - l'.
Proof.
  intros T sa sa' w l r l' r' TOK SA SA' NZ [A B]. destruct (rtext_ok T TOK) as (ROK & RL & RR).
  destruct (Nat.le_gt_cases (length T) (length w)) as [LW|LW].
  - assert (~ l < r) by (intro L; apply (interval_short T sa w l r TOK SA NZ A) in L; lia).
    assert (~ l' < r'). { intro L. apply (interval_short (rtext T) sa' (rev w) l' r' ROK SA') in L; auto; rewrite ?rev_length in *; try lia. rewrite <- in_rev. auto. } lia.
  - pose proof (mirror_count T sa sa' TOK SA SA' (fun _ => true) w l r l' r' NZ A B LW) as M.
    assert (G : forall m, rank_of (fun _ => true) m = m) by (induction m; [apply rank_of_0|rewrite rank_of_S, IHm; cbn; lia]). rewrite !G in M. auto.
Qed.
Lemma count_slice : forall T sa (f : nat -> bool) l r, l <= r <= n T ->
  length (filter f (firstn (r - l) (skipn l (bwt T sa)))) = rank_of (fun k => f (bw T sa (l + k))) (r - l).
Proof.
  intros T sa f l r L. assert (E : firstn (r - l) (skipn l (bwt T sa)) = map (fun k => bw T sa (l + k)) (seq 0 (r - l))).
  { unfold bwt. replace (n T) with (l + ((r - l) + (n T - r))) by lia. rewrite !seq_app, !map_app. rewrite skipn_app, skipn_all2 by (rewrite map_length, seq_length; auto).
    rewrite map_length, seq_length, Nat.sub_diag. cbn [skipn app]. rewrite firstn_app, map_length, seq_length, Nat.sub_diag. cbn [firstn]. rewrite app_nil_r, firstn_all2 by (rewrite map_length, seq_length; auto).
    cbn [Nat.add]. clear L. generalize (r - l). intro k. revert l. induction k; intros l; auto. cbn [seq map]. rewrite Nat.add_0_r. f_equal. rewrite IHk, <- seq_shift, map_map. apply map_ext. intros. f_equal. lia. }
  rewrite E. apply (rank_map f).
Qed.

Lemma rank_pos : forall (f : nat -> bool) k m, rank_of f (k + m) = rank_of f k + rank_of (fun j => f (k + j)) m.
Proof. intros. apply rank_of_add. Qed.
Lemma three : forall (g : nat -> nat) c m, rank_of (fun k => g k <? c) m + rank_of (fun k => g k =? c) m + rank_of (fun k => c <? g k) m = m.
Proof. induction m; auto. rewrite !rank_of_S. destruct (Nat.ltb_spec (g m) c), (Nat.eqb_spec (g m) c), (Nat.ltb_spec c (g m)); cbn [b2nat]; lia. Qed.
Lemma two : forall (g : nat -> nat) c m, rank_of (fun k => g k <? S c) m + rank_of (fun k => c <? g k) m = m.
Proof. induction m; auto. rewrite !rank_of_S. destruct (Nat.ltb_spec (g m) (S c)), (Nat.ltb_spec c (g m)); cbn [b2nat]; lia. Qed.

Lemma bd_make_ok : forall a T sa, text_ok T -> is_sa T sa -> (forall c, In c T -> sym_fits a c) ->
  exists al, bd_make a T sa = Some (mkbd (bwt T sa) al) /\ forall M, (a <> AINT -> M = 256) -> alph_ok M T al.
Proof.
  intros a T sa TOK SA F. unfold bd_make. rewrite (bwt_ok T sa SA). cbn [obind].
  destruct (alphabet_ok T TOK a (bwt T sa) (bwt_perm T sa SA) F) as (al & E & H). rewrite E. cbn [obind]. eauto.
Qed.

Section Bd.
Variables (a : akind) (T sa sa' : list nat) (al : alph).
Hypothesis TOK : text_ok T.
Hypothesis SA : is_sa T sa.
Hypothesis SA' : is_sa (rtext T) sa'.
Hypothesis AL : forall M, (a <> AINT -> M = 256) -> alph_ok M T al.
Let x := mkbd (bwt T sa) al.

Lemma bidir_step : forall w l r l' r' c, ~ In 0 w -> 0 < c < 256 -> l < r -> bi_interval T sa sa' w l r l' r' ->
  exists l1 r1 l2 r2, bidir x l r l' r' c = Some (l1, r1, l2, r2) /\ bi_interval T sa sa' (c :: w) l1 r1 l2 r2.
Proof.
  intros w l r l' r' c NZ C L I. pose proof I as [I1 I2]. pose proof (interval_len T sa sa' w l r l' r' TOK SA SA' NZ I) as LE.
  pose proof (interval_short T sa w l r TOK SA NZ I1 L) as LW. pose proof (proj1 I1) as B1. pose proof (proj1 I2) as B2. destruct (rtext_ok T TOK) as (ROK & RL & RR). rewrite RL in B2.
  assert (NZ' : ~ In 0 (rev w)) by (rewrite <- in_rev; auto).
  unfold bidir. rewrite Nat.mod_small by lia. cbn [bd_al bd_wt x].
  assert (BW : length (bwt T sa) = length T) by (apply bwt_len).
  unfold w_lex. rewrite BW. rewrite (proj2 (Nat.leb_le l r)), (proj2 (Nat.leb_le r (length T))) by lia. cbn [andb].
  rewrite !count_slice by (unfold n; lia). rewrite rank_bw by (unfold n; lia).
  set (sm := rank_of (fun k => bw T sa (l + k) <? c) (r - l)). set (gr := rank_of (fun k => c <? bw T sa (l + k)) (r - l)). set (rl := rank_of (fun j => bw T sa j =? c) l).
  set (eq := rank_of (fun k => bw T sa (l + k) =? c) (r - l)).
  assert (TH : sm + eq + gr = r - l) by (apply (three (fun k => bw T sa (l + k)))).
  assert (RR' : rank_of (fun j => bw T sa j =? c) r = rl + eq). { replace r with (l + (r - l)) at 1 by lia. apply (rank_pos (fun j => bw T sa j =? c)). }
  pose proof (next_rows T sa' TOK SA' (rev w) l' r' c NZ' I2) as NR. cbn zeta in NR.
  pose proof (mirror_count T sa sa' TOK SA SA' (fun z => z <? c) w l r l' r' NZ I1 I2 LW) as M1. pose proof (mirror_count T sa sa' TOK SA SA' (fun z => z <? S c) w l r l' r' NZ I1 I2 LW) as M2.
  cbn beta in M1, M2. rewrite rev_length in NR. rewrite <- M1, <- M2 in NR. fold sm in NR.
  pose proof (two (fun k => bw T sa (l + k)) c (r - l)) as TW. cbn beta in TW. fold gr in TW.
  assert (CB : exists cb, c_begin al c = Some cb /\ sa_interval T sa (c :: w) (cb + rl) (cb + (rl + eq))).
  { destruct (in_dec Nat.eq_dec c T) as [IN|NI].
    - exists (less T c). split. { apply (begin_ok 256 T al); auto. }
      rewrite <- RR'. unfold rl. apply interval_step; auto. lia.
    - exists 0. assert (A : alph_ok 256 T al) by (apply AL; auto). split.
      + unfold c_begin. rewrite (ao_abs _ _ _ A) by (auto; lia). cbn [obind]. assert (Z : In 0 T) by (destruct TOK as (U & -> & _); apply in_or_app; right; left; auto).
        pose proof (ao_C _ _ _ A 0 Z) as C0. assert (D0 : forall t, filter (fun x => x <? 0) t = []) by (induction t; auto). unfold dless, less in C0. rewrite !D0 in C0. exact C0.
      + assert (NB : forall j, j < length T -> (bw T sa j =? c) = false).
        { intros j J. apply Nat.eqb_neq. intros E. apply NI. rewrite <- E. apply (Permutation_in _ (bwt_perm T sa SA)). apply nth_error_In with j. apply bwt_at. auto. }
        assert (Z1 : rl = 0) by (apply rank_none; intros; apply NB; lia). assert (Z2 : eq = 0) by (apply rank_none; intros; apply NB; lia).
        rewrite Z1, Z2. apply interval_absent; auto. lia. }
  destruct CB as (cb & -> & IV). cbn [obind]. rewrite (csub_le (r - l) sm) by lia. cbn [obind]. rewrite csub_le by lia. cbn [obind]. rewrite csub_le by lia. cbn [obind].
  do 4 eexists. split; [reflexivity|]. split.
  - replace (cb + (r - l - sm - gr + rl)) with (cb + (rl + eq)) by lia. auto.
  - cbn [rev]. replace (r' - gr) with (l' + rank_of (fun k => bw T sa (l + k) <? S c) (r - l)) by lia. auto.
Qed.
Lemma bi_empty : forall P w l l', ~ In 0 w -> bi_interval T sa sa' w l l l' l' -> bi_interval T sa sa' (P ++ w) l l l' l'.
Proof.
  intros P w l l' NZ [A B]. assert (WN : w <> []). { intros ->. destruct A as [A1 A2]. pose proof (n_pos T TOK) as NP. unfold n in NP. pose proof (proj2 (A2 0 NP) eq_refl). lia. }
  split. { destruct (max_ex T) as [M MB]. apply (interval_none M); auto. }
  destruct B as [B1 B2]. split; auto. intros j J. split; [lia|]. intros O. exfalso. assert (O' : occurs_at (rtext T) (rev w) (nth j sa' 0)); [|apply B2 in O'; auto; lia].
  rewrite rev_app_distr in O. unfold occurs_at in *. rewrite app_length in O. apply (f_equal (firstn (length (rev w)))) in O. rewrite firstn_firstn, Nat.min_l, firstn_app, Nat.sub_diag in O by lia.
  cbn [firstn] in O. rewrite firstn_all, app_nil_r in O. auto.
Qed.
Lemma bwd_rev_ok : forall rp w l r l' r', ~ In 0 w -> (forall c, In c rp -> 0 < c < 256) -> bi_interval T sa sa' w l r l' r' ->
  exists l1 r1 l2 r2, bidir_bwd_rev x l r l' r' rp = Some (l1, r1, l2, r2) /\ bi_interval T sa sa' (rev rp ++ w) l1 r1 l2 r2.
Proof.
  induction rp as [|c rp IH]; intros w l r l' r' NZ H I; cbn [bidir_bwd_rev].
  { exists l, r, l', r'. auto. }
  pose proof (interval_len T sa sa' w l r l' r' TOK SA SA' NZ I) as LE. pose proof (proj1 (proj1 I)) as B1. pose proof (proj1 (proj2 I)) as B2.
  destruct (Nat.ltb_spec 0 (r - l)) as [L|L].
  - destruct (bidir_step w l r l' r' c NZ (H c (or_introl eq_refl)) ltac:(lia) I) as (l1 & r1 & l2 & r2 & -> & I'). cbn [obind].
    destruct (IH (c :: w) l1 r1 l2 r2) as (a1 & a2 & a3 & a4 & E & I2); auto.
    { intros [E|E]; auto. pose proof (H c (or_introl eq_refl)). lia. } { intros d D. apply H. right. auto. }
    exists a1, a2, a3, a4. split; auto. cbn [rev]. rewrite <- app_assoc. exact I2.
  - assert (r = l) by lia. assert (r' = l') by lia. subst. exists l, l, l', l'. split; auto. apply bi_empty; auto.
Qed.
End Bd.

Lemma bi_swap : forall T sa sa' w l r l' r', text_ok T -> bi_interval T sa sa' w l r l' r' <-> bi_interval (rtext T) sa' sa (rev w) l' r' l r.
Proof. intros T sa sa' w l r l' r' TOK. unfold bi_interval. rewrite rev_involutive, (proj2 (proj2 (rtext_ok T TOK))). tauto. Qed.

Theorem s_backward : forall a T sa sa', text_ok T -> is_sa T sa -> is_sa (rtext T) sa' -> (forall c, In c T -> sym_fits a c) ->
  exists fwd bwd, bd_make a T sa = Some fwd /\ bd_make a (rtext T) sa' = Some bwd /\
  forall P w l r l' r', ~ In 0 (P ++ w) -> (forall c, In c P -> c < 256) -> bi_interval T sa sa' w l r l' r' ->
  exists l1 r1 l2 r2, bidir_backward fwd bwd l r l' r' P = Some (l1, r1, l2, r2) /\ bi_interval T sa sa' (P ++ w) l1 r1 l2 r2 /\
    r1 - l1 = length (occs T (P ++ w)).
Proof.
  intros a T sa sa' TOK SA SA' F. destruct (rtext_ok T TOK) as (ROK & RL & RR).
  destruct (bd_make_ok a T sa TOK SA F) as (al & E1 & H1). destruct (bd_make_ok a (rtext T) sa' ROK SA') as (al' & E2 & _). { intros c C. apply F. apply rtext_in; auto. }
  do 2 eexists. split; [eauto|]. split; [eauto|]. intros P w l r l' r' NZ PF I. unfold bidir_backward. rewrite in_app_iff in NZ.
  destruct (bwd_rev_ok a T sa sa' al TOK SA SA' H1 (rev P) w l r l' r') as (a1 & a2 & a3 & a4 & E & J); auto.
  { intros c C. apply in_rev in C. split; auto. destruct c; [exfalso; auto|lia]. }
  rewrite rev_involutive in J. exists a1, a2, a3, a4. split; auto. split; auto. symmetry. destruct (max_ex T) as [M MB]. apply (occs_length M T sa SA MB). apply (proj1 J).
Qed.
Theorem s_forward_bi : forall a T sa sa', text_ok T -> is_sa T sa -> is_sa (rtext T) sa' -> (forall c, In c T -> sym_fits a c) ->
  exists fwd bwd, bd_make a T sa = Some fwd /\ bd_make a (rtext T) sa' = Some bwd /\
  forall P w l r l' r', ~ In 0 (w ++ P) -> (forall c, In c P -> c < 256) -> bi_interval T sa sa' w l r l' r' ->
  exists l1 r1 l2 r2, bidir_forward fwd bwd l r l' r' P = Some (l1, r1, l2, r2) /\ bi_interval T sa sa' (w ++ P) l1 r1 l2 r2 /\
    r1 - l1 = length (occs T (w ++ P)).
Proof.
  intros a T sa sa' TOK SA SA' F. destruct (rtext_ok T TOK) as (ROK & RL & RR).
  destruct (bd_make_ok a T sa TOK SA F) as (al & E1 & _). destruct (bd_make_ok a (rtext T) sa' ROK SA') as (al' & E2 & H2). { intros c C. apply F. apply rtext_in; auto. }
  do 2 eexists. split; [eauto|]. split; [eauto|]. intros P. induction P as [|c P IH]; intros w l r l' r' NZ PF I; cbn [bidir_forward].
  { exists l, r, l', r'. rewrite app_nil_r. split; auto. split; auto. symmetry. destruct (max_ex T) as [M MB]. apply (occs_length M T sa SA MB). apply (proj1 I). }
  assert (NZ1 : ~ In 0 w) by (intro X; apply NZ; apply in_or_app; auto). assert (C0 : c <> 0) by (intros ->; apply NZ; apply in_or_app; right; left; auto).
  assert (NZ2 : ~ In 0 (rev w)) by (rewrite <- in_rev; auto). assert (SA2 : is_sa (rtext (rtext T)) sa) by (rewrite RR; auto).
  pose proof (interval_len T sa sa' w l r l' r' TOK SA SA' NZ1 I) as LE. pose proof (proj1 (proj1 I)) as B1. pose proof (proj1 (proj2 I)) as B2.
  pose proof (proj1 (bi_swap T sa sa' w l r l' r' TOK) I) as I'.
  destruct (Nat.ltb_spec 0 (r - l)) as [L|L].
  - pose proof (PF c (or_introl eq_refl)) as CF. destruct (bidir_step a (rtext T) sa' sa al' ROK SA' SA2 H2 (rev w) l' r' l r c NZ2 ltac:(lia) ltac:(lia) I') as (l1 & r1 & l2 & r2 & -> & J). cbn [obind].
    assert (J' : bi_interval T sa sa' (w ++ [c]) l2 r2 l1 r1). { apply bi_swap; auto. rewrite rev_app_distr. exact J. }
    destruct (IH (w ++ [c]) l2 r2 l1 r1) as (a1 & a2 & a3 & a4 & E & K); auto. { rewrite <- app_assoc. exact NZ. } { intros d D. apply PF. right. auto. }
    rewrite <- app_assoc in K. exists a1, a2, a3, a4. split; auto.
  - assert (r = l) by lia. assert (r' = l') by lia. subst. exists l, l, l', l'. split; auto.
    assert (K : bi_interval T sa sa' (w ++ c :: P) l l l' l').
    { apply bi_swap; auto. rewrite rev_app_distr. apply (bi_empty a (rtext T) sa' sa al'); auto. }
    split; auto. symmetry. destruct (max_ex T) as [M MB]. apply (occs_length M T sa SA MB). apply (proj1 K).
Qed.
