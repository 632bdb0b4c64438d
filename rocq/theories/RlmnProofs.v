(** * Proofs about wt_rlmn *)
From Coq Require Import List Bool Arith Lia.
From Verif Require Import Base SpecBits RankSelect AbsVec FnArr WtBase WtProofs SpecCsa AlphabetProofs BitsProofs3 CsaProofs3 WtProofs Csa CsaProofs2 Rlmn.
Import ListNotations.

Section R.
Variable s : list nat.
Notation n := (length s).
Definition sy (j : nat) : nat := nth j s 0.
Definition hd (j : nat) : bool := (j =? 0) || negb (sy (j - 1) =? sy j).
Definition O (c i : nat) : nat := rank_of (fun j => sy j =? c) i.
Definition H (c i : nat) : nat := rank_of (fun j => hd j && (sy j =? c)) i.
Definition lfr (i : nat) : nat := less s (sy i) + O (sy i) i.
Definition bfF (i p : nat) : bool := (p =? n) || existsb (fun k => hd k && (lfr k =? p)) (seq 0 i).
Variable m : nat.
Hypothesis SM : forall c, In c s -> c < m.

Lemma sy_m : forall i, i < n -> sy i < m.
Proof. intros i I. apply SM, nth_In. auto. Qed.
Lemma O_S : forall c i, O c (i + 1) = O c i + b2nat (sy i =? c).
Proof. intros. unfold O. rewrite Nat.add_1_r, rank_of_S. reflexivity. Qed.
Lemma H_S : forall c i, H c (i + 1) = H c i + b2nat (hd i && (sy i =? c)).
Proof. intros. unfold H. rewrite Nat.add_1_r, rank_of_S. reflexivity. Qed.
Lemma O_mono : forall c i j, i <= j -> O c i <= O c j.
Proof. intros. apply rank_of_mono. auto. Qed.
Lemma O_n : forall c, O c n = cnt1 s c.
Proof.
  intros c. unfold O, cnt1, sy. assert (G : forall l, rank_of (fun j => nth j l 0 =? c) (length l) = length (filter (Nat.eqb c) l)).
  { induction l as [|x l IH] using rev_ind; auto. rewrite app_length, filter_app, app_length. cbn [length filter]. rewrite Nat.add_1_r, rank_of_S, nth_middle. rewrite (rank_of_ext _ (fun j => nth j l 0 =? c)) by (intros; rewrite app_nth1; auto). rewrite IH, (Nat.eqb_sym c x). destruct (x =? c); reflexivity. }
  apply G.
Qed.
Lemma less_next : forall c, less s (S c) = less s c + O c n.
Proof. intros. rewrite !less_psum, O_n. reflexivity. Qed.

(** ** construction *)
Lemma skip_cons : forall i, i < n -> skipn i s = sy i :: skipn (i + 1) s.
Proof. intros i I. unfold sy. rewrite Nat.add_1_r. revert i I. generalize s as l. induction l as [|x l IH]; intros i I; cbn [length] in I; [lia|]. destruct i; [reflexivity|]. cbn [skipn nth]. apply IH. lia. Qed.
Lemma runs_ok : forall k i last, i + k = n -> (0 < i -> last = sy (i - 1)) ->
  runs_loop (skipn i s) i last (farr n (fun j => (j <? i) && hd j)) (map sy (positions hd i)) (farr m (fun c => O c i)) =
  Some (farr n hd, map sy (positions hd n), farr m (fun c => O c n)).
Proof.
  induction k; intros i last E LA.
  - replace i with n by lia. rewrite skipn_all. cbn [runs_loop]. do 3 f_equal. apply farr_ext. intros j J. rewrite (proj2 (Nat.ltb_lt _ _) J). reflexivity.
  - rewrite (skip_cons i) by lia. cbn [runs_loop]. assert (HD : negb (last =? sy i) || (i =? 0) = hd i).
    { unfold hd. destruct (Nat.eqb_spec i 0) as [->|NZ]; [apply orb_true_r|]. rewrite LA by lia. rewrite orb_false_r. reflexivity. }
    rewrite HD. rewrite farr_nth_error by (apply sy_m; lia). 
    assert (Q : (if hd i then let* bl := aset (farr n (fun j => (j <? i) && hd j)) i true in Some (bl, map sy (positions hd i) ++ [sy i]) else Some (farr n (fun j => (j <? i) && hd j), map sy (positions hd i))) =
      Some (farr n (fun j => (j <? i + 1) && hd j), map sy (positions hd (i + 1)))).
    { rewrite Nat.add_1_r, positions_S. destruct (hd i) eqn:HI.
      - rewrite farr_aset by lia. cbn [obind]. rewrite map_app. cbn [map]. do 2 f_equal. apply farr_ext. intros j J. destruct (Nat.eqb_spec j i) as [->|NE]; [rewrite HI, (proj2 (Nat.ltb_lt i (S i))) by lia; reflexivity|]. destruct (Nat.ltb_spec j i), (Nat.ltb_spec j (S i)); auto; lia.
      - rewrite app_nil_r. do 2 f_equal. apply farr_ext. intros j J. destruct (Nat.eq_dec j i) as [->|NE]; [rewrite HI, !andb_false_r; reflexivity|]. destruct (Nat.ltb_spec j i), (Nat.ltb_spec j (S i)); auto; lia. }
    rewrite Q. cbn [obind fst snd]. rewrite farr_aset by (apply sy_m; lia). cbn [obind]. rewrite (farr_ext _ m _ (fun c => O c (i + 1))).
    + apply IHk; [lia|]. intros _. f_equal. lia.
    + intros c CM. rewrite O_S. destruct (Nat.eqb_spec c (sy i)) as [->|NE]; [rewrite Nat.eqb_refl; reflexivity|]. destruct (Nat.eqb_spec (sy i) c); [congruence|]. cbn. lia.
Qed.
Lemma psums_ok : forall g k a, psums (map g (seq a k)) (psum g a) = map (psum g) (seq a k).
Proof. intros g. induction k; intros a; auto. cbn [seq map psums]. f_equal. rewrite <- IHk. reflexivity. Qed.
Lemma C_ok : psums (farr m (fun c => O c n)) 0 = farr m (less s).
Proof. unfold farr. change 0 with (psum (fun c => O c n) 0) at 2. rewrite psums_ok. apply map_ext. intros c. rewrite less_psum. apply psum_ext. intros. apply O_n. Qed.
Lemma lf_lt : forall i, i < n -> lfr i < n.
Proof.
  intros i I. unfold lfr. pose proof (less_next (sy i)) as E. pose proof (less_le s (S (sy i))) as L. assert (O (sy i) i + 1 <= O (sy i) n). { pose proof (O_mono (sy i) (i + 1) n ltac:(lia)) as M. rewrite O_S, Nat.eqb_refl in M. cbn in M. lia. } lia.
Qed.
Lemma bf_loop_ok : forall k i, i + k = n ->
  bf_loop (skipn i s) i (farr n hd) (farr m (fun c => less s c + O c i)) (farr (n + 1) (bfF i)) = Some (farr (n + 1) (bfF n)).
Proof.
  induction k; intros i E.
  - replace i with n by lia. rewrite skipn_all. reflexivity.
  - rewrite (skip_cons i) by lia. cbn [bf_loop]. unfold t_get. rewrite farr_nth_error by lia. cbn [obind]. rewrite farr_nth_error by (apply sy_m; lia). cbn [obind]. fold (lfr i). pose proof (lf_lt i ltac:(lia)) as LL.
    assert (Q : (if hd i then aset (farr (n + 1) (bfF i)) (lfr i) true else Some (farr (n + 1) (bfF i))) = Some (farr (n + 1) (bfF (i + 1)))).
    { assert (X : forall p, bfF (i + 1) p = bfF i p || (hd i && (lfr i =? p))). { intros p. unfold bfF. rewrite seq_app, existsb_app. cbn [seq existsb Nat.add]. rewrite orb_false_r, orb_assoc. reflexivity. }
      destruct (hd i) eqn:HI; [rewrite farr_aset by lia|]; f_equal; apply farr_ext; intros p P; rewrite X; cbn [andb].
      - rewrite (Nat.eqb_sym p). destruct (lfr i =? p); [symmetry; apply orb_true_r|symmetry; apply orb_false_r].
      - rewrite orb_false_r. reflexivity. }
    rewrite Q. cbn [obind]. rewrite farr_aset by (apply sy_m; lia). cbn [obind]. rewrite (farr_ext _ m _ (fun c => less s c + O c (i + 1))); [apply IHk; lia|].
    intros c CM. rewrite O_S. unfold lfr. destruct (Nat.eqb_spec c (sy i)) as [->|NE]; [rewrite Nat.eqb_refl; cbn; lia|]. destruct (Nat.eqb_spec (sy i) c); [congruence|]. cbn. lia.
Qed.
Definition rbf (p : nat) : nat := rank_of (bfF n) p.
Lemma t_bit_farr : forall k (g : nat -> bool) p, p < k -> t_bit (farr k g) p = g p.
Proof. intros. unfold t_bit. apply farr_nth. auto. Qed.
Lemma rank_farr : forall k (g : nat -> bool) p, p <= k -> t_rank (farr k g) p = Some (rank_of g p).
Proof. intros k g p P. rewrite t_rank_some by (rewrite farr_length; auto). f_equal. apply rank_of_ext. intros j J. apply t_bit_farr. lia. Qed.
Lemma sel_farr : forall k (g : nat -> bool) p, p < k -> g p = true -> t_sel1 (farr k g) (rank_of g p + 1) = Some p.
Proof.
  intros k g p P G. apply t_sel1_some; [|rewrite farr_length; auto]. split; [rewrite t_bit_farr; auto|]. f_equal. apply rank_of_ext. intros j J. apply t_bit_farr. lia.
Qed.
Lemma ranks_ok : forall k (g : nat -> nat) a, (forall c, a <= c < a + k -> g c <= n) -> ranks_of (farr (n + 1) (bfF n)) (map g (seq a k)) = Some (map (fun c => rbf (g c)) (seq a k)).
Proof. induction k; intros g a G; auto. cbn [seq map ranks_of]. rewrite rank_farr by (specialize (G a ltac:(lia)); lia). cbn [obind]. rewrite IHk by (intros; apply G; lia). reflexivity. Qed.
Definition W : rlmn := mkrl n (farr n hd) (farr (n + 1) (bfF n)) (map sy (positions hd n)) (farr m (less s)) (farr m (fun c => rbf (less s c))).
Lemma make_ok : forall byte, rl_slots byte s = m -> 0 < n -> rl_make byte s = Some W.
Proof.
  intros byte E N0. unfold rl_make. destruct (Nat.eqb_spec n 0) as [Z|_]; [lia|]. rewrite E.
  assert (Q := runs_ok n 0 0 ltac:(lia) ltac:(lia)). cbn [skipn positions seq filter map] in Q.
  rewrite (farr_repeat _ n), (farr_repeat _ m). rewrite (farr_ext _ n _ (fun j => (j <? 0) && hd j)) by reflexivity. change (positions hd 0) with (@nil nat) in Q. cbn [map] in Q. rewrite (farr_ext _ m (fun _ => 0) (fun c => O c 0)) by reflexivity. rewrite Q. cbn [obind]. rewrite C_ok.
  rewrite (farr_repeat _ (n + 1)), farr_aset by lia. cbn [obind]. rewrite (farr_ext _ (n + 1) _ (bfF 0)) by (intros j J; unfold bfF; cbn [seq existsb]; destruct (j =? n); reflexivity).
  assert (Q2 := bf_loop_ok n 0 ltac:(lia)). cbn [skipn] in Q2. rewrite (farr_ext _ m (fun c => less s c + O c 0) (less s)) in Q2 by (intros; unfold O, rank_of; cbn [positions seq filter length]; apply Nat.add_0_r). rewrite Q2. cbn [obind]. 
  unfold farr at 2. rewrite ranks_ok by (intros; apply less_le). cbn [obind]. reflexivity.
Qed.

(** ** the bits of bf *)
Lemma lf_inj : forall i j, i < n -> j < n -> lfr i = lfr j -> i = j.
Proof.
  assert (G : forall i j, i < n -> j < n -> sy i < sy j -> lfr i < lfr j).
  { intros i j I J LT. unfold lfr. pose proof (less_next (sy i)) as E. pose proof (less_mono s (S (sy i)) (sy j) ltac:(lia)) as L. pose proof (O_mono (sy i) (i + 1) n ltac:(lia)) as M. rewrite O_S, Nat.eqb_refl in M. cbn in M. lia. }
  assert (G2 : forall i j, i < j -> j < n -> sy i = sy j -> lfr i < lfr j).
  { intros i j L J E. unfold lfr. rewrite E. pose proof (O_mono (sy j) (i + 1) j ltac:(lia)) as M. rewrite O_S, E, Nat.eqb_refl in M. cbn in M. lia. }
  intros i j I J E. destruct (Nat.lt_total (sy i) (sy j)) as [L|[L|L]]; [specialize (G i j I J L); lia| |specialize (G j i J I L); lia].
  destruct (Nat.lt_total i j) as [K|[K|K]]; auto; [specialize (G2 i j K J L); lia|specialize (G2 j i K I (eq_sym L)); lia].
Qed.
Lemma bf_lf : forall i, i < n -> bfF n (lfr i) = hd i.
Proof.
  intros i I. unfold bfF. pose proof (lf_lt i I). destruct (Nat.eqb_spec (lfr i) n); [lia|]. cbn [orb]. destruct (hd i) eqn:HI.
  - apply existsb_exists. exists i. split; [apply in_seq; lia|]. rewrite HI, Nat.eqb_refl. reflexivity.
  - destruct (existsb _ _) eqn:X; auto. apply existsb_exists in X. destruct X as (k & K & E). apply in_seq in K. apply andb_true_iff in E. destruct E as (HK & E). apply Nat.eqb_eq in E. apply lf_inj in E; try lia. congruence.
Qed.
Lemma rbf_run : forall c i, i <= n -> rbf (less s c + O c i) = rbf (less s c) + H c i.
Proof.
  intros c. induction i; intros I. { change (O c 0) with 0. change (H c 0) with 0. rewrite !Nat.add_0_r. reflexivity. }
  rewrite <- Nat.add_1_r, O_S, H_S. destruct (Nat.eqb_spec (sy i) c) as [E|NE].
  - cbn [b2nat]. rewrite Nat.add_assoc. unfold rbf at 1. rewrite Nat.add_1_r, rank_of_S. fold (rbf (less s c + O c i)). rewrite IHi by lia. replace (less s c + O c i) with (lfr i) by (unfold lfr; rewrite E; reflexivity). rewrite bf_lf by lia. rewrite andb_true_r. lia.
  - rewrite andb_false_r. cbn [b2nat]. rewrite !Nat.add_0_r. apply IHi. lia.
Qed.
(** the next head of c at or behind i, or the first row behind the c's *)
Lemma O_const : forall c i j, i <= j -> (forall k, i <= k < j -> sy k <> c) -> O c j = O c i.
Proof. intros c i j L F. induction L; auto. rewrite <- Nat.add_1_r, O_S, IHL by (intros; apply F; lia). destruct (Nat.eqb_spec (sy m0) c) as [E|]; [exfalso; apply (F m0); auto; lia|]. cbn. lia. Qed.
Lemma next_occ : forall c i, (exists q, i <= q < n /\ sy q = c /\ forall k, i <= k < q -> sy k <> c) \/ (forall k, i <= k < n -> sy k <> c).
Proof.
  intros c i. destruct (Nat.le_gt_cases n i) as [L|L]. { right. intros k K. lia. }
  remember (n - i) as d eqn:D. revert i L D. induction d; intros i L D; [lia|]. destruct (Nat.eq_dec (sy i) c) as [E|NE].
  - left. exists i. repeat split; auto; lia.
  - destruct (Nat.eq_dec (i + 1) n) as [E1|N1]. { right. intros k K. replace k with i by lia. auto. }
    destruct (IHd (i + 1) ltac:(lia) ltac:(lia)) as [(q & Q & E & F)|F]; [left|right].
    + exists q. repeat split; auto; try lia. intros k K. destruct (Nat.eq_dec k i) as [->|]; auto. apply F. lia.
    + intros k K. destruct (Nat.eq_dec k i) as [->|]; auto. apply F. lia.
Qed.
Lemma bf_stop : forall c i, i <= n -> (i = 0 \/ sy (i - 1) <> c) -> bfF n (less s c + O c i) = true.
Proof.
  assert (A : forall c i, i <= n -> (i = 0 \/ sy (i - 1) <> c) -> (exists q, i <= q < n /\ sy q = c /\ forall k, i <= k < q -> sy k <> c) -> bfF n (less s c + O c i) = true).
  { intros c i I P (q & Q & E & F). rewrite <- (O_const c i q) by (auto; lia). replace (less s c + O c q) with (lfr q) by (unfold lfr; rewrite E; reflexivity). rewrite bf_lf by lia. unfold hd. destruct (Nat.eqb_spec q 0) as [|NZ]; auto. cbn [orb]. rewrite E. destruct (Nat.eqb_spec (sy (q - 1)) c) as [X|]; auto. exfalso. destruct (Nat.eq_dec q i) as [->|NE]; [destruct P; [lia|auto]|]. apply (F (q - 1)); auto. lia. }
  intros c i I P. destruct (next_occ c i) as [X|F]; [apply A; auto|]. rewrite <- (O_const c i n) by auto. rewrite <- less_next. clear i I P F.
  (* the first symbol above c *)
  destruct (Nat.eq_dec (less s (S c)) n) as [E|NE]. { unfold bfF. rewrite E, Nat.eqb_refl. reflexivity. }
  pose proof (less_le s (S c)) as LE.
  assert (G : forall d c', m - c' = d -> less s c' < n -> bfF n (less s c') = true).
  { induction d; intros c' D L.
    - exfalso. rewrite (less_all s c') in L; [lia|]. intros x X. specialize (SM x X). lia.
    - destruct (next_occ c' 0) as [X|F].
      + pose proof (A c' 0 ltac:(lia) (or_introl eq_refl) X) as Y. change (O c' 0) with 0 in Y. rewrite Nat.add_0_r in Y. exact Y.
      + assert (Z : less s (S c') = less s c') by (rewrite less_next, (O_const c' 0 n) by (auto; lia); change (O c' 0) with 0; lia). rewrite <- Z. apply IHd; lia. }
  apply (G (m - S c) (S c) eq_refl). lia.
Qed.

(** ** runs *)
Definition K (i : nat) : nat := rank_of hd i.
Lemma hd0 : hd 0 = true. Proof. reflexivity. Qed.
Lemma K_pos : forall i, 0 < i -> 0 < K i.
Proof. intros i I. pose proof (rank_of_mono hd 1 i I) as M. unfold K. change (rank_of hd 1) with 1 in M. lia. Qed.
(** the run of position i: its head p *)
Lemma run_head : forall i, exists p, p <= i /\ hd p = true /\ K (i + 1) = K p + 1 /\ (forall k, p <= k <= i -> sy k = sy i) /\ forall k, p < k <= i -> hd k = false.
Proof.
  induction i.
  - exists 0. repeat split; auto; intros; try lia. f_equal. lia.
  - destruct (hd (S i)) eqn:HI.
    + exists (S i). repeat split; auto; intros; try lia; [unfold K; rewrite Nat.add_1_r, rank_of_S, HI; reflexivity|f_equal; lia].
    + destruct IHi as (p & P & HP & KP & EQ & NH). exists p. assert (E : sy (S i) = sy i). { unfold hd in HI. cbn [Nat.eqb orb] in HI. apply negb_false_iff, Nat.eqb_eq in HI. replace (S i - 1) with i in HI by lia. congruence. }
      repeat split; auto; try lia.
      * unfold K in *. rewrite Nat.add_1_r, rank_of_S, HI. rewrite Nat.add_1_r in KP. cbn. lia.
      * intros k KK. destruct (Nat.eq_dec k (S i)) as [->|]; auto. rewrite E. apply EQ. lia.
      * intros k KK. destruct (Nat.eq_dec k (S i)) as [->|]; auto. apply NH. lia.
Qed.
Lemma wt_first : forall i, i <= n -> firstn (K i) (map sy (positions hd n)) = map sy (positions hd i).
Proof.
  intros i I. replace n with (i + (n - i)) at 1 by lia. rewrite positions_add, map_app. unfold K, rank_of. rewrite <- (map_length sy (positions hd i)) at 1. rewrite firstn_app, Nat.sub_diag, firstn_all. apply app_nil_r.
Qed.
Lemma wt_len : length (map sy (positions hd n)) = K n.
Proof. rewrite map_length. reflexivity. Qed.
Lemma wt_at : forall p, p < n -> hd p = true -> nth_error (map sy (positions hd n)) (K p) = Some (sy p).
Proof.
  intros p P HP. rewrite nth_error_map. assert (E : nth_error (positions hd n) (K p) = Some p).
  { pose proof (select_positions hd n (K p + 1) p 0 (conj HP eq_refl) P) as X. replace (K p + 1 - 1) with (K p) in X by lia. rewrite (nth_error_nth' _ 0); [rewrite X; reflexivity|]. change (length (positions hd n)) with (K n). pose proof (rank_of_mono hd (S p) n ltac:(lia)) as M. rewrite rank_of_S, HP in M. unfold K. cbn in M. lia. }
  rewrite E. reflexivity.
Qed.
Lemma wt_sym : forall l c i, i <= length l -> rank_of (is_sym l c) i = length (filter (fun x => x =? c) (firstn i l)).
Proof.
  induction i; intros I; auto. rewrite rank_of_S, IHi by lia. rewrite (BitsProofs3.firstn_S_nth _ l i 0) by lia. rewrite filter_app, app_length. f_equal. unfold is_sym. rewrite (nth_error_nth' _ 0) by lia. cbn [filter]. destruct (nth i l 0 =? c); reflexivity.
Qed.
Lemma wt_rank : forall c i, i <= n -> rank_of (is_sym (map sy (positions hd n)) c) (K i) = H c i.
Proof.
  intros c i I. rewrite wt_sym by (rewrite wt_len; apply rank_of_mono; auto). rewrite wt_first by auto. unfold H. clear I. induction i; auto. rewrite positions_S, map_app, filter_app, app_length, IHi, rank_of_S. f_equal. destruct (hd i); [|reflexivity]. cbn [map filter andb]. destruct (sy i =? c); reflexivity.
Qed.
Lemma H_run : forall c p i, p <= i -> hd p = true -> sy p = c -> (forall k, p < k <= i -> hd k = false) -> H c (i + 1) = H c p + 1.
Proof.
  intros c p i P HP E NH. assert (G : forall d, p + d <= i -> H c (p + d + 1) = H c p + 1).
  { induction d; intros D. { rewrite Nat.add_0_r, H_S, HP, E, Nat.eqb_refl. reflexivity. } replace (p + S d) with (p + d + 1) by lia. rewrite H_S, IHd by lia. rewrite NH by lia. cbn. lia. }
  specialize (G (i - p) ltac:(lia)). replace (p + (i - p)) with i in G by lia. exact G.
Qed.
Lemma O_run : forall c p i, p <= i -> (forall k, p <= k < i -> sy k = c) -> O c i = O c p + (i - p).
Proof. intros c p i P E. induction P; [lia|]. rewrite <- Nat.add_1_r, O_S, IHP by (intros; apply E; lia). rewrite (E m0), Nat.eqb_refl by lia. cbn. lia. Qed.
Lemma O_H : forall c i, i <= n -> H c i = 0 -> O c i = 0.
Proof.
  intros c i I HZ. destruct (O c i) as [|o] eqn:E; auto. exfalso. assert (X : exists q, q < i /\ sy q = c). { destruct (next_occ c 0) as [(q & Q & EQ & F)|F]. - exists q. split; auto. destruct (Nat.lt_ge_cases q i); auto. rewrite (O_const c 0 i) in E; [discriminate|lia|intros; apply F; lia]. - rewrite (O_const c 0 i) in E; [discriminate|lia|]. intros; apply F; lia. }
  destruct X as (q & Q & EQ). destruct (run_head q) as (p & P & HP & _ & SP & NH). pose proof (H_run c p q P HP ltac:(rewrite SP; auto; lia) NH) as HR. assert (MM : H c (q + 1) <= H c i) by (apply rank_of_mono; lia). lia.
Qed.

(** ** queries *)
Lemma before_ok : forall c i, c < m -> i <= n -> bfF n (less s c + O c i) = true -> rl_before W c (H c i + 1) = Some (O c i).
Proof.
  intros c i C I BB. unfold rl_before, W. cbn [r_Cbf r_bf r_C]. rewrite farr_nth_error by auto. cbn [obind]. pose proof (rbf_run c i I) as R. rewrite Nat.add_assoc, <- R. pose proof (less_next c) as LN. pose proof (less_le s (S c)) as LL. pose proof (O_mono c i n I) as OM. unfold rbf. rewrite sel_farr by (auto; lia). cbn [obind]. rewrite farr_nth_error by auto. cbn [obind]. apply csub_some. lia.
Qed.
Lemma head_bf : forall p, p < n -> hd p = true -> bfF n (less s (sy p) + O (sy p) p) = true.
Proof. intros p P HP. change (less s (sy p) + O (sy p) p) with (lfr p). rewrite bf_lf; auto. Qed.
Lemma get_ok : forall i, i < n -> rl_get W i = Some (sy i).
Proof.
  intros i I. unfold rl_get, W. cbn [r_bl r_wt]. rewrite rank_farr by lia. cbn [obind]. destruct (run_head i) as (p & P & HP & KP & SP & NH). fold (K (i + 1)). rewrite KP, csub_some with (c := K p) by lia. cbn [obind]. rewrite wt_at by (auto; lia). f_equal. apply SP. lia.
Qed.
Lemma rank_ok : forall i c, i <= n -> rl_rank W i c = Some (O c i).
Proof.
  intros i c I. unfold rl_rank. destruct (Nat.eqb_spec i 0) as [->|NZ]; [reflexivity|]. unfold W at 1 2 3 4. cbn [r_bl r_wt]. rewrite rank_farr by lia. cbn [obind]. fold (K i). unfold w_rank. rewrite wt_len. destruct (Nat.leb_spec (K i) (K n)) as [LE|GT]; [|pose proof (rank_of_mono hd i n I); unfold K in GT; lia]. cbn [obind]. rewrite wt_rank by auto.
  destruct (Nat.eqb_spec (H c i) 0) as [HZ|HN]; [rewrite O_H; auto|].
  assert (CM : c < m). { destruct (Nat.lt_ge_cases c m); auto. exfalso. apply HN. apply CsaProofs3.rank_none. intros j J. destruct (Nat.eqb_spec (sy j) c) as [E|]; [|apply andb_false_r]. pose proof (sy_m j ltac:(lia)). lia. }
  destruct (run_head (i - 1)) as (p & P & HP & KP & SP & NH). replace (i - 1 + 1) with i in KP by lia. rewrite KP, csub_some with (c := K p) by lia. cbn [obind]. rewrite wt_at by (auto; lia). cbn [obind]. assert (SPI : sy p = sy (i - 1)) by (apply SP; lia). destruct (Nat.eqb_spec (sy p) c) as [E|NE].
  - unfold K at 1. rewrite sel_farr by (auto; lia). cbn [obind]. pose proof (H_run c p (i - 1) P HP E NH) as HR. replace (i - 1 + 1) with i in HR by lia. rewrite HR, before_ok; auto; [|lia|rewrite <- E; apply head_bf; auto; lia]. cbn [obind]. apply csub_some. rewrite (O_run c p i) by (try lia; intros k KK; rewrite SP by lia; congruence). lia.
  - apply before_ok; auto. apply bf_stop; auto. right. congruence.
Qed.
Lemma isel_ok : forall i, i < n -> rl_isel W i = Some (O (sy i) i, sy i).
Proof.
  intros i I. unfold rl_isel. destruct (Nat.eqb_spec i 0) as [->|NZ]. { unfold W. cbn [r_wt]. change 0 with (K 0) at 1. rewrite wt_at by auto. reflexivity. }
  unfold W at 1 2 3 4. cbn [r_bl r_wt]. rewrite rank_farr by lia. cbn [obind]. fold (K (i + 1)). destruct (run_head i) as (p & P & HP & KP & SP & NH). rewrite KP, csub_some with (c := K p) by lia. cbn [obind]. unfold w_isel. rewrite wt_at by (auto; lia). cbn [obind fst snd]. rewrite wt_rank by lia. destruct (Nat.eqb_spec (H (sy p) p + 1) 0) as [Z|_]; [lia|]. rewrite Nat.eqb_refl. unfold K at 1. rewrite sel_farr by (auto; lia). cbn [obind].
  assert (E : sy p = sy i) by (apply SP; lia). rewrite before_ok; [|apply sy_m; lia|lia|apply head_bf; auto; lia]. cbn [obind]. rewrite csub_some with (c := O (sy p) p + (i - p)) by lia. cbn [obind]. rewrite E. do 2 f_equal. symmetry. apply O_run; auto. intros k KK. apply SP. lia.
Qed.
Lemma select_ok : forall q, q < n -> rl_select W (O (sy q) q + 1) (sy q) = Some q.
Proof.
  intros q Q. set (c := sy q). pose proof (sy_m q Q) as CM. fold c in CM. unfold rl_select, W. cbn [r_C r_Cbf r_bf r_bl r_wt]. rewrite !farr_nth_error by auto. cbn [obind]. assert (OS : O c q + 1 = O c (q + 1)) by (rewrite O_S; fold c; rewrite Nat.eqb_refl; reflexivity).
  pose proof (less_next c) as LN. pose proof (less_le s (S c)) as LL. pose proof (O_mono c (q + 1) n ltac:(lia)) as OM. rewrite OS, rank_farr by lia. cbn [obind]. fold (rbf (less s c + O c (q + 1))). rewrite rbf_run by lia. rewrite csub_some with (c := H c (q + 1)) by lia. cbn [obind].
  destruct (run_head q) as (p & P & HP & KP & SP & NH). assert (E : sy p = c) by (apply SP; lia). rewrite (H_run c p q P HP E NH). replace (H c p + 1 + rbf (less s c)) with (rbf (less s c + O c p) + 1) by (rewrite rbf_run by lia; lia). pose proof (O_mono c p n ltac:(lia)) as OM2. unfold rbf. rewrite sel_farr; [|lia|rewrite <- E; apply head_bf; auto; lia]. cbn [obind]. pose proof (O_run c p q P ltac:(intros k KK; apply SP; lia)) as OR. rewrite csub_some with (c := q - p) by lia. cbn [obind].
  unfold w_select. destruct (Nat.eqb_spec (H c p + 1) 0) as [Z|_]; [lia|]. 
  assert (SEL : nth_error (positions (is_sym (map sy (positions hd n)) c) (length (map sy (positions hd n)))) (H c p + 1 - 1) = Some (K p)).
  { assert (KL : K p < K n). { pose proof (rank_of_mono hd (S p) n ltac:(lia)) as M. rewrite rank_of_S, HP in M. unfold K. cbn in M. lia. }
    assert (IS : is_select (is_sym (map sy (positions hd n)) c) (H c p + 1) (K p)). { split; [unfold is_sym; rewrite wt_at by (auto; lia); apply Nat.eqb_eq; auto|rewrite wt_rank by lia; reflexivity]. }
    rewrite (nth_error_nth' _ 0). { rewrite wt_len. rewrite (select_positions _ _ _ _ _ IS KL). reflexivity. }
    fold (rank_of (is_sym (map sy (positions hd n)) c) (length (map sy (positions hd n)))). rewrite wt_len. pose proof (is_select_le_rank _ _ _ _ IS KL). lia. }
  rewrite SEL. cbn [obind]. unfold K. rewrite sel_farr by (auto; lia). cbn [obind]. f_equal. lia.
Qed.
End R.

(** ** the occurrences as counted by the standard library *)
Lemma O_occ : forall s c i, i <= length s -> O s c i = count_occ Nat.eq_dec (firstn i s) c.
Proof.
  intros s c. induction i; intros I; [reflexivity|]. rewrite <- (Nat.add_1_r i), O_S, IHi by lia. rewrite Nat.add_1_r, (BitsProofs3.firstn_S_nth _ s i 0) by lia. rewrite count_occ_app. f_equal. cbn [count_occ]. unfold sy. destruct (Nat.eq_dec (nth i s 0) c), (Nat.eqb_spec (nth i s 0) c); auto; congruence.
Qed.
Lemma slots_ok : forall byte s, (byte = true -> forall c, In c s -> c < 256) -> forall c, In c s -> c < rl_slots byte s.
Proof.
  intros byte s F c I. unfold rl_slots. destruct byte; [auto|]. pose proof (proj1 (list_max_le s (list_max s)) (le_n _)) as L. rewrite Forall_forall in L. specialize (L c I). lia.
Qed.
Lemma made : forall byte s w, s <> [] -> (byte = true -> forall c, In c s -> c < 256) -> rl_make byte s = Some w -> w = W s (rl_slots byte s).
Proof. intros byte s w NE F E. rewrite (make_ok s (rl_slots byte s) (slots_ok byte s F) byte eq_refl) in E; [congruence|]. destruct s; [congruence|cbn; lia]. Qed.
