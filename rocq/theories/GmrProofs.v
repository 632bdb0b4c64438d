(** * Proofs about wt_gmr_rs *)
From Coq Require Import List Bool Arith Lia Sorted.
From Verif Require Import Base SpecBits RankSelect AbsVec FnArr WtBase WtProofs SpecCsa AlphabetProofs BitsProofs3 CsaProofs3 RlmnProofs Gmr.
Import ListNotations.

(** ** B as a list of cells *)
Definition cl (A : list nat) : list bool := flat_map (fun t => false :: repeat true t) A.
Lemma cl_app : forall A B, cl (A ++ B) = cl A ++ cl B.
Proof. intros. apply flat_map_app. Qed.
Lemma count_true_rep : forall k, count_true (repeat true k) = k.
Proof. induction k; auto. cbn [repeat]. rewrite count_true_cons, IHk. reflexivity. Qed.
Lemma cl_len : forall A, length (cl A) = length A + list_sum A.
Proof. induction A as [|t A IH]; auto. unfold cl in *. cbn [flat_map list_sum fold_right]. rewrite app_length, IH. cbn [length]. rewrite repeat_length. unfold list_sum. lia. Qed.
Lemma cl_cnt : forall A, count_true (cl A) = list_sum A.
Proof. induction A as [|t A IH]; auto. unfold cl in *. cbn [flat_map list_sum fold_right]. rewrite count_true_app, IH. rewrite count_true_cons, count_true_rep. unfold list_sum. cbn [b2nat]. lia. Qed.
Lemma rank_app : forall l X, rank_of (t_bit (l ++ X)) (length l) = count_true l.
Proof. intros l X. rewrite count_true_rank. apply rank_of_ext. intros j J. unfold t_bit. apply app_nth1. auto. Qed.
Lemma sel0_split : forall A X, t_sel0 (cl A ++ false :: X) (length A + 1) = Some (length A + list_sum A).
Proof.
  intros A X. rewrite <- cl_len. apply t_sel0_some; [|rewrite app_length; cbn [length]; lia]. split.
  - unfold t_bit. rewrite nth_middle. reflexivity.
  - rewrite rank_of_negb, rank_app, cl_cnt, cl_len. lia.
Qed.
Lemma sel1_split : forall A t X r, r < t -> t_sel1 (cl A ++ false :: repeat true t ++ X) (list_sum A + r + 1) = Some (length A + 1 + list_sum A + r).
Proof.
  intros A t X r R. replace (cl A ++ false :: repeat true t ++ X) with ((cl A ++ false :: repeat true r) ++ true :: (repeat true (t - r - 1) ++ X)).
  2: { rewrite <- app_assoc. f_equal. cbn [app]. f_equal. replace t with (r + (1 + (t - r - 1))) at 2 by lia. rewrite !repeat_app, <- !app_assoc. reflexivity. }
  assert (LL : length (cl A ++ false :: repeat true r) = length A + 1 + list_sum A + r) by (rewrite app_length, cl_len; cbn [length]; rewrite repeat_length; lia).
  rewrite <- LL. apply t_sel1_some; [|rewrite app_length with (l' := true :: _); cbn [length]; lia]. split.
  - unfold t_bit. rewrite nth_middle. reflexivity.
  - rewrite rank_app, count_true_app, cl_cnt. rewrite count_true_cons, count_true_rep. reflexivity.
Qed.
Lemma get_split : forall A t X, t_get (cl A ++ false :: repeat true t ++ false :: X) (length A + list_sum A + 1) = Some (0 <? t).
Proof.
  intros A t X. unfold t_get. rewrite <- cl_len. rewrite nth_error_app2 by lia. replace (length (cl A) + 1 - length (cl A)) with 1 by lia. cbn [nth_error]. destruct t; reflexivity.
Qed.
(** ** searching in sorted ranges *)
Lemma find_idx_ext : forall f h l, (forall x, f x = h x) -> find_idx f l = find_idx h l.
Proof. intros f h l E. induction l as [|x l IH]; auto. cbn [find_idx]. rewrite E, IH. reflexivity. Qed.
Lemma positions_sorted : forall g k, StronglySorted lt (positions g k).
Proof.
  intros g. induction k; [constructor|]. rewrite positions_S. destruct (g k); [|rewrite app_nil_r; auto].
  assert (F : Forall (fun x => x < k) (positions g k)) by (apply Forall_forall; intros x X; apply positions_In in X; lia).
  revert F. induction IHk as [|x l S IH H]; intros F; [repeat constructor|]. inversion F; subst. cbn [app]. constructor; [auto|]. apply Forall_app. split; [auto|repeat constructor; auto].
Qed.
Lemma sorted_b : forall l, StronglySorted lt l -> sortedb l = true.
Proof. intros l H. induction H as [|x l S IH F]; auto. cbn [sortedb]. destruct l as [|y l]; auto. inversion F; subst. rewrite IH, (proj2 (Nat.leb_le x y)) by lia. reflexivity. Qed.
Lemma find_idx_filter : forall l v, StronglySorted lt l -> find_idx (fun x => v <=? x) l = length (filter (fun x => x <? v) l).
Proof.
  intros l v H. induction H as [|x l S IH F]; auto. cbn [find_idx filter]. destruct (Nat.leb_spec v x) as [L|L].
  - destruct (Nat.ltb_spec x v); [lia|]. symmetry. rewrite Forall_forall in F. replace (filter (fun y => y <? v) l) with (@nil nat); [reflexivity|]. symmetry. clear IH S. induction l as [|y l IH]; auto. cbn [filter]. destruct (Nat.ltb_spec y v) as [Y|Y]; [specialize (F y (or_introl eq_refl)); lia|]. apply IH. intros z Z. apply F. right. auto.
  - destruct (Nat.ltb_spec x v); [|lia]. cbn [length]. rewrite IH. reflexivity.
Qed.
Lemma filter_pos : forall g v k, length (filter (fun x => x <? v) (positions g k)) = rank_of g (Nat.min v k).
Proof.
  intros g v. induction k; [rewrite Nat.min_0_r; reflexivity|]. rewrite positions_S, filter_app, app_length, IHk. destruct (Nat.lt_ge_cases k v) as [L|L].
  - replace (Nat.min v (S k)) with (S k) by lia. replace (Nat.min v k) with k by lia. rewrite rank_of_S. f_equal. destruct (g k); auto. cbn [filter]. rewrite (proj2 (Nat.ltb_lt _ _) L). reflexivity.
  - replace (Nat.min v (S k)) with v by lia. replace (Nat.min v k) with v by lia. destruct (g k); cbn [filter length]; [|lia]. destruct (Nat.ltb_spec k v); [lia|]. cbn [length]. lia.
Qed.
Lemma find_pos : forall g v k, v <= k -> find_idx (fun x => v <=? x) (positions g k) = rank_of g v.
Proof. intros g v k V. rewrite find_idx_filter by apply positions_sorted. rewrite filter_pos. f_equal. lia. Qed.
Lemma scan_ok : forall val e l a, StronglySorted lt l -> (forall r x, nth_error l r = Some x -> nth_error e (a + r) = Some x) ->
  (forall r, nth_error l r = Some val -> scan e val (length l) a = Some (Some (a + r))) /\ (~ In val l -> scan e val (length l) a = Some None).
Proof.
  intros val e l. induction l as [|x l IH]; intros a S H; [split; [intros [|r]; discriminate|auto]|]. apply StronglySorted_inv in S. destruct S as (S & F). rewrite Forall_forall in F.
  destruct (IH (a + 1) S) as (I1 & I2). { intros r y Y. specialize (H (1 + r) y Y). rewrite Nat.add_assoc in H. exact H. }
  pose proof (H 0 x eq_refl) as H0. rewrite Nat.add_0_r in H0. cbn [length scan]. rewrite H0. cbn [obind]. split.
  - intros [|r] R; cbn [nth_error] in R.
    + injection R as ->. rewrite Nat.leb_refl, Nat.eqb_refl, Nat.add_0_r. reflexivity.
    + pose proof (F val (nth_error_In _ _ R)) as L. destruct (Nat.leb_spec x val); [|lia]. destruct (Nat.eqb_spec x val); [lia|]. rewrite (I1 r R). do 2 f_equal. lia.
  - intros N. destruct (Nat.leb_spec x val) as [L|L]; auto. destruct (Nat.eqb_spec x val) as [->|NE]; [exfalso; apply N; left; auto|]. apply I2. intros I. apply N. right. auto.
Qed.
Lemma exists_eqb : forall l v, existsb (Nat.eqb v) l = true <-> In v l.
Proof. intros l v. rewrite existsb_exists. split; [intros (x & I & E); apply Nat.eqb_eq in E; subst; auto|intros I; exists v; split; [auto|apply Nat.eqb_refl]]. Qed.
Lemma nth_pos : forall g k v, v < k -> g v = true -> nth_error (positions g k) (rank_of g v) = Some v.
Proof.
  intros g k v V G. pose proof (rank_of_mono g (S v) k ltac:(lia)) as M. rewrite rank_of_S, G in M. cbn [b2nat] in M. rewrite nth_error_nth' with (d := 0) by (unfold rank_of in *; lia). f_equal.
  pose proof (select_positions g k (rank_of g v + 1) v 0 (select_rank g v G) V) as E. rewrite Nat.add_sub in E. exact E.
Qed.
Lemma skip_at : forall (e : list nat) a x, nth_error e a = Some x -> skipn a e = x :: skipn (a + 1) e.
Proof. induction e as [|y e IH]; intros [|a] x X; cbn [nth_error] in X; try discriminate; [injection X as ->; reflexivity|]. cbn [skipn Nat.add]. apply IH. auto. Qed.
Lemma seg_gen : forall (l e : list nat) a, (forall r x, nth_error l r = Some x -> nth_error e (a + r) = Some x) -> firstn (length l) (skipn a e) = l.
Proof.
  induction l as [|x l IH]; intros e a H; [reflexivity|]. pose proof (H 0 x eq_refl) as H0. rewrite Nat.add_0_r in H0. rewrite (skip_at e a x H0). cbn [length firstn]. f_equal. apply IH. intros r y Y. rewrite <- Nat.add_assoc. apply (H (1 + r)). exact Y.
Qed.

Section G.
Variables (s : list nat) (bs bl : nat).
Notation n := (length s).
Notation sym := (sy s).
Notation occs := (O s).
Hypothesis SM : forall c, In c s -> c < bs.
Hypothesis BP : 0 < bs.
Hypothesis BK : forall k, k < bl -> k * bs < n.
Hypothesis BN : n <= bl * bs.
Definition cell (j : nat) : nat := sym j * bl + j / bs.
Definition T (q : nat) : nat := rank_of (fun j => cell j =? q) n.
Definition P (q : nat) : nat := rank_of (fun j => cell j <? q) n.
Lemma blk : forall j, j < n -> j / bs < bl.
Proof. intros j J. apply Nat.div_lt_upper_bound; lia. Qed.
Lemma sym_lt : forall j, j < n -> sym j < bs.
Proof. intros j J. apply SM, nth_In. auto. Qed.
Lemma rank_ltS : forall (f : nat -> nat) q m, rank_of (fun j => f j <? S q) m = rank_of (fun j => f j <? q) m + rank_of (fun j => f j =? q) m.
Proof.
  intros f q. induction m; [reflexivity|]. rewrite !rank_of_S, IHm. destruct (Nat.ltb_spec (f m) (S q)), (Nat.ltb_spec (f m) q), (Nat.eqb_spec (f m) q); cbn [b2nat]; lia.
Qed.
Lemma P_S : forall q, P (S q) = P q + T q.
Proof. intros. apply rank_ltS. Qed.
Lemma P_0 : P 0 = 0.
Proof. unfold P. apply rank_none. reflexivity. Qed.
Lemma less_rank : forall c, less s c = rank_of (fun j => sym j <? c) n.
Proof. induction c; [rewrite less_psum, rank_none; reflexivity|]. rewrite less_next, IHc, rank_ltS. reflexivity. Qed.
Lemma P_cell : forall c k, k <= bl -> P (c * bl + k) = less s c + occs c (Nat.min n (k * bs)).
Proof.
  intros c k K. rewrite less_rank. unfold P. assert (G : forall m, m <= n -> rank_of (fun j => cell j <? c * bl + k) m = rank_of (fun j => sym j <? c) m + occs c (Nat.min m (k * bs))); [|apply G; lia].
  induction m as [|m IH]; intros M; [reflexivity|]. rewrite !rank_of_S, IH by lia. pose proof (blk m ltac:(lia)) as B.
  assert (D : m / bs < k <-> m < k * bs). { split; intros D; [destruct (Nat.lt_ge_cases m (k * bs)) as [|G]; auto; pose proof (Nat.div_le_lower_bound m bs k ltac:(lia) ltac:(lia)); lia|apply Nat.div_lt_upper_bound; lia]. }
  assert (ST : occs c (Nat.min (S m) (k * bs)) = occs c (Nat.min m (k * bs)) + (if m <? k * bs then b2nat (sym m =? c) else 0)). { destruct (Nat.ltb_spec m (k * bs)) as [L|L]; [replace (Nat.min (S m) (k * bs)) with (m + 1) by lia; rewrite O_S; replace (Nat.min m (k * bs)) with m by lia; reflexivity|]. replace (Nat.min (S m) (k * bs)) with (Nat.min m (k * bs)) by lia. lia. }
  rewrite ST. unfold cell. destruct (Nat.lt_total (sym m) c) as [L|[L|L]].
  - destruct (Nat.ltb_spec (sym m) c); [|lia]. destruct (Nat.eqb_spec (sym m) c); [lia|]. destruct (Nat.ltb_spec (sym m * bl + m / bs) (c * bl + k)); [|nia]. cbn [b2nat]. destruct (m <? k * bs); lia.
  - rewrite L. destruct (Nat.ltb_spec c c); [lia|]. rewrite Nat.eqb_refl. destruct (Nat.ltb_spec (c * bl + m / bs) (c * bl + k)), (Nat.ltb_spec m (k * bs)); cbn [b2nat]; lia.
  - destruct (Nat.ltb_spec (sym m) c); [lia|]. destruct (Nat.eqb_spec (sym m) c); [lia|]. destruct (Nat.ltb_spec (sym m * bl + m / bs) (c * bl + k)); [nia|]. cbn [b2nat]. destruct (m <? k * bs); lia.
Qed.
Notation Q := (bs * bl).
Definition bv : list bool := cl (farr Q T) ++ [false].
Lemma sum_first : forall q, q <= Q -> list_sum (firstn q (farr Q T)) = P q /\ length (firstn q (farr Q T)) = q.
Proof.
  induction q; intros L; [rewrite P_0; auto|]. destruct (IHq ltac:(lia)) as (E & LE). rewrite (firstn_S_nth _ (farr Q T) q 0) by (rewrite farr_length; lia). rewrite farr_nth by lia. rewrite list_sum_app, E, P_S, app_length, LE. cbn. lia.
Qed.
Lemma bv_split : forall q, q < Q -> exists X, bv = cl (firstn q (farr Q T)) ++ false :: repeat true (T q) ++ false :: X.
Proof.
  intros q L. unfold bv. assert (E0 : cl (farr Q T) = cl (firstn q (farr Q T)) ++ cl (skipn q (farr Q T))) by (rewrite <- cl_app, firstn_skipn; reflexivity). rewrite E0, <- app_assoc.
  assert (E : skipn q (farr Q T) = T q :: skipn (S q) (farr Q T)). { rewrite <- Nat.add_1_r. apply skip_at. apply farr_nth_error. auto. }
  rewrite E. cbn [cl flat_map]. cbn [app]. rewrite <- app_assoc. fold (cl (skipn (S q) (farr Q T))).
  assert (Z : exists X, cl (skipn (S q) (farr Q T)) ++ [false] = false :: X) by (destruct (skipn (S q) (farr Q T)) as [|t l]; [exists []; reflexivity|eexists; reflexivity]). destruct Z as (X & Z). exists X. rewrite Z. reflexivity.
Qed.
Lemma sel0_ok : forall q, q <= Q -> t_sel0 bv (q + 1) = Some (q + P q).
Proof.
  intros q L. destruct (sum_first q L) as (E1 & E2). assert (Z : exists X, bv = cl (firstn q (farr Q T)) ++ false :: X).
  { destruct (Nat.lt_ge_cases q Q) as [H|H]; [destruct (bv_split q H) as (X & ->); eexists; reflexivity|]. exists []. unfold bv. rewrite firstn_all2 by (rewrite farr_length; lia). reflexivity. }
  destruct Z as (X & ->). pose proof (sel0_split (firstn q (farr Q T)) X) as G. rewrite E1, E2 in G. exact G.
Qed.
Lemma get_bv : forall q, q < Q -> t_get bv (q + P q + 1) = Some (0 <? T q).
Proof. intros q L. destruct (sum_first q ltac:(lia)) as (E1 & E2). destruct (bv_split q L) as (X & ->). pose proof (get_split (firstn q (farr Q T)) (T q) X) as G. rewrite E1, E2 in G. exact G. Qed.
Lemma sel1_ok : forall q r, q < Q -> r < T q -> t_sel1 bv (P q + r + 1) = Some (q + 1 + P q + r).
Proof. intros q r L R. destruct (sum_first q ltac:(lia)) as (E1 & E2). destruct (bv_split q L) as (X & ->). pose proof (sel1_split (firstn q (farr Q T)) (T q) (false :: X) r R) as G. rewrite E1, E2 in G. exact G. Qed.
(** ** E *)
Definition blen (k : nat) : nat := Nat.min n ((k + 1) * bs) - k * bs.
Definition g (c k j : nat) : bool := sym (k * bs + j) =? c.
Lemma P_blk : forall c k, k < bl -> P (c * bl + k) = less s c + occs c (k * bs).
Proof. intros c k K. rewrite P_cell by lia. pose proof (BK k K). do 2 f_equal. lia. Qed.
Lemma O_g : forall c k j, occs c (k * bs + j) = occs c (k * bs) + rank_of (g c k) j.
Proof. intros. unfold O. apply rank_of_add. Qed.
Lemma blen_ok : forall k, k < bl -> k * bs + blen k <= n /\ blen k <= bs.
Proof. intros k K. pose proof (BK k K). unfold blen. split; [lia|]. replace ((k + 1) * bs) with (k * bs + bs) by lia. lia. Qed.
Lemma T_blk : forall c k, k < bl -> T (c * bl + k) = rank_of (g c k) (blen k).
Proof.
  intros c k K. pose proof (P_S (c * bl + k)) as E. rewrite P_blk in E by auto. replace (S (c * bl + k)) with (c * bl + (k + 1)) in E by lia. rewrite P_cell in E by lia. replace (Nat.min n ((k + 1) * bs)) with (k * bs + blen k) in E by (pose proof (BK k K); unfold blen; lia). rewrite O_g in E. lia.
Qed.
Lemma P_end : forall c k, k < bl -> P (c * bl + k + 1) = P (c * bl + k) + rank_of (g c k) (blen k).
Proof. intros c k K. rewrite Nat.add_1_r, P_S, T_blk by auto. reflexivity. Qed.
Lemma P_le : forall q, P q <= n.
Proof. intros. apply rank_of_le. Qed.
Variable e : list nat.
Hypothesis EL : length e = n.
Hypothesis EP : forall p, p < n -> nth_error e (lfr s p) = Some (p mod bs).
Lemma e_at : forall c k r x, k < bl -> nth_error (positions (g c k) (blen k)) r = Some x -> nth_error e (P (c * bl + k) + r) = Some x.
Proof.
  intros c k r x K H. assert (R : r < rank_of (g c k) (blen k)) by (apply nth_error_Some; congruence). destruct (nth_positions (g c k) (blen k) r 0 R) as ((N1 & N2) & N3). rewrite (nth_error_nth _ _ _ H) in *. destruct (blen_ok k K) as (B1 & B2).
  pose proof (EP (k * bs + x) ltac:(lia)) as E. unfold lfr in E. unfold g in N1. apply Nat.eqb_eq in N1. rewrite N1, O_g in E. fold (g c k) in *. rewrite P_blk by auto. replace (less s c + occs c (k * bs) + r) with (less s c + (occs c (k * bs) + rank_of (g c k) x)) by lia. rewrite E. f_equal. symmetry. apply (Nat.mod_unique _ _ k); lia.
Qed.
Lemma slice_ok : forall c k, k < bl -> slice e (P (c * bl + k)) (P (c * bl + k + 1)) = Some (positions (g c k) (blen k)).
Proof.
  intros c k K. unfold slice. pose proof (P_end c k K) as E. rewrite EL. rewrite (proj2 (Nat.leb_le _ _) (P_le (c * bl + k + 1))), (proj2 (Nat.leb_le (P (c * bl + k)) _)) by lia. cbn [andb]. f_equal.
  rewrite E. replace (P (c * bl + k) + rank_of (g c k) (blen k) - P (c * bl + k)) with (length (positions (g c k) (blen k))) by (unfold rank_of; lia). apply seg_gen. intros r x X. apply e_at; auto.
Qed.
(** ** queries *)
Variable sigma : nat.
Definition W : gmr := mkgmr n bs bl sigma bv e.
Lemma cellQ : forall c k, c < bs -> k < bl -> c * bl + k < Q.
Proof. intros c k C K. nia. Qed.
Lemma ones_ok : forall q, q <= Q -> g_ones W q = Some (P q).
Proof. intros q L. unfold g_ones. cbn [W g_b]. rewrite sel0_ok by auto. cbn [obind]. apply csub_some. lia. Qed.
Lemma ones_sym : forall c, c < bs -> g_ones W (c * bl) = Some (less s c).
Proof. intros c C. rewrite ones_ok by nia. pose proof (P_cell c 0 ltac:(lia)) as E. rewrite Nat.add_0_r in E. rewrite E. cbn [Nat.mul]. rewrite Nat.min_0_r. f_equal. unfold O. rewrite rank_of_0. lia. Qed.
Lemma rank_ok : forall i c, i <= n -> gmr_rank W i c = Some (occs c i).
Proof.
  intros i c I. unfold gmr_rank. cbn [W g_bs g_bl g_b g_e]. destruct (Nat.eqb_spec i 0) as [->|NZ]; [reflexivity|]. cbn [orb]. destruct (Nat.ltb_spec (bs - 1) c) as [L|L].
  - f_equal. symmetry. apply rank_none. intros j J. apply Nat.eqb_neq. pose proof (sym_lt j ltac:(lia)). lia.
  - rewrite ones_sym by lia. cbn [obind]. pose proof (blk (i - 1) ltac:(lia)) as B. set (k := (i - 1) / bs) in *. pose proof (cellQ c k ltac:(lia) B) as CQ. rewrite sel0_ok by lia. cbn [obind]. rewrite (csub_some _ _ (P (c * bl + k))) by lia. cbn [obind].
    replace (c * bl + k + 2) with (c * bl + k + 1 + 1) by lia. rewrite sel0_ok by lia. cbn [obind]. rewrite (csub_some _ _ (P (c * bl + k + 1))) by lia. cbn [obind]. rewrite slice_ok by auto. cbn [obind].
    set (v := (i - 1) mod bs). pose proof (Nat.div_mod (i - 1) bs ltac:(lia)) as DM. fold k v in DM. pose proof (Nat.mod_upper_bound (i - 1) bs ltac:(lia)) as VB. fold v in VB. assert (VL : v + 1 <= blen k) by (unfold blen; lia).
    assert (F : find_idx (fun x => v + 1 <=? x) (positions (g c k) (blen k)) = rank_of (g c k) (v + 1)) by (apply find_pos; auto).
    replace (if P (c * bl + k + 1) - P (c * bl + k) <? 50 then Some (find_idx (fun x => v <? x) (positions (g c k) (blen k))) else lower_bound (positions (g c k) (blen k)) (v + 1)) with (Some (rank_of (g c k) (v + 1))).
    2: { destruct (P (c * bl + k + 1) - P (c * bl + k) <? 50); [|unfold lower_bound; rewrite sorted_b by apply positions_sorted; rewrite F; reflexivity]. rewrite <- F. f_equal. apply find_idx_ext. intros x. unfold Nat.ltb. rewrite Nat.add_1_r. reflexivity. }
    cbn [obind]. apply csub_some. rewrite P_blk by auto. replace i with (k * bs + (v + 1)) at 1 by lia. rewrite O_g. lia.
Qed.
Lemma select_ok : forall p, p < n -> gmr_select W (occs (sym p) p + 1) (sym p) = Some p.
Proof.
  intros p I. unfold gmr_select. cbn [W g_bs g_bl g_b g_e]. pose proof (sym_lt p I) as SL. rewrite ones_sym by auto. cbn [obind]. pose proof (blk p I) as B. set (k := p / bs) in *. set (c := sym p) in *. pose proof (cellQ c k SL B) as CQ.
  pose proof (Nat.div_mod p bs ltac:(lia)) as DM. fold k in DM. pose proof (Nat.mod_upper_bound p bs ltac:(lia)) as VB. set (v := p mod bs) in *. assert (VL : v < blen k) by (unfold blen; lia).
  assert (OC : occs c p = occs c (k * bs) + rank_of (g c k) v) by (rewrite <- O_g; f_equal; lia).
  assert (RT : rank_of (g c k) v < T (c * bl + k)). { rewrite T_blk by auto. pose proof (rank_of_mono (g c k) (S v) (blen k) ltac:(lia)) as M. rewrite rank_of_S in M. unfold g at 2 in M. replace (k * bs + v) with p in M by lia. fold c in M. rewrite Nat.eqb_refl in M. cbn [b2nat] in M. lia. }
  replace (less s c + (occs c p + 1)) with (P (c * bl + k) + rank_of (g c k) v + 1) by (rewrite P_blk by auto; lia). rewrite sel1_ok by auto. cbn [obind]. rewrite (csub_some _ _ (c * bl + k)) by lia. cbn [obind]. rewrite (csub_some _ 1 (P (c * bl + k) + rank_of (g c k) v)) by lia. cbn [obind].
  rewrite (e_at c k (rank_of (g c k) v) v B). 2: { apply nth_pos; auto. unfold g. replace (k * bs + v) with p by lia. apply Nat.eqb_refl. }
  cbn [obind]. apply csub_some. lia.
Qed.
(** *** the loops over the symbols *)
Section A.
Variable i : nat.
Hypothesis I : i < n.
Let k := i / bs.
Let v := i mod bs.
Lemma kB : k < bl. Proof. apply blk. auto. Qed.
Lemma vL : v < blen k /\ i = k * bs + v.
Proof. pose proof (Nat.div_mod i bs ltac:(lia)) as DM. pose proof (Nat.mod_upper_bound i bs ltac:(lia)) as VB. unfold blen, k, v. split; lia. Qed.
Lemma gv : forall c, g c k v = (sym i =? c).
Proof. intros c. unfold g. destruct vL as (_ & <-). reflexivity. Qed.
Lemma in_seg : forall c, In v (positions (g c k) (blen k)) <-> sym i = c.
Proof. intros c. rewrite positions_In, gv, Nat.eqb_eq. destruct vL. tauto. Qed.
Lemma at_seg : forall c, sym i = c -> nth_error (positions (g c k) (blen k)) (rank_of (g c k) v) = Some v.
Proof. intros c E. apply nth_pos; [apply vL|]. rewrite gv, E. apply Nat.eqb_refl. Qed.
Lemma T_zero : forall c, T (c * bl + k) = 0 -> sym i <> c.
Proof. intros c Z E. rewrite T_blk in Z by apply kB. pose proof (at_seg c E) as A. apply nth_error_In in A. unfold rank_of in Z. apply length_zero_iff_nil in Z. rewrite Z in A. destruct A. Qed.
Definition where_ (c : nat) : option nat := if sym i =? c then Some (P (c * bl + k) + rank_of (g c k) v) else None.
Lemma scan_seg : forall c, scan e v (rank_of (g c k) (blen k)) (P (c * bl + k)) = Some (where_ c).
Proof.
  intros c. destruct (scan_ok v e (positions (g c k) (blen k)) (P (c * bl + k)) (positions_sorted _ _)) as (S1 & S2). { intros r x X. apply e_at; auto. apply kB. }
  unfold where_. destruct (Nat.eqb_spec (sym i) c) as [E|E]; [apply S1, at_seg; auto|]. apply S2. rewrite in_seg. auto.
Qed.
Lemma get_ok_loop : forall d c, c + d = bs -> c <= sym i -> get_loop d W (c * bl + k + 1) v = Some (sym i).
Proof.
  induction d as [|d IH]; intros c D C; [pose proof (sym_lt i I); lia|]. cbn [get_loop W g_b g_e g_bl]. pose proof kB as B. pose proof (cellQ c k ltac:(lia) B) as CQ. rewrite sel0_ok by lia. cbn [obind]. rewrite (csub_some _ _ (P (c * bl + k))) by lia. cbn [obind]. rewrite get_bv by auto. cbn [obind].
  assert (HIT : (if 0 <? T (c * bl + k) then
      let* p' := t_sel0 bv (c * bl + k + 1 + 1) in let* b := csub p' (c * bl + k + 1) in let* len := csub b (P (c * bl + k)) in
      if len <? 50 then let* r := scan e v len (P (c * bl + k)) in Some (match r with Some _ => true | None => false end) else let* l := slice e (P (c * bl + k)) b in binary_search l v
      else Some false) = Some (sym i =? c)).
  { destruct (Nat.ltb_spec 0 (T (c * bl + k))) as [TP|TZ]; [|pose proof (T_zero c ltac:(lia)) as NE; apply Nat.eqb_neq in NE; rewrite NE; reflexivity]. rewrite sel0_ok by lia. cbn [obind]. rewrite (csub_some _ _ (P (c * bl + k + 1))) by lia. cbn [obind]. pose proof (P_end c k B) as PE. rewrite (csub_some _ _ (rank_of (g c k) (blen k))) by lia. cbn [obind]. destruct (rank_of (g c k) (blen k) <? 50).
    - rewrite scan_seg. cbn [obind]. unfold where_. destruct (sym i =? c); reflexivity.
    - rewrite slice_ok by auto. cbn [obind]. unfold binary_search. rewrite sorted_b by apply positions_sorted. f_equal. apply eq_true_iff_eq. rewrite exists_eqb, in_seg, Nat.eqb_eq. tauto. }
  rewrite HIT. cbn [obind]. destruct (Nat.eqb_spec (sym i) c) as [E|E].
  - rewrite E. f_equal. replace (c * bl + k + 1 - 1) with (k + c * bl) by lia. rewrite Nat.div_add by lia. rewrite Nat.div_small by auto. reflexivity.
  - replace (c * bl + k + 1 + bl) with (S c * bl + k + 1) by lia. apply IH; lia.
Qed.
Lemma get_ok : gmr_get W i = Some (sym i).
Proof. unfold gmr_get. cbn [W g_bs]. apply (get_ok_loop bs 0); lia. Qed.
Lemma isel_ok_loop : forall d c, c + d = bs -> c <= sym i -> isel_loop d W (c * bl + k + 1) v = Some (occs (sym i) i, sym i).
Proof.
  induction d as [|d IH]; intros c D C; [pose proof (sym_lt i I); lia|]. cbn [isel_loop]. change (g_b W) with bv. change (g_e W) with e. change (g_bl W) with bl. pose proof kB as B. pose proof (cellQ c k ltac:(lia) B) as CQ. rewrite sel0_ok by lia. cbn [obind]. rewrite (csub_some _ _ (P (c * bl + k))) by lia. cbn [obind]. rewrite get_bv by auto. cbn [obind].
  assert (HIT : (if 0 <? T (c * bl + k) then
      let* p' := t_sel0 bv (c * bl + k + 1 + 1) in let* b := csub p' (c * bl + k + 1) in let* len := csub b (P (c * bl + k)) in
      if len <? 50 then scan e v len (P (c * bl + k)) else
        let* l := slice e (P (c * bl + k)) b in let* o := lower_bound l v in
        if P (c * bl + k) + o <? b then let* y := nth_error e (P (c * bl + k) + o) in Some (if y =? v then Some (P (c * bl + k) + o) else None) else Some None
      else Some None) = Some (where_ c)).
  { destruct (Nat.ltb_spec 0 (T (c * bl + k))) as [TP|TZ]; [|pose proof (T_zero c ltac:(lia)) as NE; apply Nat.eqb_neq in NE; unfold where_; rewrite NE; reflexivity]. rewrite sel0_ok by lia. cbn [obind]. rewrite (csub_some _ _ (P (c * bl + k + 1))) by lia. cbn [obind]. pose proof (P_end c k B) as PE. rewrite (csub_some _ _ (rank_of (g c k) (blen k))) by lia. cbn [obind]. destruct (rank_of (g c k) (blen k) <? 50); [apply scan_seg|].
    rewrite slice_ok by auto. cbn [obind]. unfold lower_bound. rewrite sorted_b by apply positions_sorted. cbn [obind]. rewrite find_pos by (pose proof vL; lia). destruct (Nat.ltb_spec (P (c * bl + k) + rank_of (g c k) v) (P (c * bl + k + 1))) as [L|L].
    - assert (R : rank_of (g c k) v < rank_of (g c k) (blen k)) by lia. destruct (nth_error (positions (g c k) (blen k)) (rank_of (g c k) v)) as [x|] eqn:X; [|apply nth_error_None in X; unfold rank_of in *; lia]. rewrite (e_at c k _ x B X). cbn [obind]. unfold where_. destruct (Nat.eqb_spec (sym i) c) as [E|E].
      + rewrite at_seg in X by auto. injection X as <-. rewrite Nat.eqb_refl. reflexivity.
      + destruct (Nat.eqb_spec x v) as [->|]; auto. exfalso. apply E, in_seg. eapply nth_error_In. eauto.
    - unfold where_. destruct (Nat.eqb_spec (sym i) c) as [E|E]; auto. exfalso. pose proof (at_seg c E) as A. assert (rank_of (g c k) v < rank_of (g c k) (blen k)) by (apply nth_error_Some; congruence). lia. }
  rewrite HIT. cbn [obind]. unfold where_. destruct (Nat.eqb_spec (sym i) c) as [E|E].
  - replace (c * bl + k + 1 - 1) with (k + c * bl) by lia. rewrite Nat.div_add by lia. rewrite Nat.div_small by auto. cbn [Nat.add]. rewrite ones_sym by lia. cbn [obind]. rewrite E. rewrite (csub_some _ _ (occs c i)); [reflexivity|]. rewrite P_blk by auto. destruct vL as (_ & V). replace (occs c i) with (occs c (k * bs + v)) by (f_equal; symmetry; exact V). rewrite O_g. lia.
  - replace (c * bl + k + 1 + bl) with (S c * bl + k + 1) by lia. apply IH; lia.
Qed.
Lemma isel_ok : gmr_isel W i = Some (occs (sym i) i, sym i).
Proof. unfold gmr_isel. cbn [W g_bs]. apply (isel_ok_loop bs 0); lia. Qed.
End A.
End G.
