(** * Proofs about wt_gmr: the cells of a bit vector, chunks, queries *)
From Coq Require Import NArith List Bool Arith Lia Sorted.
From Verif Require Import Base SpecBits RankSelect AbsVec FnArr WtBase WtProofs SpecCsa AlphabetProofs BitsProofs3 CsaProofs3 RlmnProofs WtapProofs InvPerm MultiPerm MultiPermProofs Gmr GmrProofs GmrProofs2 Gmr2.
Import ListNotations.

Lemma rank_lt_S : forall (f : nat -> nat) q m, rank_of (fun j => f j <? S q) m = rank_of (fun j => f j <? q) m + rank_of (fun j => f j =? q) m.
Proof.
  intros f q. induction m; [reflexivity|]. rewrite !rank_of_S, IHm. destruct (Nat.ltb_spec (f m) (S q)), (Nat.ltb_spec (f m) q), (Nat.eqb_spec (f m) q); cbn [b2nat]; lia.
Qed.
(** ** a bit vector that is the unary code of the cell sizes *)
Section Cells.
Variables (n Q : nat) (cell : nat -> nat).
Definition cT (q : nat) : nat := rank_of (fun j => cell j =? q) n.
Definition cP (q : nat) : nat := rank_of (fun j => cell j <? q) n.
Definition cbv : list bool := cl (farr Q cT) ++ [false].
Lemma cP_S : forall q, cP (S q) = cP q + cT q.
Proof. intros. apply rank_lt_S. Qed.
Lemma cP_0 : cP 0 = 0.
Proof. unfold cP. apply rank_none. reflexivity. Qed.
Lemma cP_le : forall q, cP q <= n.
Proof. intros. apply rank_of_le. Qed.
Lemma csum_first : forall q, q <= Q -> list_sum (firstn q (farr Q cT)) = cP q /\ length (firstn q (farr Q cT)) = q.
Proof.
  induction q; intros L; [rewrite cP_0; auto|]. destruct (IHq ltac:(lia)) as (E & LE). rewrite (firstn_S_nth _ (farr Q cT) q 0) by (rewrite farr_length; lia). rewrite farr_nth by lia. rewrite list_sum_app, E, cP_S, app_length, LE. cbn. lia.
Qed.
Lemma cbv_split : forall q, q < Q -> exists X, cbv = cl (firstn q (farr Q cT)) ++ false :: repeat true (cT q) ++ false :: X.
Proof.
  intros q L. unfold cbv. assert (E0 : cl (farr Q cT) = cl (firstn q (farr Q cT)) ++ cl (skipn q (farr Q cT))) by (rewrite <- cl_app, firstn_skipn; reflexivity). rewrite E0, <- app_assoc.
  assert (E : skipn q (farr Q cT) = cT q :: skipn (S q) (farr Q cT)). { rewrite <- Nat.add_1_r. apply skip_at. apply farr_nth_error. auto. }
  rewrite E. cbn [cl flat_map]. cbn [app]. rewrite <- app_assoc. fold (cl (skipn (S q) (farr Q cT))).
  assert (Z : exists X, cl (skipn (S q) (farr Q cT)) ++ [false] = false :: X) by (destruct (skipn (S q) (farr Q cT)) as [|t l]; [exists []; reflexivity|eexists; reflexivity]). destruct Z as (X & Z). exists X. rewrite Z. reflexivity.
Qed.
Lemma csel0 : forall q, q <= Q -> t_sel0 cbv (q + 1) = Some (q + cP q).
Proof.
  intros q L. destruct (csum_first q L) as (E1 & E2). assert (Z : exists X, cbv = cl (firstn q (farr Q cT)) ++ false :: X).
  { destruct (Nat.lt_ge_cases q Q) as [H|H]; [destruct (cbv_split q H) as (X & ->); eexists; reflexivity|]. exists []. unfold cbv. rewrite firstn_all2 by (rewrite farr_length; lia). reflexivity. }
  destruct Z as (X & ->). pose proof (sel0_split (firstn q (farr Q cT)) X) as G. rewrite E1, E2 in G. exact G.
Qed.
Lemma csel1 : forall q r, q < Q -> r < cT q -> t_sel1 cbv (cP q + r + 1) = Some (q + 1 + cP q + r).
Proof. intros q r L R. destruct (csum_first q ltac:(lia)) as (E1 & E2). destruct (cbv_split q L) as (X & ->). pose proof (sel1_split (firstn q (farr Q cT)) (cT q) (false :: X) r R) as G. rewrite E1, E2 in G. exact G. Qed.
Lemma cones : forall q, q <= Q -> z_ones cbv (q + 1) = Some (cP q).
Proof. intros q L. unfold z_ones. rewrite csel0 by auto. cbn [obind]. apply csub_some. lia. Qed.
Hypothesis CQ : forall j, j < n -> cell j < Q.
Lemma cP_Q : cP Q = n.
Proof. unfold cP. apply rank_of_all_true. intros j J. apply Nat.ltb_lt. auto. Qed.
Lemma csum : list_sum (farr Q cT) = n.
Proof. pose proof (csum_first Q (le_n _)) as (E & _). rewrite firstn_all2 in E by (rewrite farr_length; lia). rewrite E. apply cP_Q. Qed.
Lemma cbits : bits_loop (farr Q cT) 1 (repeat false (n + Q + 1)) = Some cbv.
Proof.
  pose proof (bits_loop_ok (farr Q cT) [false] 0) as E. rewrite farr_length, csum in E. cbn [length] in E. replace (n + Q + 1) with (1 + (Q + n + 0)) by lia. change (repeat false (1 + (Q + n + 0))) with ([false] ++ repeat false (Q + n + 0)). rewrite E. f_equal. unfold cbv. cbn [repeat]. rewrite app_nil_r. rewrite <- fl_cl. reflexivity.
Qed.
End Cells.

Lemma nodup_map_on : forall (f : nat -> nat) l, NoDup l -> (forall a b, In a l -> In b l -> f a = f b -> a = b) -> NoDup (map f l).
Proof.
  intros f l N. induction N as [|x l NI N IH]; intros H; cbn [map]; constructor.
  - intros F. apply in_map_iff in F. destruct F as (y & E & Y). assert (y = x) by (apply H; [right; auto|left; auto|auto]). subst y. auto.
  - apply IH. intros a b A B. apply H; right; auto.
Qed.
Lemma rank_ltn : forall a m, rank_of (fun j => j <? a) m = Nat.min m a.
Proof. intros a. induction m; [reflexivity|]. rewrite rank_of_S, IHm. destruct (Nat.ltb_spec m a); cbn [b2nat]; lia. Qed.

Section G.
Variables (s : list nat) (ms cs bl : nat).
Notation n := (length s).
Notation sym := (sy s).
Notation occs := (O s).
Hypothesis SM : forall c, In c s -> c < ms.
Hypothesis MC : ms <= cs.
Hypothesis BP : 0 < ms.
Hypothesis BK : forall k, k < bl -> k * cs < n.
Hypothesis BN : n <= bl * cs.
Lemma SMc : forall c, In c s -> c < cs.
Proof. intros c C. specialize (SM c C). lia. Qed.
Lemma CP : 0 < cs. Proof. lia. Qed.
Lemma sblk : forall j, j < n -> j / cs < bl.
Proof. intros j J. apply Nat.div_lt_upper_bound; lia. Qed.
Lemma ssym : forall j, j < n -> sym j < ms.
Proof. intros j J. apply SM, nth_In. auto. Qed.
(** ** B *)
Notation cellB := (cell s cs bl).
Notation PB := (cP n cellB).
Notation TB := (cT n cellB).
Notation B := (cbv n (ms * bl) cellB).
Lemma cellB_lt : forall j, j < n -> cellB j < ms * bl.
Proof. intros j J. unfold cell. pose proof (ssym j J). pose proof (sblk j J). nia. Qed.
Lemma PB_blk : forall c k, k < bl -> PB (c * bl + k) = less s c + occs c (k * cs).
Proof. intros c k K. apply (P_blk s cs bl SMc CP BK BN c k K). Qed.
Lemma PB_0 : forall c, PB (c * bl) = less s c.
Proof. intros c. pose proof (P_cell s cs bl SMc CP BK BN c 0 ltac:(lia)) as E. rewrite Nat.add_0_r in E. unfold P in E. fold (PB (c * bl)) in E. rewrite E. cbn [Nat.mul]. rewrite Nat.min_0_r. unfold O. rewrite rank_of_0. lia. Qed.
(** ** chunks *)
Notation g := (g s cs).
Notation blen := (blen s cs).
Definition chunk (i : nat) : list nat := firstn cs (skipn (i * cs) s).
Lemma chunk_len : forall i, i < bl -> length (chunk i) = blen i.
Proof. intros i I. unfold chunk, GmrProofs.blen. rewrite firstn_length, skipn_length. pose proof (BK i I). lia. Qed.
Lemma chunk_sy : forall i j, i < bl -> j < blen i -> sy (chunk i) j = sym (i * cs + j).
Proof.
  intros i j I J. pose proof (blen_ok s cs bl SMc CP BK BN i I) as (B1 & B2). unfold sy.
  apply nth_error_nth. unfold chunk. rewrite nth_error_firstn_lt by lia. rewrite nth_error_skipn'. apply nth_error_nth'. lia.
Qed.
Lemma chunk_O : forall i c m, i < bl -> m <= blen i -> O (chunk i) c m = rank_of (g c i) m.
Proof. intros i c m I M. unfold O. apply rank_of_ext. intros j J. rewrite chunk_sy by (auto; lia). reflexivity. Qed.
Lemma chunk_in : forall i c, In c (chunk i) -> c < ms.
Proof. intros i c C. apply SM. unfold chunk in C. rewrite <- (firstn_skipn (i * cs) s). apply in_or_app. right. rewrite <- (firstn_skipn cs (skipn (i * cs) s)). apply in_or_app. auto. Qed.
Lemma at_chunk : forall p, p < n -> p / cs < bl /\ p mod cs < blen (p / cs) /\ p = p / cs * cs + p mod cs /\ p mod cs < cs.
Proof.
  intros p L. pose proof (sblk p L). pose proof (Nat.div_mod p cs ltac:(lia)) as DM. pose proof (Nat.mod_upper_bound p cs ltac:(lia)) as VB. unfold GmrProofs.blen. repeat split; auto; lia.
Qed.
Lemma of_chunk : forall i j, j < cs -> (i * cs + j) / cs = i /\ (i * cs + j) mod cs = j.
Proof. intros i j J. split; symmetry; [apply (Nat.div_unique _ _ _ j)|apply (Nat.mod_unique _ _ i)]; lia. Qed.
(** ** X *)
Definition cellX (j : nat) : nat := j / cs * ms + sym j.
Notation PX := (cP n cellX).
Notation TX := (cT n cellX).
Notation X := (cbv n (bl * ms) cellX).
Lemma cellX_lt : forall j, j < n -> cellX j < bl * ms.
Proof. intros j J. unfold cellX. pose proof (ssym j J). pose proof (sblk j J). nia. Qed.
Lemma PX_0 : forall i, PX (i * ms) = Nat.min n (i * cs).
Proof.
  intros i. unfold cP. rewrite <- rank_ltn. apply rank_of_ext. intros j J. unfold cellX. pose proof (ssym j J) as SJ.
  assert (D : j / cs < i <-> j < i * cs). { pose proof (at_chunk j J) as (_ & _ & E & V). split; intros D; [nia|]. apply Nat.div_lt_upper_bound; lia. }
  destruct (Nat.ltb_spec (j / cs * ms + sym j) (i * ms)), (Nat.ltb_spec j (i * cs)); auto; nia.
Qed.
Lemma TX_blk : forall i c, i < bl -> c < ms -> TX (i * ms + c) = rank_of (g c i) (blen i).
Proof.
  intros i c I C. unfold cT. pose proof (blen_ok s cs bl SMc CP BK BN i I) as (B1 & B2). 
  replace n with (i * cs + (blen i + (n - (i * cs + blen i)))) at 1 by lia. rewrite !rank_of_add.
  assert (EQ : forall j, j < n -> cellX j = i * ms + c <-> j / cs = i /\ sym j = c).
  { intros j J. unfold cellX. pose proof (ssym j J). split; [|intros (-> & ->); auto]. intros E. assert (j / cs = i) by nia. split; auto. nia. }
  rewrite (rank_none (fun j => cellX j =? i * ms + c)).
  2: { intros j J. apply Nat.eqb_neq. rewrite EQ by lia. intros (D & _). pose proof (at_chunk j ltac:(lia)). nia. }
  rewrite (rank_none _ (n - (i * cs + blen i))).
  2: { intros j J. apply Nat.eqb_neq. rewrite EQ by lia. intros (D & _). pose proof (at_chunk (i * cs + (blen i + j)) ltac:(lia)) as (_ & Z & Z2 & _). rewrite D in *. lia. }
  cbn [Nat.add]. rewrite Nat.add_0_r. apply rank_of_ext. intros j J. unfold GmrProofs.g. destruct (of_chunk i j ltac:(lia)) as (D & _).
  apply eq_true_iff_eq. rewrite !Nat.eqb_eq, EQ by lia. tauto.
Qed.
Lemma PX_blk : forall i c, i < bl -> c <= ms -> PX (i * ms + c) = i * cs + less (chunk i) c.
Proof.
  intros i c I. induction c as [|c IH]; intros C.
  - rewrite Nat.add_0_r, PX_0. pose proof (BK i I). replace (less (chunk i) 0) with 0 by (rewrite less_psum; reflexivity). lia.
  - rewrite Nat.add_succ_r, cP_S, IH, TX_blk, less_next by (auto; lia). rewrite chunk_len, chunk_O by auto. lia.
Qed.
(** the place of position p in the permutations *)
Definition yp (p : nat) : nat := p / cs * cs + lfr (chunk (p / cs)) (p mod cs).
Lemma yp_chunk : forall p, p < n -> yp p / cs = p / cs /\ yp p < n.
Proof.
  intros p L. destruct (at_chunk p L) as (K & V & E & _). unfold yp. pose proof (blen_ok s cs bl SMc CP BK BN _ K) as (B1 & B2).
  pose proof (lf_lt (chunk (p / cs)) ms (chunk_in _) (p mod cs)) as LT. rewrite chunk_len in LT by auto. specialize (LT V). split; [apply of_chunk; lia|lia].
Qed.
Lemma yp_eq : forall i v c, i < bl -> v < blen i -> sym (i * cs + v) = c -> yp (i * cs + v) = PX (i * ms + c) + rank_of (g c i) v.
Proof.
  intros i v c I V E. pose proof (blen_ok s cs bl SMc CP BK BN i I) as (B1 & B2). unfold yp. destruct (of_chunk i v ltac:(lia)) as (-> & ->). unfold lfr. rewrite chunk_sy, E by auto. rewrite chunk_O by (auto; lia).
  pose proof (ssym (i * cs + v) ltac:(lia)). rewrite PX_blk by (auto; lia). lia.
Qed.
Lemma yp_inj : forall p q, p < n -> q < n -> yp p = yp q -> p = q.
Proof.
  intros p q L M E. destruct (at_chunk p L) as (K & V & EP & _). destruct (at_chunk q M) as (K2 & V2 & EQ & _).
  pose proof (yp_chunk p L) as (D1 & _). pose proof (yp_chunk q M) as (D2 & _). assert (DD : p / cs = q / cs) by congruence. unfold yp in E. rewrite <- DD in *.
  assert (p mod cs = q mod cs); [|lia]. apply (lf_inj (chunk (p / cs)) ms (chunk_in _)); rewrite ?chunk_len by auto; auto; lia.
Qed.
Lemma yp_surj : forall i, i < n -> exists p, p < n /\ yp p = i.
Proof.
  intros i L. assert (IN : In i (map yp (seq 0 n))).
  { assert (ND : NoDup (map yp (seq 0 n))).
    { apply nodup_map_on; [apply seq_NoDup|]. intros a b A B0. apply in_seq in A, B0. apply yp_inj; lia. }
    assert (IC : incl (seq 0 n) (map yp (seq 0 n))); [|apply IC, in_seq; lia].
    apply (NoDup_length_incl ND); [rewrite map_length; auto|].
    intros x Hx. apply in_map_iff in Hx. destruct Hx as (p & <- & Pp). apply in_seq in Pp. apply in_seq. pose proof (yp_chunk p ltac:(lia)). lia. }
  apply in_map_iff in IN. destruct IN as (p & E & Pp). apply in_seq in Pp. exists p. split; auto. lia.
Qed.

(** ** the queries *)
Variable perm : list nat.
Hypothesis PL : length perm = n.
Hypothesis PP : forall p, p < n -> nth_error perm (yp p) = Some (p mod cs).
Lemma perm_R : forall i x, nth_error perm i = Some x -> x < cs /\ off cs i + x < length perm.
Proof.
  intros i x E. assert (L : i < n) by (rewrite <- PL; apply nth_error_Some; congruence). destruct (yp_surj i L) as (p & P1 & <-). rewrite PP in E by auto. injection E as <-.
  destruct (at_chunk p P1) as (_ & _ & E & V). unfold off. destruct (yp_chunk p P1) as (-> & _). lia.
Qed.
Lemma perm_I : forall i j x, nth_error perm i = Some x -> nth_error perm j = Some x -> off cs i = off cs j -> i = j.
Proof.
  intros i j x E F O. assert (L : i < n) by (rewrite <- PL; apply nth_error_Some; congruence). assert (M : j < n) by (rewrite <- PL; apply nth_error_Some; congruence).
  destruct (yp_surj i L) as (p & P1 & <-). destruct (yp_surj j M) as (q & P2 & <-). rewrite PP in E, F by auto. injection E as <-. injection F as F.
  unfold off in O. destruct (yp_chunk p P1) as (D1 & _). destruct (yp_chunk q P2) as (D2 & _). rewrite D1, D2 in O. f_equal.
  pose proof (at_chunk p P1). pose proof (at_chunk q P2). lia.
Qed.
Lemma perm_at : forall i c r x, i < bl -> c < ms -> nth_error (positions (g c i) (blen i)) r = Some x -> nth_error perm (PX (i * ms + c) + r) = Some x.
Proof.
  intros i c r x I C H. assert (R : r < rank_of (g c i) (blen i)) by (apply nth_error_Some; congruence). destruct (nth_positions (g c i) (blen i) r 0 R) as ((N1 & N2) & N3). rewrite (nth_error_nth _ _ _ H) in *. destruct (blen_ok s cs bl SMc CP BK BN i I) as (B1 & B2).
  pose proof (PP (i * cs + x) ltac:(lia)) as E. unfold GmrProofs.g in N1. apply Nat.eqb_eq in N1. rewrite (yp_eq i x c) in E by auto. destruct (of_chunk i x ltac:(lia)) as (_ & M). rewrite M in E. replace r with (rank_of (g c i) x) by lia. exact E.
Qed.
Lemma PX_end : forall i c, i < bl -> c < ms -> PX (i * ms + c + 1) = PX (i * ms + c) + rank_of (g c i) (blen i).
Proof. intros i c I C. rewrite Nat.add_1_r, cP_S, TX_blk by auto. reflexivity. Qed.
Lemma pslice : forall i c, i < bl -> c < ms -> slice perm (PX (i * ms + c)) (PX (i * ms + c + 1)) = Some (positions (g c i) (blen i)).
Proof.
  intros i c K C. unfold slice. pose proof (PX_end i c K C) as E. rewrite PL. rewrite (proj2 (Nat.leb_le _ _) (cP_le n cellX (i * ms + c + 1))), (proj2 (Nat.leb_le (PX (i * ms + c)) _)) by lia. cbn [andb]. f_equal.
  rewrite E. replace (PX (i * ms + c) + rank_of (g c i) (blen i) - PX (i * ms + c)) with (length (positions (g c i) (blen i))) by (unfold rank_of; lia). apply seg_gen. intros r x Xr. apply perm_at; auto.
Qed.
Variables (ts sigma : nat) (ips : invperm).
Hypothesis IP : forall i x, nth_error perm i = Some x -> mp_get cs perm ips (2 * ts + 2) (off cs i + x) = Some i.
Definition V : gmr2 := mkgmr2 n ms cs bl sigma B X perm ips.
Lemma ips_ok : forall p, p < n -> gm_ips ts V p = Some (yp p).
Proof.
  intros p L. unfold gm_ips. cbn [V q_cs q_perm q_ips]. rewrite <- (IP (yp p) (p mod cs) (PP p L)). f_equal. unfold off. destruct (yp_chunk p L) as (-> & _). pose proof (at_chunk p L). lia.
Qed.
Section A.
Variable p : nat.
Hypothesis L : p < n.
Let i := p / cs.
Let v := p mod cs.
Let c := sym p.
Lemma p_facts : i < bl /\ v < blen i /\ p = i * cs + v /\ c < ms /\ i * ms + c < bl * ms /\ c * bl + i < ms * bl /\ rank_of (g c i) v < rank_of (g c i) (blen i) /\
  yp p = PX (i * ms + c) + rank_of (g c i) v /\ occs c p = occs c (i * cs) + rank_of (g c i) v.
Proof.
  destruct (at_chunk p L) as (K & VB & E & _). fold i v in K, VB, E. pose proof (ssym p L) as C. fold c in C.
  repeat split; auto; try nia.
  - pose proof (rank_of_mono (g c i) (S v) (blen i) ltac:(lia)) as M. rewrite rank_of_S in M. unfold GmrProofs.g at 2 in M. rewrite <- E in M. fold c in M. rewrite Nat.eqb_refl in M. cbn [b2nat] in M. lia.
  - rewrite E at 1. apply yp_eq; auto. rewrite <- E. reflexivity.
  - rewrite E at 1. apply (O_g s cs).
Qed.
Lemma sel_at : t_sel1 X (yp p + 1) = Some (i * ms + c + 1 + yp p).
Proof.
  destruct p_facts as (F1 & F2 & F3 & F4 & F5 & F6 & F7 & F8 & F9). rewrite F8. rewrite csel1; auto; [f_equal; lia|]. rewrite TX_blk by auto. auto.
Qed.
Lemma gm_get_ok : gm_get ts V p = Some c.
Proof. unfold gm_get. rewrite ips_ok by auto. cbn [obind V q_x q_cs q_ms]. fold i. rewrite sel_at. cbn [obind]. apply csub_some. lia. Qed.
Lemma gm_isel_ok : gm_isel ts V p = Some (occs c p, c).
Proof.
  destruct p_facts as (F1 & F2 & F3 & F4 & F5 & F6 & F7 & F8 & F9). unfold gm_isel. rewrite ips_ok by auto. cbn [obind V q_x q_cs q_ms q_b q_ch]. fold i. rewrite sel_at. cbn [obind]. rewrite (csub_some _ _ c) by lia. cbn [obind].
  rewrite !cones by nia. cbn [obind]. rewrite PB_0, PB_blk by auto. rewrite (csub_some _ _ (occs c (i * cs))) by lia. cbn [obind].
  replace (c + 1 + i * ms) with (i * ms + c + 1) by lia. rewrite csel0 by lia. cbn [obind]. rewrite (csub_some _ _ (rank_of (g c i) v)) by lia. cbn [obind]. rewrite F9. reflexivity.
Qed.
Lemma gm_select_ok : gm_select V (occs c p + 1) c = Some p.
Proof.
  destruct p_facts as (F1 & F2 & F3 & F4 & F5 & F6 & F7 & F8 & F9). unfold gm_select. cbn [V q_x q_cs q_ms q_b q_ch q_perm]. rewrite csel0 by nia. cbn [obind]. rewrite (csub_some _ _ (less s c)) by (rewrite PB_0; lia). cbn [obind].
  replace (less s c + (occs c p + 1)) with (PB (c * bl + i) + rank_of (g c i) v + 1) by (rewrite PB_blk by auto; lia).
  rewrite csel1; auto. 2: { change (TB (c * bl + i)) with (T s cs bl (c * bl + i)). rewrite T_blk by (auto using SMc, CP). auto. }
  cbn [obind]. rewrite (csub_some _ _ i) by (rewrite PB_blk by auto; lia). cbn [obind]. rewrite csel0 by lia. cbn [obind]. rewrite (csub_some _ _ (occs c (i * cs))) by (rewrite PB_blk by auto; lia). cbn [obind].
  rewrite csel0 by lia. cbn [obind]. rewrite (csub_some _ _ (rank_of (g c i) v + 1)) by lia. cbn [obind]. rewrite (csub_some _ _ (yp p)) by lia. cbn [obind]. rewrite PP by auto. cbn [obind]. fold v. f_equal. lia.
Qed.
End A.
Lemma gm_rank_ok : forall i c, i <= n -> gm_rank V i c = Some (occs c i).
Proof.
  intros i c I. unfold gm_rank. cbn [V q_x q_cs q_ms q_b q_ch q_perm]. destruct (Nat.eqb_spec i 0) as [->|NZ]; [reflexivity|]. cbn [orb]. destruct (Nat.ltb_spec (ms - 1) c) as [L|L].
  - f_equal. symmetry. apply rank_none. intros j J. apply Nat.eqb_neq. pose proof (ssym j ltac:(lia)). lia.
  - destruct (at_chunk (i - 1) ltac:(lia)) as (K & VB & E & _). set (k := (i - 1) / cs) in *. set (v := (i - 1) mod cs) in *.
    assert (C : c < ms) by lia. assert (F5 : k * ms + c < bl * ms) by nia. assert (F6 : c * bl + k < ms * bl) by nia.
    rewrite !cones by nia. cbn [obind]. rewrite PB_0, PB_blk by auto. rewrite (csub_some _ _ (occs c (k * cs))) by lia. cbn [obind].
    replace (k * ms + 1 + c) with (k * ms + c + 1) by lia. replace (k * ms + 2 + c) with (k * ms + c + 1 + 1) by lia. rewrite !cones by lia. cbn [obind]. rewrite pslice by auto. cbn [obind].
    assert (F : find_idx (fun x => v + 1 <=? x) (positions (g c k) (blen k)) = rank_of (g c k) (v + 1)) by (apply find_pos; lia).
    replace (if PX (k * ms + c + 1) - PX (k * ms + c) <? 50 then Some (find_idx (fun x => v <? x) (positions (g c k) (blen k))) else lower_bound (positions (g c k) (blen k)) (v + 1)) with (Some (rank_of (g c k) (v + 1))).
    2: { destruct (PX (k * ms + c + 1) - PX (k * ms + c) <? 50); [|unfold lower_bound; rewrite sorted_b by apply positions_sorted; rewrite F; reflexivity]. rewrite <- F. f_equal. apply find_idx_ext. intros x. unfold Nat.ltb. rewrite Nat.add_1_r. reflexivity. }
    cbn [obind]. f_equal. replace i with (k * cs + (v + 1)) at 1 by lia. rewrite (O_g s cs). lia.
Qed.
End G.
