(** * Proofs about the constructor of wt_gmr *)
From Coq Require Import NArith List Bool Arith Lia Sorted.
From Verif Require Import Base SpecBits RankSelect AbsVec FnArr WtBase WtProofs SpecCsa AlphabetProofs BitsProofs3 CsaProofs3 RlmnProofs WtapProofs InvPerm MultiPerm MultiPermProofs Gmr GmrProofs GmrProofs2 Gmr2 Gmr2Proofs.
Import ListNotations.

Lemma x_ones_ok : forall t X xp r, xp + 1 = length X -> x_ones t xp (X ++ repeat false (t + r)) = Some (xp + t, X ++ repeat true t ++ repeat false r).
Proof.
  induction t as [|t IH]; intros X xp r L; [cbn; rewrite Nat.add_0_r; reflexivity|]. cbn [x_ones Nat.add]. rewrite aset_some by (rewrite app_length; cbn [repeat length]; lia). cbn [obind]. rewrite upd_app_r by lia. rewrite L, Nat.sub_diag. cbn [repeat upd].
  pose proof (IH (X ++ [true]) (length X) r ltac:(rewrite app_length; cbn; lia)) as E. rewrite <- !app_assoc in E. cbn [app] in E. rewrite E. do 2 f_equal. lia.
Qed.
Lemma x_loop_ok : forall A X xp r, xp + 1 = length X -> exists xp', xp' + 1 = length (X ++ fl A) /\
  x_loop A xp (X ++ repeat false (length A + list_sum A + r)) = Some (xp', (X ++ fl A) ++ repeat false r).
Proof.
  induction A as [|t A IH]; intros X xp r L; [exists xp; cbn [fl flat_map x_loop length list_sum fold_right Nat.add]; rewrite app_nil_r; auto|]. cbn [x_loop length].
  replace (S (length A) + list_sum (t :: A) + r) with (t + (1 + (length A + list_sum A + r))) by (change (list_sum (t :: A)) with (t + list_sum A); lia). rewrite x_ones_ok by auto. cbn [obind].
  destruct (IH (X ++ repeat true t ++ [false]) (xp + t + 1) r) as (xp' & E1 & E2); [rewrite !app_length, repeat_length; cbn; lia|].
  exists xp'. change (fl (t :: A)) with ((repeat true t ++ [false]) ++ fl A). rewrite app_assoc. split; auto. rewrite <- E2. f_equal. rewrite <- !app_assoc. reflexivity.
Qed.

Section Chunk.
Variables (ch : list nat) (ms w2 w1 : nat).
Hypothesis SM : forall c, In c ch -> c < ms.
Hypothesis W2 : forall x, x <= length ch -> wr w2 x = x.
Hypothesis W1 : forall x, x < length ch -> wr w1 x = x.
Notation m := (length ch).
Lemma cs_lt : forall j, j < m -> sy ch j < ms.
Proof. intros j J. apply SM, nth_In. auto. Qed.
Lemma cnt_ok : forall k i, i + k = m -> cnt_loop w2 (skipn i ch) (farr ms (fun c => O ch c i)) = Some (farr ms (fun c => O ch c m)).
Proof.
  induction k as [|k IH]; intros i E; [rewrite skipn_all2 by lia; replace i with m by lia; reflexivity|]. rewrite (skip_cons ch ms SM) by lia. cbn [cnt_loop]. pose proof (cs_lt i ltac:(lia)) as C. rewrite farr_nth_error by auto. cbn [obind].
  rewrite W2. 2: { pose proof (rank_of_le (fun j => sy ch j =? sy ch i) i). unfold O. lia. }
  rewrite farr_aset by auto. cbn [obind]. rewrite <- (IH (i + 1)) by lia. f_equal. apply farr_ext. intros c L. rewrite O_S. destruct (Nat.eqb_spec c (sy ch i)) as [->|NE]; [rewrite Nat.eqb_refl; cbn [b2nat]; lia|]. destruct (Nat.eqb_spec (sy ch i) c); [congruence|]. cbn [b2nat]. lia.
Qed.
Lemma start_gen : forall k a, start_loop w2 (map (fun c => O ch c m) (seq a k)) (less ch a) = map (less ch) (seq a k).
Proof. induction k as [|k IH]; intros a; [reflexivity|]. cbn [seq map start_loop]. rewrite W2 by apply less_le. f_equal. rewrite <- less_next. apply IH. Qed.
Lemma perm_ok : forall n base, base + m <= n -> forall k i f, i + k = m -> (forall p, p < i -> f (base + lfr ch p) = p) ->
  exists f', perm_loop w2 w1 base (skipn i ch) i (farr ms (fun c => less ch c + O ch c i)) (farr n f) = Some (farr n f') /\ (forall p, p < m -> f' (base + lfr ch p) = p) /\ (forall y, y < base -> f' y = f y).
Proof.
  intros n base BM. induction k as [|k IH]; intros i f E F; [rewrite skipn_all2 by lia; exists f; cbn [perm_loop]; repeat split; auto; intros p L; apply F; lia|]. rewrite (skip_cons ch ms SM) by lia. cbn [perm_loop]. pose proof (cs_lt i ltac:(lia)) as C. rewrite farr_nth_error by auto. cbn [obind]. rewrite farr_aset by auto. cbn [obind]. pose proof (lf_lt ch ms SM i ltac:(lia)) as LL. unfold lfr in LL.
  rewrite farr_aset by lia. cbn [obind]. rewrite W2 by lia. rewrite W1 by lia.
  destruct (IH (i + 1) (fun y => if y =? base + (less ch (sy ch i) + O ch (sy ch i) i) then i else f y)) as (f' & R & G1 & G2); try lia.
  - intros p L. destruct (Nat.eq_dec p i) as [->|NE]; [unfold lfr; rewrite Nat.eqb_refl; auto|]. destruct (Nat.eqb_spec (base + lfr ch p) (base + (less ch (sy ch i) + O ch (sy ch i) i))) as [Z|Z]; [|apply F; lia]. exfalso. apply NE. apply (lf_inj ch ms SM); try lia. unfold lfr at 2. lia.
  - exists f'. split; [|split; auto].
    + rewrite <- R. f_equal. apply farr_ext. intros c L. rewrite O_S. destruct (Nat.eqb_spec c (sy ch i)) as [->|NE]; [rewrite Nat.eqb_refl; cbn [b2nat]; lia|]. destruct (Nat.eqb_spec (sy ch i) c); [congruence|]. cbn [b2nat]. lia.
    + intros y Y. rewrite G2 by auto. destruct (Nat.eqb_spec y (base + (less ch (sy ch i) + O ch (sy ch i) i))); auto. lia.
Qed.
End Chunk.

Lemma map_seq_add : forall q a z, map (fun c => a + c) (seq z q) = seq (a + z) q.
Proof. induction q as [|q IH]; intros a z; cbn [seq map]; auto. f_equal. rewrite IH. f_equal. lia. Qed.
Lemma fl_app : forall A B, fl (A ++ B) = fl A ++ fl B.
Proof. intros. unfold fl. apply flat_map_app. Qed.

Section G.
Variables (s : list nat) (ms cs bl w : nat).
Notation n := (length s).
Hypothesis SM : forall c, In c s -> c < ms.
Hypothesis MC : ms <= cs.
Hypothesis BP : 0 < ms.
Hypothesis BK : forall k, k < bl -> k * cs < n.
Hypothesis BN : n <= bl * cs.
Hypothesis CW : cs = 2 ^ (w + 1).
Notation TX := (cT n (cellX s ms cs)).
Notation yp := (yp s cs).
Lemma wr2 : forall x, x <= cs -> wr (w + 2) x = x.
Proof. intros x L. unfold wr. apply Nat.mod_small. replace (w + 2) with (S (w + 1)) by lia. rewrite Nat.pow_succ_r', <- CW. lia. Qed.
Lemma wr1 : forall x, x < cs -> wr (w + 1) x = x.
Proof. intros x L. unfold wr. apply Nat.mod_small. rewrite <- CW. lia. Qed.
Definition D (i : nat) : list nat := map TX (seq (i * ms) ((bl - i) * ms)).
Lemma D_S : forall i, i < bl -> D i = map TX (seq (i * ms) ms) ++ D (i + 1).
Proof. intros i I. unfold D. replace ((bl - i) * ms) with (ms + (bl - (i + 1)) * ms) by nia. rewrite seq_app, map_app. do 3 f_equal. lia. Qed.
Lemma D_0 : length (D 0) = bl * ms /\ list_sum (D 0) = n.
Proof.
  unfold D. rewrite Nat.sub_0_r, Nat.mul_0_l. change (map TX (seq 0 (bl * ms))) with (farr (bl * ms) TX). split; [apply farr_length|]. apply csum. apply (cellX_lt s ms cs bl SM MC BP BK BN).
Qed.
Lemma chunk_ok : forall k i xp f, i + k = bl -> xp + 1 = length (false :: fl (farr (i * ms) TX)) -> (forall p, p < n -> p < i * cs -> f (yp p) = p mod cs) ->
  exists f', chunk_loop s cs ms w k i xp ((false :: fl (farr (i * ms) TX)) ++ repeat false (length (D i) + list_sum (D i))) (farr n f) = Some (cbv n (bl * ms) (cellX s ms cs), farr n f') /\
    forall p, p < n -> f' (yp p) = p mod cs.
Proof.
  induction k as [|k IH]; intros i xp f E XP F.
  - cbn [chunk_loop]. exists f. replace i with bl by lia. split; [|intros p L; apply F; auto; replace i with bl by lia; lia]. do 2 f_equal. unfold D. rewrite Nat.sub_diag. cbn [Nat.mul seq map length list_sum fold_right Nat.add repeat]. rewrite app_nil_r. unfold cbv. apply fl_cl.
  - cbn [chunk_loop]. assert (I : i < bl) by lia. set (ch := firstn cs (skipn (i * cs) s)). change ch with (chunk s cs i) in *. clear ch. set (ch := chunk s cs i).
    pose proof (chunk_len s ms cs bl SM MC BP BK BN i I) as CL. fold ch in CL. destruct (blen_ok s cs bl (SMc s ms cs bl SM MC BP BK BN) (CP s ms cs bl SM MC BP BK BN) BK BN i I) as (B1 & B2).
    assert (CI : forall c, In c ch -> c < ms) by (intros c; apply (chunk_in s ms cs SM)).
    assert (W2 : forall x, x <= length ch -> wr (w + 2) x = x) by (intros; apply wr2; lia). assert (W1 : forall x, x < length ch -> wr (w + 1) x = x) by (intros; apply wr1; lia).
    pose proof (cnt_ok ch ms (w + 2) (w + 1) CI W2 W1 (length ch) 0 ltac:(lia)) as CN. cbn [skipn] in CN. rewrite farr_repeat. rewrite (farr_ext _ _ (fun _ => 0) (fun c => O ch c 0)) by (intros; unfold O; rewrite rank_of_0; reflexivity). rewrite CN. cbn [obind].
    assert (EA : farr ms (fun c => O ch c (length ch)) = map TX (seq (i * ms) ms)).
    { unfold farr. replace (seq (i * ms) ms) with (map (fun c => i * ms + c) (seq 0 ms)). 2: { rewrite map_seq_add, Nat.add_0_r. reflexivity. }
      rewrite map_map. apply map_ext_in. intros c C. apply in_seq in C. rewrite (TX_blk s ms cs bl SM MC BP BK BN) by (auto; lia). rewrite CL. apply (chunk_O s ms cs bl SM MC BP BK BN); auto. }
    rewrite EA, D_S by auto. set (A := map TX (seq (i * ms) ms)). rewrite app_length, list_sum_app. replace (length A + length (D (i + 1)) + (list_sum A + list_sum (D (i + 1)))) with (length A + list_sum A + (length (D (i + 1)) + list_sum (D (i + 1)))) by lia.
    destruct (x_loop_ok A (false :: fl (farr (i * ms) TX)) xp (length (D (i + 1)) + list_sum (D (i + 1))) XP) as (xp' & XE & XL). rewrite XL. cbn [obind].
    assert (SA : start_loop (w + 2) A 0 = farr ms (fun c => less ch c + O ch c 0)).
    { unfold A. rewrite <- EA. pose proof (start_gen ch (w + 2) W2 ms 0) as ST. replace (less ch 0) with 0 in ST by (rewrite less_psum; reflexivity). unfold farr at 1. rewrite ST. change (map (less ch) (seq 0 ms)) with (farr ms (less ch)). apply farr_ext. intros; unfold O; rewrite rank_of_0; lia. }
    rewrite SA.
    destruct (perm_ok ch ms (w + 2) (w + 1) CI W2 W1 n (i * cs) ltac:(lia) (length ch) 0 f ltac:(lia) ltac:(intros; lia)) as (f' & PE & P1 & P2). cbn [skipn] in PE. rewrite PE. cbn [obind].
    assert (FE : (false :: fl (farr (i * ms) TX)) ++ fl A = false :: fl (farr ((i + 1) * ms) TX)).
    { cbn [app]. f_equal. rewrite <- fl_app. f_equal. unfold farr, A. replace ((i + 1) * ms) with (i * ms + ms) by lia. rewrite seq_app, map_app. reflexivity. }
    rewrite FE in XE |- *. apply IH; auto; [lia|]. intros p L M. destruct (at_chunk s ms cs bl SM MC BP BK BN p L) as (K & V & EP & VV). unfold Gmr2Proofs.yp.
    destruct (Nat.lt_ge_cases p (i * cs)) as [LT|GE].
    + pose proof (yp_chunk s ms cs bl SM MC BP BK BN p L) as (Y1 & Y2). fold (yp p). rewrite P2; auto. pose proof (Nat.div_mod (yp p) cs ltac:(lia)). pose proof (Nat.mod_upper_bound (yp p) cs ltac:(lia)). rewrite Y1 in H. assert (p / cs < i) by (apply Nat.div_lt_upper_bound; lia). clear - H H0 H1. nia.
    + assert (p / cs = i) as DD by nia. rewrite DD in *. fold ch. apply P1. rewrite CL. auto.
Qed.
End G.
Lemma max_in : forall s, max_loop s 0 = 0 \/ In (max_loop s 0) s.
Proof.
  assert (G : forall s m, max_loop s m = m \/ In (max_loop s m) s); [|intros s; apply G]. induction s as [|x s IH]; intros m; cbn [max_loop]; auto. destruct (IH (if m <? x then x else m)) as [E|E]; [|right; right; auto]. rewrite E. destruct (m <? x); auto. right. left. auto.
Qed.
Lemma pow63 : forall x, (N.of_nat x < 2 ^ 63)%N -> x < 2 ^ 63.
Proof. intros x L. change 63%N with (N.of_nat 63) in L. change 2%N with (N.of_nat 2) in L. rewrite <- Nnat.Nat2N.inj_pow in L. revert L. generalize (2 ^ 63). intros y L. lia. Qed.
Lemma gm_make_ok : forall ts s, 1 <= ts -> (N.of_nat (length s) < W64)%N -> (forall c, In c s -> (N.of_nat c < 2 ^ 63)%N) -> exists ms cs bl perm ips sigma,
  (forall c, In c s -> c < ms) /\ ms <= cs /\ 0 < ms /\ (forall k, k < bl -> k * cs < length s) /\ length s <= bl * cs /\
  length perm = length s /\ (forall p, p < length s -> nth_error perm (yp s cs p) = Some (p mod cs)) /\
  (forall i x, nth_error perm i = Some x -> mp_get cs perm ips (2 * ts + 2) (off cs i + x) = Some i) /\
  gm_make ts s = Some (V s ms cs bl perm sigma ips) /\ sigma = length (nodup Nat.eq_dec s).
Proof.
  intros ts s TS NW SW. set (ms := max_loop s 0 + 1). set (w := Nat.log2 (ms - 1)). set (cs := 2 ^ (w + 1)). set (bl := (length s + cs - 1) / cs).
  assert (BP : 0 < ms) by (unfold ms; lia).
  assert (MC : ms <= cs). { unfold cs, w. destruct (Nat.eq_dec (ms - 1) 0) as [Z|NZ]; [rewrite Z; cbn; lia|]. pose proof (Nat.log2_spec (ms - 1) ltac:(lia)) as (_ & U). rewrite Nat.add_1_r. lia. }
  destruct (ceil_blocks (length s) cs ltac:(lia)) as (BK & BN). fold bl in BK, BN.
  assert (SM : forall c, In c s -> c < ms) by (intros c C; pose proof (proj2 (max_loop_ok s 0) c C); unfold ms; lia).
  assert (WW : w + 1 < 64).
  { assert (MX : ms - 1 = 0 \/ In (ms - 1) s) by (unfold ms; rewrite Nat.add_sub; apply max_in). unfold w. destruct MX as [->|MX]; [cbn; lia|]. specialize (SW _ MX).
    destruct (Nat.eq_dec (ms - 1) 0) as [Z|NZ]; [rewrite Z; cbn; lia|]. assert (Nat.log2 (ms - 1) < 63); [|lia]. apply Nat.log2_lt_pow2; [lia|].
    apply pow63. exact SW. }
  destruct (chunk_ok s ms cs bl w SM MC BP BK BN eq_refl bl 0 0 (fun _ => 0) ltac:(lia) ltac:(reflexivity) ltac:(intros; lia)) as (f & CH & CF).
  assert (PL : length (farr (length s) f) = length s) by apply farr_length.
  assert (PP : forall p, p < length s -> nth_error (farr (length s) f) (yp s cs p) = Some (p mod cs)).
  { intros p L. rewrite farr_nth_error by (apply (yp_chunk s ms cs bl SM MC BP BK BN p L)). rewrite CF by auto. reflexivity. }
  destruct (mp_ok ts cs (farr (length s) f) TS ltac:(lia) (perm_R s ms cs bl SM MC BP BK BN _ PL PP) (perm_I s ms cs bl SM MC BP BK BN _ PL PP)) as (ips & IM & IG). { rewrite PL. auto. }
  exists ms, cs, bl, (farr (length s) f), ips, (length (nodup Nat.eq_dec s)). do 8 (split; [auto|]). split; [|reflexivity].
  unfold gm_make. fold ms. fold w. replace (w + 1 <? 64) with true by (symmetry; apply Nat.ltb_lt; auto). fold cs. fold bl.
  assert (W2 : forall x, x <= cs -> wr (w + 2) x = x) by (intros; eapply (wr2 s ms cs bl w); eauto).
  pose proof (tmp_gen s cs bl (SMc s ms cs bl SM MC BP BK BN) (CP s ms cs bl SM MC BP BK BN) BK BN (w + 2) (ms * bl) (cellB_lt s ms cs bl SM MC BP BK BN) W2 (length s) 0 0 0 ltac:(lia) ltac:(lia) ltac:(lia)) as TO. cbn [skipn] in TO.
  rewrite (farr_repeat _ (ms * bl)), (farr_repeat _ (length s)). rewrite (farr_ext _ (ms * bl) (fun _ => 0) (Ti s cs bl 0)) by reflexivity. rewrite TO. cbn [obind].
  change (T s cs bl) with (cT (length s) (cell s cs bl)). rewrite (cbits (length s) (ms * bl) (cell s cs bl) (cellB_lt s ms cs bl SM MC BP BK BN)). cbn [obind].
  pose proof (D_0 s ms cs bl SM MC BP BK BN) as (D1 & D2). rewrite D1, D2 in CH.
  replace (repeat false (length s + bl * ms + 1)) with ((false :: fl (farr (0 * ms) (cT (length s) (cellX s ms cs)))) ++ repeat false (bl * ms + length s)) by (replace (length s + bl * ms + 1) with (S (bl * ms + length s)) by lia; reflexivity).
  rewrite CH. cbn [obind]. rewrite IM. cbn [obind]. unfold V. do 2 f_equal.
  replace (tl (cbv (length s) (ms * bl) (cell s cs bl))) with (fl (farr (ms * bl) (T s cs bl))) by (unfold cbv; rewrite <- fl_cl; reflexivity). rewrite <- (npos_nodup s ms SM).
  rewrite (npos_ext (occ s) (fun c => O s c (length s)) ms) by (intros c _; rewrite O_occ by lia; rewrite firstn_all; reflexivity).
  destruct (Nat.eq_dec bl 0) as [Z|NZ].
  - rewrite Z, Nat.mul_0_r. cbn. destruct s as [|x s]; [reflexivity|]. cbn [length] in BN. rewrite Z in BN. lia.
  - apply (sigma_gen s cs bl (SMc s ms cs bl SM MC BP BK BN) (CP s ms cs bl SM MC BP BK BN) BK BN ms (ms * bl) 0 0 true 0 0); try lia; cbn [Nat.mul Nat.add]; [|rewrite Nat.ltb_irrefl; reflexivity]. rewrite Nat.eqb_refl. destruct (0 =? bl); reflexivity.
Qed.
