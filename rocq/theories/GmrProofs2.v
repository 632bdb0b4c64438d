(** * Proofs about the constructor of wt_gmr_rs *)
From Coq Require Import List Bool Arith Lia Sorted.
From Verif Require Import Base SpecBits RankSelect AbsVec FnArr WtBase WtProofs SpecCsa AlphabetProofs BitsProofs3 CsaProofs3 RlmnProofs WtapProofs Gmr GmrProofs.
Import ListNotations.

Lemma wr_id : forall x y, x <= y -> wr (Nat.log2 y + 1) x = x.
Proof.
  intros x y L. unfold wr. apply Nat.mod_small. destruct y as [|y]; [cbn; lia|]. pose proof (Nat.log2_spec (S y) ltac:(lia)) as (_ & U). rewrite Nat.add_1_r. lia.
Qed.
Lemma max_loop_ok : forall s m, m <= max_loop s m /\ forall c, In c s -> c <= max_loop s m.
Proof.
  induction s as [|x s IH]; intros m; cbn [max_loop]; [split; [lia|intros c []]|]. destruct (IH (if m <? x then x else m)) as (A & B). destruct (Nat.ltb_spec m x); split; try lia; intros c [<-|C]; auto; lia.
Qed.
Definition fl (A : list nat) : list bool := flat_map (fun t => repeat true t ++ [false]) A.
Lemma fl_cl : forall A, false :: fl A = cl A ++ [false].
Proof. induction A as [|t A IH]; [reflexivity|]. unfold fl, cl in *. cbn [flat_map]. rewrite <- app_assoc. cbn [app]. rewrite IH, <- app_assoc. reflexivity. Qed.
Lemma ones_loop_ok : forall t X r, ones_loop t (length X) (X ++ repeat false (t + r)) = Some (X ++ repeat true t ++ repeat false r).
Proof.
  induction t as [|t IH]; intros X r; [reflexivity|]. cbn [ones_loop Nat.add]. rewrite aset_some by (rewrite app_length; cbn [repeat length]; lia). cbn [obind]. rewrite upd_app_r by lia. rewrite Nat.sub_diag. cbn [repeat upd].
  pose proof (IH (X ++ [true]) r) as E. rewrite app_length, <- !app_assoc in E. cbn [length app] in E. exact E.
Qed.
Lemma bits_loop_ok : forall A X r, bits_loop A (length X) (X ++ repeat false (length A + list_sum A + r)) = Some (X ++ fl A ++ repeat false r).
Proof.
  induction A as [|t A IH]; intros X r; [reflexivity|]. cbn [bits_loop]. change (list_sum (t :: A)) with (t + list_sum A). cbn [length]. replace (S (length A) + (t + list_sum A) + r) with (t + (1 + (length A + list_sum A + r))) by lia. rewrite ones_loop_ok. cbn [obind].
  pose proof (IH (X ++ repeat true t ++ [false]) r) as E. rewrite !app_length, repeat_length in E. cbn [length] in E. rewrite <- !app_assoc in E. cbn [app] in E. replace (length X + t + 1) with (length X + (t + 1)) by lia. change (repeat false (1 + (length A + list_sum A + r))) with (false :: repeat false (length A + list_sum A + r)). rewrite E. unfold fl. cbn [flat_map]. rewrite <- !app_assoc. reflexivity.
Qed.
Lemma sigma_skip : forall bl t rest b sg, b <> bl -> sigma_loop bl (repeat true t ++ rest) false b sg = sigma_loop bl rest false b sg.
Proof. induction t as [|t IH]; intros rest b sg B; [reflexivity|]. cbn [repeat app sigma_loop]. destruct (Nat.eqb_spec b bl); [contradiction|]. apply IH. auto. Qed.
Lemma sigma_cell : forall bl t rest w b sg r w', r < bl -> (if b =? bl then (0, true) else (b, w)) = (r, w') ->
  sigma_loop bl (repeat true t ++ false :: rest) w b sg = sigma_loop bl rest (w' && (t =? 0)) (r + 1) (sg + b2nat (w' && negb (t =? 0))).
Proof.
  intros bl t rest w b sg r w' R E. destruct t as [|t]; cbn [repeat app sigma_loop]; rewrite E.
  - rewrite andb_true_r, andb_false_r. cbn [b2nat]. rewrite Nat.add_0_r. reflexivity.
  - cbn [Nat.eqb negb]. rewrite andb_true_r, andb_false_r. destruct w'; cbn [b2nat]; rewrite sigma_skip by lia; cbn [sigma_loop]; destruct (Nat.eqb_spec r bl); try lia; rewrite ?Nat.add_0_r; reflexivity.
Qed.

Section G.
Variables (s : list nat) (bs bl : nat).
Notation n := (length s).
Notation sym := (sy s).
Notation occs := (O s).
Notation cel := (cell s bs bl).
Notation T := (T s bs bl).
Notation P := (P s bs bl).
Notation Q := (bs * bl).
Hypothesis SM : forall c, In c s -> c < bs.
Hypothesis BP : 0 < bs.
Hypothesis BK : forall k, k < bl -> k * bs < n.
Hypothesis BN : n <= bl * bs.
Lemma cel_lt : forall j, j < n -> cel j < Q.
Proof. intros j J. unfold cell. pose proof (sym_lt s bs SM j J). pose proof (blk s bs bl SM BP BK BN j J). nia. Qed.
Lemma blkB : forall j, j < n -> j / bs < bl.
Proof. intros j J. apply (blk s bs bl SM BP BK BN). auto. Qed.
Lemma T_le : forall j, j < n -> T (cel j) <= bs.
Proof. intros j J. unfold cell. rewrite T_blk by (auto using blkB). pose proof (rank_of_le (g s bs (sym j) (j / bs)) (blen s bs (j / bs))). pose proof (blen_ok s bs bl SM BP BK BN (j / bs) (blkB j J)). lia. Qed.
Lemma P_Q : P Q = n.
Proof. unfold GmrProofs.P. apply rank_of_all_true. intros j J. apply Nat.ltb_lt. apply cel_lt. auto. Qed.
Lemma occ_P : forall c, P (c * bl + bl) = P (c * bl) + occs c n.
Proof. intros c. pose proof (P_cell s bs bl SM BP BK BN c 0 ltac:(lia)) as E. rewrite Nat.add_0_r in E. rewrite E, P_cell by auto. replace (Nat.min n (bl * bs)) with n by lia. replace (Nat.min n (0 * bs)) with 0 by lia. unfold O at 2. rewrite rank_of_0. lia. Qed.
Definition Ti (i q : nat) : nat := rank_of (fun j => cel j =? q) i.
Lemma step_blk : forall i off j off' j', i = off * bs + j -> j <= bs -> (if j =? bs then (off + 1, 0) else (off, j)) = (off', j') -> i = off' * bs + j' /\ j' < bs /\ i / bs = off' /\ i mod bs = j'.
Proof.
  intros i off j off' j' E J F. assert (H : i = off' * bs + j' /\ j' < bs) by (destruct (Nat.eqb_spec j bs); injection F as <- <-; split; lia). destruct H as (H1 & H2). repeat split; auto; symmetry; [apply (Nat.div_unique _ _ _ j')|apply (Nat.mod_unique _ _ off')]; lia.
Qed.
Lemma tmp_gen : forall w q0, (forall j, j < n -> cel j < q0) -> (forall x, x <= bs -> wr w x = x) ->
  forall k i off j, i + k = n -> i = off * bs + j -> j <= bs -> tmp_loop bs bl w (skipn i s) off j (farr q0 (Ti i)) = Some (farr q0 T).
Proof.
  intros w q0 CQ WR. induction k as [|k IH]; intros i off j N E J; [rewrite skipn_all2 by lia; cbn [tmp_loop]; replace i with n by lia; reflexivity|]. rewrite (skip_cons s bs SM) by lia. cbn [tmp_loop]. destruct (if j =? bs then (off + 1, 0) else (off, j)) as [off' j'] eqn:F. destruct (step_blk i off j off' j' E J F) as (E' & J' & D & M).
  replace (sym i * bl + off') with (cel i) by (unfold cell; rewrite D; reflexivity). pose proof (CQ i ltac:(lia)) as CL. rewrite farr_nth_error by auto. cbn [obind].
  assert (ST : Ti (i + 1) (cel i) = Ti i (cel i) + 1) by (unfold Ti; rewrite Nat.add_1_r, rank_of_S, Nat.eqb_refl; cbn [b2nat]; lia).
  rewrite WR. 2: { rewrite <- ST. pose proof (T_le i ltac:(lia)). pose proof (rank_of_mono (fun j => cel j =? cel i) (i + 1) n ltac:(lia)). unfold Ti, GmrProofs.T in *. lia. }
  rewrite farr_aset by auto. cbn [obind]. rewrite <- (IH (i + 1) off' (j' + 1)) by lia. f_equal. apply farr_ext. intros q L. unfold Ti. rewrite (Nat.add_1_r i), rank_of_S. destruct (Nat.eqb_spec q (cel i)) as [->|NE]; [rewrite Nat.eqb_refl; cbn [b2nat]; lia|]. destruct (Nat.eqb_spec (cel i) q); [congruence|]. cbn [b2nat]. lia.
Qed.
Lemma tmp_ok : forall k i off j, i + k = n -> i = off * bs + j -> j <= bs -> tmp_loop bs bl (Nat.log2 bs + 1) (skipn i s) off j (farr Q (Ti i)) = Some (farr Q T).
Proof. apply tmp_gen; [apply cel_lt|]. intros. apply wr_id. auto. Qed.
Lemma sum_ok : forall k j acc, j + k <= Q -> acc + (P (j + k) - P j) <= n -> sum_loop (Nat.log2 n + 1) (farr Q T) k j acc = Some (acc + (P (j + k) - P j)).
Proof.
  induction k as [|k IH]; intros j acc L N; [cbn [sum_loop]; f_equal; rewrite Nat.add_0_r; lia|]. cbn [sum_loop]. rewrite farr_nth_error by lia. cbn [obind]. pose proof (P_S s bs bl SM BP BK BN j) as PS. pose proof (rank_of_le (fun _ => true) 0) as _.
  assert (MO : P (S j) <= P (j + S k)). { replace (j + S k) with (S j + k) by lia. clear - SM BP BK BN. induction k; [rewrite Nat.add_0_r; lia|]. rewrite Nat.add_succ_r, (P_S s bs bl SM BP BK BN (S j + k)). lia. }
  rewrite wr_id by lia. rewrite IH by (try (replace (j + 1 + k) with (j + S k) by lia; rewrite Nat.add_1_r); lia). f_equal. replace (j + 1 + k) with (j + S k) by lia. rewrite Nat.add_1_r. lia.
Qed.
Lemma sym_ok : forall k i, i + k <= bs -> sym_loop (Nat.log2 n + 1) bl (farr Q T) k i = Some (map (fun c => occs c n) (seq i k)).
Proof.
  induction k as [|k IH]; intros i L; [reflexivity|]. cbn [sym_loop]. rewrite (Nat.mul_comm bl i). pose proof (occ_P i) as OP. pose proof (rank_of_le (fun j => sym j =? i) n) as LE. change (occs i n <= n) in LE. rewrite sum_ok by nia. cbn [obind]. rewrite IH by lia. cbn [obind seq map]. rewrite Nat.add_1_r. do 2 f_equal. lia.
Qed.
Lemma start_ok : forall k a, start_loop (Nat.log2 n + 1) (map (fun c => occs c n) (seq a k)) (less s a) = map (less s) (seq a k).
Proof.
  induction k as [|k IH]; intros a; [reflexivity|]. cbn [seq map start_loop]. rewrite wr_id by apply less_le. f_equal. rewrite <- less_next. apply IH.
Qed.
Lemma sum_T : list_sum (farr Q T) = n.
Proof. pose proof (sum_first s bs bl SM BP BK BN Q (le_n _)) as (E & _). rewrite firstn_all2 in E by (rewrite farr_length; lia). rewrite E. apply P_Q. Qed.
Lemma bits_ok : bits_loop (farr Q T) 1 (repeat false (n + Q + 1)) = Some (bv s bs bl).
Proof.
  pose proof (bits_loop_ok (farr Q T) [false] 0) as E. rewrite farr_length, sum_T in E. cbn [length] in E. replace (n + Q + 1) with (1 + (Q + n + 0)) by lia. change (repeat false (1 + (Q + n + 0))) with ([false] ++ repeat false (Q + n + 0)). rewrite E. f_equal. unfold bv. cbn [repeat]. rewrite app_nil_r. rewrite <- fl_cl. reflexivity.
Qed.
Notation fc := (fun c => occs c n).
Lemma sigma_gen : forall m k c r w b sg, c * bl + r + k = m * bl -> r < bl -> (if b =? bl then (0, true) else (b, w)) = (r, P (c * bl + r) =? P (c * bl)) ->
  sg = npos fc c + b2nat (P (c * bl) <? P (c * bl + r)) -> sigma_loop bl (fl (map T (seq (c * bl + r) k))) w b sg = npos fc m.
Proof.
  intros m. induction k as [|k IH]; intros c r w b sg K R N SE.
  - assert (c = m) by nia. subst c. assert (r = 0) by lia. subst r. cbn [seq map fl flat_map sigma_loop]. rewrite SE, Nat.add_0_r, Nat.ltb_irrefl. cbn [b2nat]. lia.
  - cbn [seq map]. change (fl (T (c * bl + r) :: map T (seq (S (c * bl + r)) k))) with ((repeat true (T (c * bl + r)) ++ [false]) ++ fl (map T (seq (S (c * bl + r)) k))). rewrite <- app_assoc. cbn [app]. rewrite (sigma_cell _ _ _ _ _ _ _ _ R N). pose proof (P_S s bs bl SM BP BK BN (c * bl + r)) as PS.
    assert (MO : P (c * bl) <= P (c * bl + r)). { clear - SM BP BK BN. induction r; [rewrite Nat.add_0_r; lia|]. rewrite Nat.add_succ_r, P_S by auto. lia. }
    assert (SG : sg + b2nat ((P (c * bl + r) =? P (c * bl)) && negb (T (c * bl + r) =? 0)) = npos fc c + b2nat (P (c * bl) <? P (S (c * bl + r)))). { rewrite SE. destruct (Nat.ltb_spec (P (c * bl)) (P (c * bl + r))), (Nat.eqb_spec (P (c * bl + r)) (P (c * bl))), (Nat.eqb_spec (T (c * bl + r)) 0), (Nat.ltb_spec (P (c * bl)) (P (S (c * bl + r)))); cbn [b2nat andb negb]; lia. }
    assert (WW : (P (c * bl + r) =? P (c * bl)) && (T (c * bl + r) =? 0) = (P (S (c * bl + r)) =? P (c * bl))). { destruct (Nat.eqb_spec (P (c * bl + r)) (P (c * bl))), (Nat.eqb_spec (T (c * bl + r)) 0), (Nat.eqb_spec (P (S (c * bl + r))) (P (c * bl))); cbn [andb]; auto; lia. }
    rewrite SG, WW. destruct (Nat.eq_dec (r + 1) bl) as [LAST|NL].
    + replace (S (c * bl + r)) with (S c * bl + 0) by lia. apply IH; try lia.
      * rewrite LAST, Nat.eqb_refl, Nat.add_0_r, Nat.eqb_refl. reflexivity.
      * rewrite Nat.add_0_r, Nat.ltb_irrefl. cbn [b2nat]. rewrite Nat.add_0_r, npos_S. f_equal. pose proof (occ_P c) as OP. replace (S c * bl) with (c * bl + bl) by lia. rewrite OP. destruct (Nat.ltb_spec (P (c * bl)) (P (c * bl) + occs c n)), (Nat.eqb_spec (occs c n) 0); cbn [b2nat]; lia.
    + replace (S (c * bl + r)) with (c * bl + (r + 1)) by lia. apply IH; try lia. destruct (Nat.eqb_spec (r + 1) bl); [contradiction|]. reflexivity.
Qed.
Lemma sigma_ok : forall k c r w b sg, c * bl + r + k = Q -> r < bl -> (if b =? bl then (0, true) else (b, w)) = (r, P (c * bl + r) =? P (c * bl)) ->
  sg = npos fc c + b2nat (P (c * bl) <? P (c * bl + r)) -> sigma_loop bl (fl (map T (seq (c * bl + r) k))) w b sg = npos fc bs.
Proof. apply sigma_gen. Qed.
Lemma pos_ok : forall k i off j f, i + k = n -> i = off * bs + j -> j <= bs -> (forall p, p < i -> f (lfr s p) = p mod bs) ->
  exists f', pos_loop bs (Nat.log2 n + 1) (Nat.log2 bs + 1) (skipn i s) j (farr bs (fun c => less s c + occs c i)) (farr n f) = Some (farr n f') /\ forall p, p < n -> f' (lfr s p) = p mod bs.
Proof.
  induction k as [|k IH]; intros i off j f N E J F; [rewrite skipn_all2 by lia; cbn [pos_loop]; exists f; split; [auto|intros p L; apply F; lia]|]. rewrite (skip_cons s bs SM) by lia. cbn [pos_loop]. destruct (if j =? bs then (off + 1, 0) else (off, j)) as [off' j'] eqn:FF. destruct (step_blk i off j off' j' E J FF) as (E' & J' & D & M).
  replace (if j =? bs then 0 else j) with j' by (destruct (j =? bs); injection FF; auto). pose proof (sym_lt s bs SM i ltac:(lia)) as SL. rewrite farr_nth_error by auto. cbn [obind]. rewrite farr_aset by auto. cbn [obind]. pose proof (lf_lt s bs SM i ltac:(lia)) as LL. unfold lfr in LL. rewrite farr_aset by auto. cbn [obind].
  rewrite (wr_id _ n) by lia. rewrite (wr_id _ bs) by lia.
  destruct (IH (i + 1) off' (j' + 1) (fun y => if y =? less s (sym i) + occs (sym i) i then j' else f y)) as (f' & R & G); try lia.
  - intros p L. destruct (Nat.eq_dec p i) as [->|NE]; [unfold lfr; rewrite Nat.eqb_refl; auto|]. destruct (Nat.eqb_spec (lfr s p) (less s (sym i) + occs (sym i) i)) as [Z|Z]; [|apply F; lia]. exfalso. apply NE. apply (lf_inj s bs SM); auto; lia.
  - exists f'. split; auto. rewrite <- R. f_equal. apply farr_ext. intros c C. rewrite O_S. destruct (Nat.eqb_spec c (sym i)) as [->|NE]; [rewrite Nat.eqb_refl; cbn [b2nat]; lia|]. destruct (Nat.eqb_spec (sym i) c); [congruence|]. cbn [b2nat]. lia.
Qed.
End G.
Lemma ceil_blocks : forall n bs, 0 < bs -> (forall k, k < (n + bs - 1) / bs -> k * bs < n) /\ n <= (n + bs - 1) / bs * bs.
Proof.
  intros n bs B. pose proof (Nat.div_mod (n + bs - 1) bs ltac:(lia)) as DM. pose proof (Nat.mod_upper_bound (n + bs - 1) bs ltac:(lia)) as MU. set (d := (n + bs - 1) / bs) in *. split; [|nia]. intros k K. nia.
Qed.
Lemma make_ok : forall s, exists bs bl sigma e, (forall c, In c s -> c < bs) /\ 0 < bs /\ (forall k, k < bl -> k * bs < length s) /\ length s <= bl * bs /\
  length e = length s /\ (forall p, p < length s -> nth_error e (lfr s p) = Some (p mod bs)) /\ gmr_make s = Some (W s bs bl e sigma) /\ sigma = length (nodup Nat.eq_dec s).
Proof.
  intros s. set (bs := max_loop s 0 + 1). set (bl := (length s + bs - 1) / bs). assert (BP : 0 < bs) by (unfold bs; lia). destruct (ceil_blocks (length s) bs BP) as (BK & BN). fold bl in BK, BN.
  assert (SM : forall c, In c s -> c < bs) by (intros c C; pose proof (proj2 (max_loop_ok s 0) c C); unfold bs; lia).
  unfold gmr_make. fold bs. fold bl. rewrite farr_repeat. pose proof (tmp_ok s bs bl SM BP BK BN (length s) 0 0 0 ltac:(lia) ltac:(lia) ltac:(lia)) as TO. cbn [skipn] in TO.
  rewrite (farr_ext _ _ (fun _ => 0) (Ti s bs bl 0)) by reflexivity. rewrite TO. cbn [obind]. rewrite (sym_ok s bs bl SM BP BK BN) by lia. cbn [obind]. rewrite (bits_ok s bs bl) by auto. cbn [obind].
  pose proof (start_ok s bs 0) as ST. replace (less s 0) with 0 in ST by (rewrite less_psum; reflexivity). rewrite ST.
  destruct (pos_ok s bs bl SM BP BK BN (length s) 0 0 0 (fun _ => 0) ltac:(lia) ltac:(lia) ltac:(lia) ltac:(intros; lia)) as (f & PO & PF). cbn [skipn] in PO.
  rewrite farr_repeat. change (map (less s) (seq 0 bs)) with (farr bs (less s)). rewrite (farr_ext _ _ (less s) (fun c => less s c + O s c 0)) by (intros; unfold O; rewrite rank_of_0; lia). rewrite PO. cbn [obind].
  exists bs, bl, (length (nodup Nat.eq_dec s)), (farr (length s) f). repeat split; auto.
  - apply farr_length.
  - intros p L. rewrite farr_nth_error by (apply (lf_lt s bs SM); auto). rewrite PF by auto. reflexivity.
  - unfold W. do 2 f_equal. replace (tl (bv s bs bl)) with (fl (farr (bs * bl) (T s bs bl))) by (unfold bv; rewrite <- fl_cl; reflexivity). rewrite <- (npos_nodup s bs SM).
    rewrite (npos_ext (occ s) (fun c => O s c (length s)) bs) by (intros c _; rewrite O_occ by lia; rewrite firstn_all; reflexivity).
    destruct (Nat.eq_dec bl 0) as [Z|NZ].
    + rewrite Z, Nat.mul_0_r. cbn. destruct s as [|x s]; [reflexivity|]. cbn [length] in BN. rewrite Z in BN. lia.
    + apply (sigma_ok s bs bl SM BP BK BN (bs * bl) 0 0 true 0 0); try lia; cbn [Nat.mul Nat.add]; [|rewrite Nat.ltb_irrefl; reflexivity]. rewrite Nat.eqb_refl. destruct (0 =? bl); reflexivity.
Qed.
