(** * Proofs about CoderFib.v: the tables and decode. *)
From Coq Require Import NArith List Bool Arith Lia.
From Verif Require Import Base Tables Bits SpecBits BitsProofs BitsProofs2 BitsProofs3 BitsProofs4 BitsMem IntVector AbsVec WtBase WtProofs Coder CoderProofs CoderProofs3 SpecFib CoderFib CoderFibProofs.
Import ListNotations.

(** ** bit lists *)
Definition bs (m : mem) (p n : nat) : list bool := map (mbit m) (seq p n).
Lemma bs_length : forall m p n, length (bs m p n) = n.
Proof. intros. unfold bs. rewrite map_length, seq_length. auto. Qed.
Lemma nth_bs : forall m p n k, nth k (bs m p n) false = (k <? n) && mbit m (p + k).
Proof. intros. rewrite <- tb_N_of_bits. apply tb_field. Qed.
Lemma bs_app : forall m p a b, bs m p (a + b) = bs m p a ++ bs m (p + a) b.
Proof. intros. unfold bs. rewrite seq_app, map_app. auto. Qed.
Lemma bs_is : forall m p c, (forall k, k < length c -> mbit m (p + k) = nth k c false) -> bs m p (length c) = c.
Proof.
  intros. apply list_nth_ext with (d := false). { apply bs_length. }
  intros k Hk. rewrite bs_length in Hk. rewrite nth_bs, H by auto. replace (k <? length c) with true by lia. auto.
Qed.
Lemma field_bs : forall m p n, field m p n = N_of_bits (bs m p n).
Proof. auto. Qed.
Lemma bits64 : forall l, length l <= 64 -> bits_of_N 64 (N_of_bits l) = l ++ repeat false (64 - length l).
Proof.
  intros. apply list_nth_ext with (d := false). { rewrite bits_of_N_length, app_length, repeat_length. lia. }
  intros k Hk. rewrite bits_of_N_length in Hk. rewrite nth_bits_of_N, tb_N_of_bits. replace (k <? 64) with true by lia. cbn [andb].
  destruct (Nat.lt_ge_cases k (length l)). { rewrite app_nth1; auto. }
  rewrite app_nth2 by auto. rewrite nth_repeat. apply nth_overflow. auto.
Qed.
Lemma word_bits : forall l, length l <= 64 -> is_word (N_of_bits l).
Proof. intros. red. pose proof (N_of_bits_lt l). pose proof (pow2_le_W (length l) H). lia. Qed.
Lemma land_first : forall l k, N.land (N_of_bits l) (N.ones (N.of_nat k)) = N_of_bits (firstn k l).
Proof.
  intros. apply tb_ext. intros j. rewrite tb_land, tb_ones, !tb_N_of_bits. destruct (Nat.ltb_spec j k); rewrite ?andb_true_r, ?andb_false_r.
  - revert l j H. induction k; intros; [lia|]. destruct l; destruct j; simpl; auto. apply IHk. lia.
  - symmetry. apply nth_overflow. rewrite firstn_length. lia.
Qed.
Lemma shr_skip : forall l k, shr (N_of_bits l) k = N_of_bits (skipn k l).
Proof. intros. apply tb_ext. intros j. rewrite tb_shr, !tb_N_of_bits. rewrite Nat.add_comm. symmetry. revert l. induction k; intros; auto. destruct l; simpl; auto. destruct j; auto. Qed.
Lemma shr_field : forall m p n k, k <= n -> shr (field m p n) k = field m (p + k) (n - k).
Proof.
  intros. apply tb_ext. intros j. rewrite tb_shr, !tb_field. replace (p + (j + k)) with (p + k + j) by lia.
  f_equal. destruct (Nat.ltb_spec (j + k) n); destruct (Nat.ltb_spec j (n - k)); auto; lia.
Qed.
Lemma greedy_zeros : forall n c, greedy11 c (repeat false n) = (0, match n with 0 => c | _ => false end).
Proof. induction n; intros; auto. simpl. rewrite IHn. destruct n; auto. Qed.
Lemma greedy_app_fst : forall a b, fst (greedy11 false (a ++ b)) = fst (greedy11 false a) + fst (greedy11 (snd (greedy11 false a)) b).
Proof. intros. rewrite greedy11_app. auto. Qed.
Lemma cnt_bits : forall l, length l <= 64 -> cnt11 (N_of_bits l) = N.of_nat (fst (greedy11 false l)).
Proof.
  intros. rewrite cnt11_correct by (apply word_bits; auto). rewrite bits64 by auto. rewrite greedy_app_fst, greedy_zeros. cbn [fst]. f_equal. lia.
Qed.

(** ** the tables *)
Lemma wadd_m : forall V x, wadd (V mod W64) x = ((V + x) mod W64)%N.
Proof. intros. unfold wadd. apply N.add_mod_idemp_l. apply W64_nz. Qed.
Lemma t95_end : forall k t p x j V, cw t -> length t <= k + 1 -> 12 * p + j + length t <= 93 ->
  (forall i, i < k -> i < length t -> tb x (j + i) = nth i t false) ->
  t95_loop k p x j (V mod W64) = Some ((V + fv (12 * p + j) (removelast t)) mod W64)%N.
Proof.
  induction k as [|k IH]; intros t p x j V C L B T; pose proof (cw_len _ C) as L2; [lia|].
  cbn [t95_loop]. rewrite fibs_92. replace (12 * p + j <? 92) with true by lia.
  destruct t as [|b t]; [simpl in L2; lia|]. pose proof (T 0 ltac:(lia) ltac:(lia)) as T0. rewrite Nat.add_0_r in T0. cbn [nth] in T0. rewrite T0.
  destruct (cw_tl _ _ C) as [[-> ->]|[C' B']].
  - rewrite lt_fib_ok by lia. cbn [obind]. rewrite wadd_m. 
    change (removelast [true; true]) with [true]. cbn [fv]. rewrite N.add_0_r.
    destruct k as [|k]. { cbn [t95_loop]. destruct (tb x (j + 1)); auto. }
    rewrite (T 1) by (cbn [length]; lia). auto.
  - assert (E : removelast (b :: t) = b :: removelast t). { destruct t; auto. apply cw_len in C'. simpl in C'. lia. } rewrite E. cbn [fv length] in *.
    assert (R : forall V', t95_loop k p x (j + 1) (V' mod W64) = Some ((V' + fv (S (12 * p + j)) (removelast t)) mod W64)%N).
    { intros. replace (S (12 * p + j)) with (12 * p + (j + 1)) by lia. apply IH; auto; try lia.
      intros i Hi Hl. replace (j + 1 + i) with (j + S i) by lia. rewrite T by lia. auto. }
    destruct b.
    + rewrite lt_fib_ok by lia. cbn [obind]. rewrite wadd_m. destruct (B' eq_refl) as [t' ->].
      destruct k as [|k]. { apply cw_len in C'. simpl in *. lia. }
      rewrite (T 1) by (cbn [length]; lia). cbn [nth]. rewrite R. f_equal. f_equal. lia.
    + rewrite R. f_equal.
Qed.
Lemma t95_mid : forall k t p x j V, cw t -> k + 2 <= length t -> 12 * p + j + length t <= 93 ->
  (forall i, i < k -> tb x (j + i) = nth i t false) ->
  t95_loop k p x j (V mod W64) = Some ((V + fv (12 * p + j) (firstn k t)) mod W64)%N.
Proof.
  induction k as [|k IH]; intros t p x j V C L B T.
  { cbn [t95_loop firstn fv]. rewrite N.add_0_r. auto. }
  cbn [t95_loop]. rewrite fibs_92. replace (12 * p + j <? 92) with true by lia.
  destruct t as [|b t]; [simpl in L; lia|]. pose proof (T 0 ltac:(lia)) as T0. rewrite Nat.add_0_r in T0. cbn [nth] in T0. rewrite T0.
  destruct (cw_tl _ _ C) as [[-> ->]|[C' B']]; [simpl in L; lia|]. cbn [firstn fv length] in *.
  assert (R : forall V', t95_loop k p x (j + 1) (V' mod W64) = Some ((V' + fv (S (12 * p + j)) (firstn k t)) mod W64)%N).
  { intros. replace (S (12 * p + j)) with (12 * p + (j + 1)) by lia. apply IH; auto; try lia.
    intros i Hi. replace (j + 1 + i) with (j + S i) by lia. rewrite T by lia. auto. }
  destruct b.
  + rewrite lt_fib_ok by lia. cbn [obind]. rewrite wadd_m. destruct (B' eq_refl) as [t' ->].
    destruct k as [|k]. { cbn [t95_loop firstn fv]. rewrite N.add_0_r. destruct (tb x (j + 1)); auto. }
    rewrite (T 1) by lia. cbn [nth]. rewrite R. f_equal. f_equal. lia.
  + rewrite R. f_equal.
Qed.
Lemma nth_first : forall (l : list bool) k i, i < k -> nth i (firstn k l) false = nth i l false.
Proof. induction l; intros; destruct k; destruct i; simpl; auto; try lia. apply IHl. lia. Qed.
Lemma fib_t95_end : forall l ft c, cw c -> length c <= 13 -> 12 * ft + length c <= 93 ->
  (forall i, i < length c -> nth i l false = nth i c false) ->
  fib_t95 ft (N.land (N_of_bits l) 4095) = Some (fv (12 * ft) (removelast c) mod W64)%N.
Proof.
  intros l ft c C L B E. unfold fib_t95. pose proof (cw_len _ C). replace (ft <? 8) with true by lia.
  change 4095%N with (N.ones (N.of_nat 12)). rewrite land_first. change 0%N with (0 mod W64)%N at 1. rewrite (t95_end 12 c); auto; try lia.
  2:{ intros i Hi Hl. cbn [Nat.add]. rewrite tb_N_of_bits, nth_first by auto. auto. }
  rewrite Nat.add_0_r, N.add_0_l. auto.
Qed.
Lemma fib_t95_mid : forall l ft c, cw c -> 13 < length c -> 12 * ft + length c <= 93 ->
  (forall i, i < 12 -> nth i l false = nth i c false) ->
  fib_t95 ft (N.land (N_of_bits l) 4095) = Some (fv (12 * ft) (firstn 12 c) mod W64)%N.
Proof.
  intros l ft c C L B E. unfold fib_t95. pose proof (cw_len _ C). replace (ft <? 8) with true by lia.
  change 4095%N with (N.ones (N.of_nat 12)). rewrite land_first. change 0%N with (0 mod W64)%N at 1. rewrite (t95_mid 12 c); auto; try lia.
  2:{ intros i Hi. cbn [Nat.add]. rewrite tb_N_of_bits, nth_first by auto. auto. }
  rewrite Nat.add_0_r, N.add_0_l. auto.
Qed.
Lemma split_prefix : forall (l c : list bool), length c <= length l -> (forall i, i < length c -> nth i l false = nth i c false) -> l = c ++ skipn (length c) l.
Proof.
  intros l c L E. rewrite <- (firstn_skipn (length c) l) at 1. f_equal. apply list_nth_ext with (d := false).
  { rewrite firstn_length. lia. }
  intros k Hk. rewrite firstn_length in Hk. rewrite nth_first by lia. apply E. lia.
Qed.
Lemma fib_shift_end : forall l c, cw c -> length c <= length l -> length c <= 13 ->
  (forall i, i < length c -> nth i l false = nth i c false) ->
  fib_shift (N.land (N_of_bits l) 8191) = Some (length c).
Proof.
  intros l c C Ll L E. change 8191%N with (N.ones (N.of_nat 13)). rewrite land_first. unfold fib_shift.
  assert (S : firstn 13 l = c ++ skipn (length c) (firstn 13 l)).
  { apply split_prefix. { rewrite firstn_length. lia. } intros. rewrite nth_first by lia. auto. }
  pose proof (firstn_le_length 13 l) as F. pose proof (cw_len _ C).
  rewrite cnt_bits by lia. rewrite S at 1. rewrite cw_greedy by auto. cbn [fst]. 
  replace (N.of_nat (Datatypes.S (fst (greedy11 false (skipn (length c) (firstn 13 l))))) =? 0)%N with false by lia.
  pose proof (sel11_correct (N_of_bits (firstn 13 l)) 1 false ltac:(apply word_bits; lia)) as X. rewrite bits64 in X by lia.
  remember (repeat false (64 - length (firstn 13 l))) as z.
  assert (EE : greedy11_ends false 0 (firstn 13 l ++ z) = (0 + length c - 1) :: greedy11_ends false (0 + length c) (skipn (length c) (firstn 13 l) ++ z)).
  { rewrite S at 1. rewrite <- app_assoc. apply cw_ends. auto. }
  rewrite EE in X. specialize (X ltac:(cbn [length]; lia)). change (N.of_nat 1) with 1%N in X. cbn [b2n] in X. rewrite X. cbn [obind nth Nat.sub]. f_equal. lia.
Qed.
Lemma firstn_cut : forall (l c : list bool) k, k <= length l -> k <= length c -> (forall i, i < k -> nth i l false = nth i c false) -> firstn k l = firstn k c.
Proof.
  intros l c k L K E. apply list_nth_ext with (d := false). { rewrite !firstn_length. lia. }
  intros i Hi. rewrite firstn_length in Hi. rewrite !nth_first by lia. apply E. lia.
Qed.
Lemma fib_shift_mid : forall l c, cw c -> 13 < length c -> 13 <= length l ->
  (forall i, i < 13 -> nth i l false = nth i c false) ->
  fib_shift (N.land (N_of_bits l) 8191) = Some 0.
Proof.
  intros l c C L Ll E. change 8191%N with (N.ones (N.of_nat 13)). rewrite land_first. unfold fib_shift.
  rewrite (firstn_cut l c 13) by (auto; lia). rewrite cnt_bits by (rewrite firstn_length; lia).
  rewrite (cw_prefix _ (skipn 13 c)). { auto. } { rewrite firstn_skipn. auto. }
  intro Q. apply (f_equal (@length bool)) in Q. rewrite skipn_length in Q. simpl in Q. lia.
Qed.

(** ** decode *)
Lemma fill_word : forall m P b d read, words_ok m -> 64 * d + read = P + b -> read < 64 -> b <= 64 -> d < length m ->
  N.lor (field m P b) (shl (shr (nth d m 0%N) read) b) = field m P (if b <=? read then b + (64 - read) else 64).
Proof.
  intros m P b d read Hm E Hr Hb Hd. apply tb_ext. intros k. rewrite tb_lor, tb_shl, tb_shr, !tb_field.
  assert (W : is_word (nth d m 0%N)). { apply Forall_nth; auto. }
  assert (X : b <= k -> k - b + read < 64 -> tb (nth d m 0%N) (k - b + read) = mbit m (P + k)).
  { intros. replace (P + k) with (64 * d + (k - b + read)) by lia. rewrite mbit_wo by lia. auto. }
  assert (Y : 64 <= k - b + read -> tb (nth d m 0%N) (k - b + read) = false) by (intros; apply tb_word_high; auto).
  destruct (Nat.ltb_spec k b).
  - replace (b <=? k) with false by lia. replace (k <? (if b <=? read then b + (64 - read) else 64)) with true.
    2:{ destruct (Nat.leb_spec b read); symmetry; apply Nat.ltb_lt; lia. }
    rewrite andb_false_l, andb_false_r, orb_false_r. auto.
  - replace (b <=? k) with true by lia. cbn [andb orb]. destruct (Nat.leb_spec b read).
    + destruct (Nat.ltb_spec k (b + (64 - read))).
      * replace (k <? 64) with true by lia. cbn [andb]. apply X; lia.
      * rewrite Y by lia. rewrite andb_false_r. auto.
    + destruct (Nat.ltb_spec k 64); auto. cbn [andb]. apply X; lia.
Qed.
Lemma fd_fill_ok : forall fuel m n d read b P, words_ok m -> 64 * d + read = P + b -> read < 64 -> b <= 64 ->
  (if 13 <=? b then 1 else if read =? 0 then 2 else 3) <= fuel ->
  (forall b', b <= b' <= 64 -> (cnt11 (field m P b') < N.of_nat n)%N -> P + b' < 64 * length m) ->
  exists d' read' b', fd_fill fuel m n d read b (field m P b) = Some (d', read', b', field m P b') /\
    64 * d' + read' = P + b' /\ read' < 64 /\ b <= b' <= 64 /\ (13 <= b' \/ (N.of_nat n <= cnt11 (field m P b'))%N).
Proof.
  induction fuel as [|f IH]; intros m n d read b P Hm E Hr Hb F Q.
  { destruct (13 <=? b); [lia|]. destruct (read =? 0); lia. }
  cbn [fd_fill]. destruct (Nat.ltb_spec b 13).
  2:{ exists d, read, b. cbn [andb]. repeat split; auto; lia. }
  destruct (N.ltb_spec (cnt11 (field m P b)) (N.of_nat n)).
  2:{ exists d, read, b. cbn [andb]. repeat split; auto; lia. }
  cbn [andb]. pose proof (Q b ltac:(lia) H0). rewrite ld_some by lia. cbn [obind]. rewrite shl_c_some by lia. cbn [obind].
  rewrite fill_word by (auto; lia). destruct (Nat.leb_spec b read).
  - destruct (IH m n (d + 1) 0 (b + (64 - read)) P Hm ltac:(lia) ltac:(lia) ltac:(lia)) as [d' [r' [b' [R A]]]].
    + destruct (Nat.leb_spec 13 (b + (64 - read))); simpl. { destruct (Nat.leb_spec 13 b); [lia|]. destruct (read =? 0); lia. }
      destruct (Nat.leb_spec 13 b); [lia|]. destruct (Nat.eqb_spec read 0); lia.
    + intros. apply Q; auto. lia.
    + exists d', r', b'. split; auto. destruct A as [A1 [A2 [A3 A4]]]. repeat split; auto; lia.
  - destruct (IH m n d (read + (64 - b)) 64 P Hm ltac:(lia) ltac:(lia) ltac:(lia)) as [d' [r' [b' [R A]]]].
    + simpl. destruct (Nat.leb_spec 13 b); [lia|]. destruct (read =? 0); lia.
    + intros. apply Q; auto. lia.
    + exists d', r', b'. split; auto. destruct A as [A1 [A2 [A3 A4]]]. repeat split; auto; lia.
Qed.
Lemma f_le : forall xs m p q, codes fcode m p xs q -> p + length xs <= q.
Proof.
  induction xs as [|x t IH]; intros m p q H; simpl in H. { subst. simpl. lia. }
  destruct H as [r [A B]]. apply f_CP in A. apply IH in B. simpl. lia.
Qed.
Lemma codes_count : forall xs m P q b, codes fcode m P xs q -> q <= P + b -> length xs <= fst (greedy11 false (bs m P b)).
Proof.
  induction xs as [|x t IH]; intros m P q b C L; [simpl; lia|]. simpl in C. destruct C as [r [[c [C1 [C2 [C3 [C4 C5]]]]] C6]].
  pose proof (f_le _ _ _ _ C6). replace b with (length c + (b - length c)) by lia. rewrite bs_app, bs_is by auto.
  rewrite cw_greedy by auto. cbn [fst length]. apply le_n_S. replace (P + length c) with r by lia. eapply IH; eauto. lia.
Qed.
Definition cw_at (m : mem) (P : nat) (c : list bool) : Prop := cw c /\ (forall k, k < length c -> mbit m (P + k) = nth k c false).
Lemma cw_at_count : forall m P c b, cw_at m P c -> b <= 64 -> (1 <= cnt11 (field m P b))%N -> length c <= b.
Proof.
  intros m P c b [C E] Hb H. rewrite field_bs, cnt_bits in H by (rewrite bs_length; auto).
  destruct (Nat.le_gt_cases (length c) b) as [G|G]; auto. exfalso.
  assert (bs m P b = firstn b c) as Z. { rewrite <- (bs_is m P c E). replace (length c) with (b + (length c - b)) by lia. rewrite bs_app. rewrite firstn_app, bs_length, Nat.sub_diag. rewrite firstn_all2 by (rewrite bs_length; auto). cbn [firstn]. rewrite app_nil_r. auto. }
  rewrite Z, (cw_prefix _ (skipn b c)) in H. { simpl in H. lia. } { rewrite firstn_skipn. auto. }
  intro Q. apply (f_equal (@length bool)) in Q. rewrite skipn_length in Q. simpl in Q. lia.
Qed.
Lemma cw_at_skip : forall m P c, cw_at m P c -> 13 < length c -> cw_at m (P + 12) (skipn 12 c).
Proof.
  intros m P c [C E] L. split. { apply cw_skip; auto. }
  intros k Hk. rewrite skipn_length in Hk. replace (P + 12 + k) with (P + (12 + k)) by lia. rewrite E by lia.
  rewrite <- (firstn_skipn 12 c) at 1. rewrite app_nth2 by (rewrite firstn_length; lia). f_equal. rewrite firstn_length. lia.
Qed.
Lemma removelast_skip : forall (c : list bool), 13 < length c -> removelast c = firstn 12 c ++ removelast (skipn 12 c).
Proof.
  intros. rewrite <- (firstn_skipn 12 c) at 1. apply removelast_app. intro Q. apply (f_equal (@length bool)) in Q. rewrite skipn_length in Q. simpl in Q. lia.
Qed.
Lemma fd_loop_ok : forall (sumup : bool) fuel m xs d read b P c V ft q, words_ok m -> 64 * d + read = P + b -> read < 64 -> b <= 64 ->
  cw_at m P c -> 12 * ft + length c <= 93 -> codes fcode m (P + length c) xs q -> q <= 64 * length m -> Forall is_word xs -> q - P < fuel ->
  let X := ((V + fv (12 * ft) (removelast c)) mod W64)%N in
  fd_loop fuel sumup m (S (length xs)) d read b (field m P b) (V mod W64) ft = Some (X :: (if sumup then wpsums X xs else xs)).
Proof.
  intros sumup. induction fuel as [|f IH]; intros m xs d read b P c V ft q Hm E Hr Hb C FT K Hq Wx F X; [lia|].
  pose proof (f_le _ _ _ _ K) as LK. pose proof C as [CC CB]. pose proof (cw_len _ CC) as CL.
  cbn [fd_loop Nat.eqb].
  destruct (fd_fill_ok 3 m (S (length xs)) d read b P Hm E Hr Hb) as [d1 [r1 [b1 [R [E1 [Hr1 [Hb1 G]]]]]]].
  { destruct (13 <=? b); [lia|]. destruct (read =? 0); lia. }
  { intros b' Hb' Q. destruct (Nat.lt_ge_cases (P + b') q); [lia|]. exfalso.
    rewrite field_bs, cnt_bits in Q by (rewrite bs_length; lia). 
    replace b' with (length c + (b' - length c)) in Q by lia. rewrite bs_app, bs_is in Q by auto. rewrite cw_greedy in Q by auto. cbn [fst] in Q.
    pose proof (codes_count _ _ _ _ (b' - length c) K ltac:(lia)). lia. }
  rewrite R. cbn [obind].
  assert (NB : forall i, i < length c -> i < b1 -> nth i (bs m P b1) false = nth i c false).
  { intros. rewrite nth_bs, CB by auto. replace (i <? b1) with true by lia. auto. }
  destruct (Nat.le_gt_cases (length c) 13) as [S13|L13].
  - assert (LB : length c <= b1). { destruct G as [G|G]; [lia|]. apply (cw_at_count m P c); auto; lia. }
    rewrite field_bs, (fib_t95_end _ _ c); auto. 2:{ intros. apply NB; auto. lia. }
    cbn [obind]. rewrite (fib_shift_end _ c); auto; rewrite ?bs_length; auto. 2:{ intros. apply NB; auto. lia. }
    cbn [obind]. rewrite <- field_bs. replace (0 <? length c) with true by lia. rewrite (csub_some _ (length c) (b1 - length c)) by lia. cbn [obind].
    rewrite shr_field by auto.
    replace (wadd (V mod W64) (fv (12 * ft) (removelast c) mod W64)) with X.
    2:{ unfold X. rewrite wadd_m. rewrite N.add_mod_idemp_r by apply W64_nz. auto. }
    cbn [Nat.sub]. rewrite Nat.sub_0_r. destruct xs as [|x xs].
    { destruct f; [lia|]. cbn [length fd_loop Nat.eqb obind]. destruct sumup; auto. }
    simpl in K. destruct K as [r [[c' [K1 [K2 [K3 [K4 K5]]]]] K6]]. inversion_clear Wx. cbn [length Nat.eqb negb].
    rewrite andb_true_r.
    assert (XW : (X mod W64 = X)%N). { unfold X. apply N.mod_mod. apply W64_nz. }
    destruct sumup; cbn [negb].
    + rewrite <- XW at 1.
      rewrite (IH m xs d1 r1 (b1 - length c) (P + length c) c' X 0 q); auto; try lia. 2:{ split; auto. } 2:{ rewrite <- K3. auto. }
      cbn [obind]. cbn [wpsums]. change (12 * 0) with 0.
      assert (((X + fv 0 (removelast c')) mod W64)%N = wadd X x) as ->; [|reflexivity].
      unfold wadd. rewrite K5. rewrite N.add_mod_idemp_r by apply W64_nz. reflexivity.
    + change 0%N with (0 mod W64)%N at 1.
      rewrite (IH m xs d1 r1 (b1 - length c) (P + length c) c' 0%N 0 q); auto; try lia. 2:{ split; auto. } 2:{ rewrite <- K3. auto. }
      cbn [obind]. change (12 * 0) with 0. rewrite N.add_0_l, <- K5. auto.
  - assert (LB : 13 <= b1). { destruct G as [G|G]; auto. pose proof (cw_at_count m P c b1 C ltac:(lia) ltac:(lia)). lia. }
    rewrite field_bs, (fib_t95_mid _ _ c); auto. 2:{ intros. apply NB; lia. }
    cbn [obind]. rewrite (fib_shift_mid _ c); auto; rewrite ?bs_length; auto. 2:{ intros. apply NB; lia. }
    cbn [obind]. rewrite <- field_bs. replace (0 <? 0) with false by reflexivity. rewrite (csub_some _ 12 (b1 - 12)) by lia. cbn [obind].
    rewrite shr_field by lia.
    rewrite wadd_m, N.add_mod_idemp_r by apply W64_nz.
    rewrite (IH m xs d1 r1 (b1 - 12) (P + 12) (skipn 12 c) _ (ft + 1) q); auto; try lia.
    + assert (XE : X = ((V + fv (12 * ft) (firstn 12 c) + fv (12 * (ft + 1)) (removelast (skipn 12 c))) mod W64)%N).
      { unfold X. rewrite (removelast_skip c) by auto. rewrite fv_app, firstn_length. f_equal. replace (12 * ft + min 12 (length c)) with (12 * (ft + 1)) by lia. lia. }
      rewrite <- XE. auto.
    + apply cw_at_skip; auto.
    + rewrite skipn_length. lia.
    + rewrite skipn_length. replace (P + 12 + (length c - 12)) with (P + length c) by lia. auto.
Qed.
Lemma fib_decode_n_ok : forall (sumup : bool) m start xs q, words_ok m -> codes fcode m start xs q -> q <= 64 * length m -> Forall is_word xs ->
  fib_decode_n sumup m start (length xs) = Some (if sumup then wpsums 0 xs else xs).
Proof.
  intros sumup m start xs q Hm K Hq Wx. unfold fib_decode_n. destruct xs as [|x xs].
  { replace (64 * length m + 1) with (S (64 * length m)) by lia. cbn [fd_loop length Nat.eqb]. destruct sumup; auto. }
  simpl in K. destruct K as [r [[c [K1 [K2 [K3 [K4 K5]]]]] K6]]. inversion_clear Wx.
  pose proof (fd_loop_ok sumup (64 * length m + 1) m xs (start / 64) (start mod 64) 0 start c 0 0 q Hm ltac:(lia) ltac:(lia) ltac:(lia) (conj K1 K4)) as R.
  cbn [length]. change (field m start 0) with 0%N in R. change (0 mod W64)%N with 0%N in R. rewrite R; auto; try lia. 2:{ rewrite <- K3. auto. }
  change (12 * 0) with 0. rewrite N.add_0_l, <- K5. f_equal. destruct sumup; auto. cbn [wpsums].
  replace (wadd 0 x) with x; auto. unfold wadd. rewrite N.add_0_l. symmetry. apply N.mod_small. auto.
Qed.
