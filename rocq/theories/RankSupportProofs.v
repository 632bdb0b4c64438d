(** * Proofs about the rank supports *)
From Coq Require Import NArith List Bool Arith Lia.
From Verif Require Import Base Bits SpecBits RankSelect BitsProofs BitsProofs2 BitsProofs4 BitsMem
  IntVector SpecIntVector IntVectorProofs IntVectorProofs3 SpecRank RankSupport.
Import ListNotations.

(** ** the traits *)
(** carry into word [w] *)
Definition rt_c (p : pat) (m : mem) (w : nat) : bool :=
  match p with
  | P0 | P1 => false
  | _ => match w with 0 => match p with P01 | P00 => true | _ => false end | S w' => tb (nth w' m 0%N) 63 end
  end.
Lemma rt_c_0 : forall p m, rt_init_carry p = b2n (rt_c p m 0).
Proof. destruct p; reflexivity. Qed.

Lemma rt_map_bits : forall p m w k, words_ok m -> k < 64 ->
  tb (rt_map p (nth w m 0%N) (b2n (rt_c p m w))) k = occ p (mbit m) (64 * w + k).
Proof.
  intros p m w k M K. pose proof (words_ok_nth _ w M) as X.
  assert (CUR : mbit m (64 * w + k) = tb (nth w m 0%N) k) by (apply mbit_wo; auto).
  assert (PREV : forall c0, 0 < 64 * w + k ->
     prevbit (match w with 0 => c0 | S w' => tb (nth w' m 0%N) 63 end) (tb (nth w m 0%N)) k = mbit m (64 * w + k - 1)).
  { intros c0 P. destruct k; cbn [prevbit].
    - destruct w; [lia|]. replace (64 * S w + 0 - 1) with (64 * w + 63) by lia. rewrite mbit_wo by lia. auto.
    - replace (64 * w + S k - 1) with (64 * w + k) by lia. rewrite mbit_wo by lia. auto. }
  assert (START : 64 * w + k <= 0 -> w = 0 /\ k = 0) by lia.
  destruct p; cbn [rt_map rt_c occ].
  - rewrite tb_wnot, CUR. replace (k <? 64) with true by lia. apply xorb_true_r.
  - auto.
  - rewrite map10_bits by auto. rewrite CUR. destruct (Nat.ltb_spec 0 (64 * w + k)) as [E|E].
    + rewrite PREV by auto. cbn [andb]. generalize (mbit m (64 * w + k - 1)) (tb (nth w m 0%N) k); intros [] []; reflexivity.
    + destruct (START E) as [-> ->]. cbn [prevbit]. auto.
  - rewrite map01_bits by auto. rewrite CUR. destruct (Nat.ltb_spec 0 (64 * w + k)) as [E|E].
    + rewrite PREV by auto. cbn [andb]. generalize (mbit m (64 * w + k - 1)) (tb (nth w m 0%N) k); intros [] []; reflexivity.
    + destruct (START E) as [-> ->]. cbn [prevbit]. auto.
  - rewrite tb_wnot, tb_lor, tb_carry_in by auto. replace (k <? 64) with true by lia. rewrite CUR. destruct (Nat.ltb_spec 0 (64 * w + k)) as [E|E].
    + rewrite PREV by auto. cbn [andb]. generalize (mbit m (64 * w + k - 1)) (tb (nth w m 0%N) k); intros [] []; reflexivity.
    + destruct (START E) as [-> ->]. cbn [prevbit]. rewrite orb_true_r. auto.
  - rewrite tb_land, tb_carry_in by auto. rewrite CUR. destruct (Nat.ltb_spec 0 (64 * w + k)) as [E|E].
    + rewrite PREV by auto. cbn [andb]. apply andb_comm.
    + destruct (START E) as [-> ->]. cbn [prevbit]. rewrite andb_false_r. auto.
Qed.

Lemma is_word_b2n : forall b, is_word (b2n b). Proof. destruct b; reflexivity. Qed.
Lemma rt_map_word : forall p m w, words_ok m -> is_word (rt_map p (nth w m 0%N) (b2n (rt_c p m w))).
Proof.
  intros p m w M. pose proof (words_ok_nth _ w M) as X. pose proof (is_word_b2n (rt_c p m w)).
  destruct p; cbn [rt_map]; auto with word.
  - apply is_word_map10. auto. - apply is_word_map01. auto.
Qed.
Lemma rt_cnt : forall p m w, words_ok m ->
  cnt (rt_map p (nth w m 0%N) (b2n (rt_c p m w))) = N.of_nat (rank_of (fun k => occ p (mbit m) (64 * w + k)) 64).
Proof. intros. apply cnt_rank. { apply rt_map_word. auto. } intros. apply rt_map_bits; auto. Qed.

Lemma rt_args_ok : forall p m w, words_ok m ->
  rt_args p (nth w m 0%N) (b2n (rt_c p m w)) =
  (N.of_nat (rank_of (fun k => occ p (mbit m) (64 * w + k)) 64), b2n (rt_c p m (S w))).
Proof.
  intros p m w M. pose proof (words_ok_nth _ w M) as X. rewrite <- (rt_cnt p m w M).
  destruct p; cbn [rt_args]; auto; unfold cnt10c, cnt01c; rewrite shr63 by auto; auto.
Qed.
Lemma rt_carry_ok : forall p m idx, words_ok m -> idx / 64 < length m -> rt_carry p m idx = Some (b2n (rt_c p m (idx / 64))).
Proof.
  intros p m idx M L. unfold rt_carry.
  assert (G : forall c0 : bool, (if 63 <? idx then let* x := ld m (idx / 64 - 1) in Some (shr x 63) else Some (b2n c0)) =
    Some (b2n match idx / 64 with 0 => c0 | S w' => tb (nth w' m 0%N) 63 end)).
  { intros c0. destruct (Nat.ltb_spec 63 idx).
    - rewrite ld_some by lia. cbn [obind]. rewrite shr63 by (apply words_ok_nth; auto).
      destruct (idx / 64) as [|w] eqn:E; [lia|]. replace (S w - 1) with w by lia. auto.
    - replace (idx / 64) with 0 by lia. auto. }
  destruct p; cbn [rt_c rt_init_carry]; auto; first [exact (G false) | exact (G true)].
Qed.
Lemma rank_of_head : forall g s t, rank_of (fun k => (k <? s) && g k) (s + t) = rank_of g s.
Proof.
  intros. rewrite rank_of_add. rewrite (rank_of_ext (fun k => (k <? s) && g k) g).
  2: { intros j Hj. replace (j <? s) with true by lia. auto. }
  rewrite (rank_of_ext (fun j => (s + j <? s) && g (s + j)) (fun _ => false)).
  2: { intros j Hj. replace (s + j <? s) with false by lia. auto. }
  rewrite rank_of_const_false. lia.
Qed.
Lemma rt_full_ok : forall p m idx, words_ok m -> idx / 64 < length m ->
  rt_full_word_rank p m idx = Some (N.of_nat (rank_of (fun k => occ p (mbit m) (64 * (idx / 64) + k)) 64)).
Proof.
  intros. unfold rt_full_word_rank. rewrite ld_some by auto. cbn [obind]. rewrite rt_carry_ok by auto. cbn [obind].
  rewrite rt_cnt by auto. auto.
Qed.
Lemma rt_word_ok : forall p m idx, words_ok m -> idx / 64 < length m ->
  rt_word_rank p m idx = Some (N.of_nat (rank_of (fun k => occ p (mbit m) (64 * (idx / 64) + k)) (idx mod 64))).
Proof.
  intros. unfold rt_word_rank. rewrite ld_some by auto. cbn [obind]. rewrite rt_carry_ok by auto. cbn [obind]. f_equal.
  rewrite (cnt_rank _ (fun k => (k <? idx mod 64) && occ p (mbit m) (64 * (idx / 64) + k))).
  2: { apply is_word_land_l. apply rt_map_word. auto. }
  2: { intros. rewrite tb_land, tb_lo_set, rt_map_bits by auto. apply andb_comm. }
  f_equal. pose proof (rank_of_head (fun k => occ p (mbit m) (64 * (idx / 64) + k)) (idx mod 64) (64 - idx mod 64)) as Q.
  replace (idx mod 64 + (64 - idx mod 64)) with 64 in Q by lia. exact Q.
Qed.

(** ** packed counters *)
Definition pk (x : N) (p m : nat) : N := N.land (shr x p) (lo_set m).
Lemma pk_lor : forall x y p m, pk (N.lor x y) p m = N.lor (pk x p m) (pk y p m).
Proof.
  intros. unfold pk. apply tb_ext. intros k. rewrite !tb_land, tb_lor, !tb_shr, tb_lor, !tb_land, !tb_shr.
  destruct (tb (lo_set m) k); rewrite ?andb_true_r, ?andb_false_r; auto.
Qed.
Lemma pk_0 : forall p m, pk 0 p m = 0%N.
Proof. intros. unfold pk. apply tb_ext. intros. rewrite tb_land, tb_shr, tb_0. auto. Qed.
Lemma pk_same : forall s p m, (s < 2 ^ N.of_nat m)%N -> p + m <= 64 -> pk (shl s p) p m = s.
Proof.
  intros s p m S P. unfold pk. apply tb_ext. intros k. rewrite tb_land, tb_shr, tb_shl, tb_lo_set.
  destruct (Nat.ltb_spec k m).
  - replace (k + p <? 64) with true by lia. replace (p <=? k + p) with true by lia. cbn [andb]. rewrite andb_true_r. f_equal. lia.
  - rewrite andb_false_r. symmetry. apply (tb_high s m); auto.
Qed.
Lemma pk_other : forall s p q m, (s < 2 ^ N.of_nat m)%N -> p + m <= q \/ q + m <= p -> pk (shl s p) q m = 0%N.
Proof.
  intros s p q m S P. unfold pk. apply tb_ext. intros k. rewrite tb_land, tb_shr, tb_shl, tb_lo_set, tb_0.
  destruct (Nat.ltb_spec k m); [|apply andb_false_r]. rewrite andb_true_r. destruct (Nat.leb_spec p (k + q)); [|apply andb_false_r].
  rewrite (tb_high s m) by (auto; lia). apply andb_false_r.
Qed.

(** ** rank_support_v *)
Section RSV.
Variable p : pat.
Variable m : mem.
Variable n : nat.   (* number of words *)
Hypothesis M : words_ok m.
Hypothesis NL : n <= length m.
Hypothesis NB : (N.of_nat (64 * n) < W64)%N.
Let h := occ p (mbit m).
Let R := rank_of h.

(** relative count k of superblock b, counters up to word e *)
Definition v_packed (b e : nat) (sl : N) : Prop :=
  forall k, k < 8 -> pk sl (63 - 9 * k) 9 = if (1 <=? k) && (8 * b + k <=? e) then N.of_nat (R (64 * (8 * b + k)) - R (64 * (8 * b))) else 0%N.

Lemma R_bound : forall x, R x <= x. Proof. intros. apply rank_of_le. Qed.
Lemma R_diff : forall a b, a <= b -> R a <= R b /\ R b - R a <= b - a.
Proof. intros. split; [apply rank_of_mono|apply rank_of_step]; auto. Qed.
Lemma R_word : forall w, rank_of (fun k => occ p (mbit m) (64 * w + k)) 64 = R (64 * (w + 1)) - R (64 * w).
Proof. intros. unfold R. replace (64 * (w + 1)) with (64 * w + 64) by lia. rewrite rank_of_add. unfold h. lia. Qed.

Lemma v_packed_add : forall b e sl, e = 8 * b + e mod 8 -> 1 <= e mod 8 -> v_packed b (e - 1) sl ->
  v_packed b e (N.lor sl (shl (N.of_nat (R (64 * e) - R (64 * (8 * b)))) (63 - 9 * (e mod 8)))).
Proof.
  intros b e sl E K P k Hk. rewrite pk_lor, P by auto.
  destruct (R_diff (64 * (8 * b)) (64 * e)) as [D1 D2]; [lia|].
  assert (SB : (N.of_nat (R (64 * e) - R (64 * (8 * b))) < 2 ^ N.of_nat 9)%N) by (change (2 ^ N.of_nat 9)%N with 512%N; lia).
  assert (e mod 8 < 8) by lia.
  destruct (Nat.eq_dec k (e mod 8)) as [->|NE].
  - rewrite pk_same by (auto; lia). replace (8 * b + e mod 8 <=? e - 1) with false by lia. rewrite andb_false_r, N.lor_0_l.
    replace (8 * b + e mod 8 <=? e) with true by lia. replace (1 <=? e mod 8) with true by lia. cbn [andb].
    do 4 f_equal. lia.
  - rewrite pk_other by (auto; lia). rewrite N.lor_0_r. replace (8 * b + k <=? e - 1) with (8 * b + k <=? e); auto.
    destruct (Nat.leb_spec (8 * b + k) e); lia.
Qed.
Lemma v_packed_0 : forall b e, e = 8 * b -> v_packed b e 0.
Proof. intros b e E k Hk. rewrite pk_0. replace ((1 <=? k) && (8 * b + k <=? e)) with false by lia. auto. Qed.

Definition v_inv (i : nat) (s : rsv_st) : Prop :=
  let '(bb, j, sum, sl) := s in let B := (i - 1) / 8 in
  length bb = 2 * (n / 8 + 1) /\ j = 2 * B /\ sum = N.of_nat (R (64 * i) - R (64 * (8 * B))) /\
  (forall b, b <= B -> nth (2 * b) bb 0%N = N.of_nat (R (64 * (8 * b)))) /\
  (forall b, b < B -> v_packed b (8 * b + 7) (nth (2 * b + 1) bb 0%N)) /\
  v_packed B (i - 1) sl.

(** what the entries of the finished superblocks mean *)
Lemma flush_ok : forall bb B sl sum, length bb = 2 * (n / 8 + 1) -> S B <= n / 8 ->
  sum = N.of_nat (R (64 * (8 * S B)) - R (64 * (8 * B))) ->
  (forall b, b <= B -> nth (2 * b) bb 0%N = N.of_nat (R (64 * (8 * b)))) ->
  (forall b, b < B -> v_packed b (8 * b + 7) (nth (2 * b + 1) bb 0%N)) -> v_packed B (8 * B + 7) sl ->
  exists bb1 bb2, st bb (2 * B + 2 - 1) sl = Some bb1 /\ ld bb1 (2 * B + 2 - 2) = Some (N.of_nat (R (64 * (8 * B)))) /\
    st bb1 (2 * B + 2) (wadd (N.of_nat (R (64 * (8 * B)))) sum) = Some bb2 /\ length bb2 = length bb /\
    (forall b, b <= S B -> nth (2 * b) bb2 0%N = N.of_nat (R (64 * (8 * b)))) /\
    (forall b, b < S B -> v_packed b (8 * b + 7) (nth (2 * b + 1) bb2 0%N)).
Proof.
  intros bb B sl sum L BN ES HE HO HP. rewrite st_some by lia. do 2 eexists. split; [reflexivity|].
  split. { rewrite ld_some by (rewrite upd_length; lia). rewrite nth_upd_neq by lia. replace (2 * B + 2 - 2) with (2 * B) by lia. rewrite HE; auto. }
  split. { apply st_some. rewrite upd_length. lia. }
  split. { rewrite !upd_length. auto. }
  destruct (R_diff (64 * (8 * B)) (64 * (8 * S B))) as [D1 D2]; [lia|]. pose proof (R_bound (64 * (8 * S B))).
  split.
  - intros b Hb. destruct (Nat.eq_dec b (S B)) as [->|NE].
    + replace (2 * S B) with (2 * B + 2) by lia. rewrite nth_upd_eq by (rewrite upd_length; lia). rewrite wadd_small; subst sum; lia.
    + rewrite !nth_upd_neq by lia. apply HE. lia.
  - intros b Hb. rewrite nth_upd_neq by lia. destruct (Nat.eq_dec b B) as [->|NE].
    + replace (2 * B + 2 - 1) with (2 * B + 1) by lia. rewrite nth_upd_eq by lia. auto.
    + rewrite nth_upd_neq by lia. apply HO. lia.
Qed.

Lemma v_loop_ok : forall todo i s, 1 <= i -> i + todo = n -> v_inv i s ->
  exists s', rsv_loop p m todo i s (b2n (rt_c p m i)) = Some s' /\ v_inv n s'.
Proof.
  induction todo; intros i s I E H; cbn [rsv_loop].
  - replace n with i by lia. eauto.
  - destruct s as [[[bb j] sum] sl]. destruct H as [L [J [SU [HE [HO HP]]]]]. unfold rsv_step.
    assert (RW := R_word i). destruct (R_diff (64 * i) (64 * (i + 1))) as [D1 D2]; [lia|].
    destruct (R_diff (64 * (8 * ((i - 1) / 8))) (64 * i)) as [D3 D4]; [lia|].
    destruct (Nat.eqb_spec (i mod 8) 0) as [Z|Z].
    + assert (EB : i = 8 * S ((i - 1) / 8)) by lia. set (B := (i - 1) / 8) in *.
      destruct (flush_ok bb B sl sum L) as [bb1 [bb2 [F1 [F2 [F3 [F4 [F5 F6]]]]]]]; auto; try lia.
      { rewrite SU. do 3 f_equal. lia. } { replace (8 * B + 7) with (i - 1) by lia. auto. }
      subst j. rewrite F1. cbn [obind]. rewrite F2. cbn [obind]. rewrite F3. cbn [obind].
      rewrite ld_some by lia. cbn [obind]. rewrite rt_args_ok by auto. apply IHtodo; try lia.
      cbn [v_inv]. replace ((S i - 1) / 8) with (S B) by lia. split; [congruence|]. split; [lia|]. split.
      { rewrite RW. rewrite wadd_small by lia. replace (64 * S i) with (64 * (i + 1)) by lia. replace (64 * (8 * S B)) with (64 * i) by lia. lia. }
      split; auto. split; auto. apply v_packed_0. lia.
    + cbn [obind]. rewrite ld_some by lia. cbn [obind]. rewrite rt_args_ok by auto. apply IHtodo; try lia.
      cbn [v_inv]. replace ((S i - 1) / 8) with ((i - 1) / 8) by lia. set (B := (i - 1) / 8) in *. split; auto. split; auto. split.
      { rewrite RW, SU. rewrite wadd_small by lia. replace (64 * S i) with (64 * (i + 1)) by lia. lia. }
      split; auto. split; auto. replace (S i - 1) with i by lia. rewrite SU. apply v_packed_add; auto; lia.
Qed.

Definition v_table (bb : mem) : Prop :=
  length bb = 2 * (n / 8 + 1) /\
  forall b, b <= n / 8 -> nth (2 * b) bb 0%N = N.of_nat (R (64 * (8 * b))) /\ v_packed b (Nat.min n (8 * b + 7)) (nth (2 * b + 1) bb 0%N).

Lemma v_query : forall bb (v : ivec) idx, v_table bb -> iv_data v = m -> idx <= 64 * n ->
  rsv_rank p v bb idx = Some (N.of_nat (R idx)).
Proof.
  intros bb v idx [L T] D I. unfold rsv_rank. set (B := idx / (64 * 8)). replace (idx / (64 * 4) / 2 * 2) with (2 * B) by (unfold B; lia).
  destruct (T B ltac:(unfold B; lia)) as [T1 T2].
  rewrite ld_some by (unfold B; lia). cbn [obind]. rewrite ld_some by (unfold B; lia). cbn [obind]. rewrite T1.
  set (k := idx mod (64 * 8) / 64). assert (Hk : k < 8) by (unfold k; lia). assert (EI : idx = 64 * (8 * B) + 64 * k + idx mod 64) by (unfold B, k; lia).
  cbv zeta. change 0x1FF%N with (lo_set 9). fold (pk (nth (2 * B + 1) bb 0%N) (63 - 9 * k) 9). fold k.
  assert (PK := T2 k Hk). replace (8 * B + k <=? Nat.min n (8 * B + 7)) with true in PK by lia. rewrite andb_true_r in PK. rewrite PK.
  destruct (R_diff (64 * (8 * B)) (64 * (8 * B + k))) as [D1 D2]; [lia|].
  pose proof (R_bound (64 * (8 * B + k))).
  assert (S1 : wadd (N.of_nat (R (64 * (8 * B)))) (if 1 <=? k then N.of_nat (R (64 * (8 * B + k)) - R (64 * (8 * B))) else 0%N) = N.of_nat (R (64 * (8 * B + k)))).
  { destruct (Nat.leb_spec 1 k).
    - rewrite wadd_small by lia. lia.
    - replace (64 * (8 * B + k)) with (64 * (8 * B)) in * by lia. rewrite wadd_small by lia. lia. }
  rewrite S1. destruct (Nat.eqb_spec (idx mod 64) 0) as [Z|Z]; cbn [negb].
  - do 3 f_equal. lia.
  - rewrite D. rewrite rt_word_ok by (auto; lia). cbn [obind].
    replace (64 * (idx / 64)) with (64 * (8 * B + k)) by (unfold B, k; lia).
    assert (RI : R idx = R (64 * (8 * B + k)) + rank_of (fun j => occ p (mbit m) (64 * (8 * B + k) + j)) (idx mod 64)).
    { unfold R. rewrite EI at 1. replace (64 * (8 * B) + 64 * k + idx mod 64) with (64 * (8 * B + k) + idx mod 64) by lia. rewrite rank_of_add. auto. }
    pose proof (R_bound idx). rewrite wadd_small by lia. f_equal. lia.
Qed.

Lemma v_init : forall bb sum, length bb = 2 * (n / 8 + 1) -> nth 0 bb 0%N = 0%N -> sum = N.of_nat (R 64) -> v_inv 1 (bb, 0, sum, 0%N).
Proof.
  intros bb sum L Z SU. cbn [v_inv]. change ((1 - 1) / 8) with 0. split; auto. split; auto. split.
  { subst. f_equal. change (64 * 1) with 64. change (R (64 * (8 * 0))) with 0. lia. }
  split. { intros b Hb. replace b with 0 by lia. exact Z. }
  split. { intros. lia. } apply v_packed_0. auto.
Qed.
End RSV.

Lemma rsv_build_ok : forall p g v, iv_ok v -> (N.of_nat (iv_capacity v) < W64)%N ->
  exists bb, rsv_build p g v = Some bb /\ v_table p (iv_data v) ((iv_size v + 63) / 64) bb.
Proof.
  intros p g v [A [B C]] SZ. unfold rsv_build, iv_empty. set (n := (iv_size v + 63) / 64).
  assert (CP : iv_capacity v = 64 * n) by (unfold iv_capacity, n; lia). rewrite CP in SZ.
  destruct (Nat.eqb_spec (iv_size v) 0) as [Z|Z].
  { exists [0;0]%N. split; auto. replace n with 0 by (unfold n; lia). split; auto. intros b Hb. replace b with 0 by lia. split; [reflexivity|].
    intros k Hk. replace ((1 <=? k) && (8 * 0 + k <=? Nat.min 0 (8 * 0 + 7))) with false by lia. apply pk_0. }
  assert (NP : 1 <= n) by (unfold n; lia). assert (NL : n <= length (iv_data v)) by (unfold n; lia).
  rewrite CP. replace (64 * n / (64 * 8)) with (n / 8) by lia. replace (64 * n / 64) with n by lia.
  rewrite st_some by (rewrite map_length, seq_length; lia). cbn [obind]. rewrite st_some by (rewrite upd_length, map_length, seq_length; lia). cbn [obind].
  rewrite ld_some by lia. cbn [obind]. rewrite (rt_c_0 p (iv_data v)). rewrite rt_args_ok by auto.
  set (bb0 := upd (upd (map g (seq 0 (2 * (n / 8 + 1)))) 1 0%N) 0 0%N).
  assert (L0 : length bb0 = 2 * (n / 8 + 1)) by (unfold bb0; rewrite !upd_length, map_length, seq_length; auto).
  lazymatch goal with |- context [rsv_loop _ _ _ _ ?s _] =>
    destruct (v_loop_ok p (iv_data v) n A NL SZ (n - 1) 1 s) as [s' [E H]]; try lia end.
  { apply v_init; auto. unfold bb0. apply nth_upd_eq. rewrite upd_length, map_length, seq_length. lia. }
  rewrite E. cbn [obind]. destruct s' as [[[bb j] sum] sl]. destruct H as [L [J [SU [HE [HO HP]]]]].
  destruct (Nat.eqb_spec (n mod 8) 0) as [E8|E8]; cbn [negb].
  - assert (EB : n = 8 * S ((n - 1) / 8)) by lia. set (BB := (n - 1) / 8) in *.
    destruct (flush_ok p (iv_data v) n NL SZ bb BB sl sum L) as [bb1 [bb2 [F1 [F2 [F3 [F4 [F5 F6]]]]]]]; auto; try lia.
    { rewrite SU. do 3 f_equal. lia. } { replace (8 * BB + 7) with (n - 1) by lia. auto. }
    subst j. rewrite F1. cbn [obind]. rewrite F2. cbn [obind]. rewrite F3. cbn [obind]. rewrite st_some by lia.
    eexists. split; [reflexivity|]. split; [rewrite upd_length; congruence|]. intros b Hb. rewrite nth_upd_neq by lia. split; [apply F5; lia|].
    destruct (Nat.eq_dec b (S BB)) as [->|NE].
    + replace (2 * S BB + 1) with (2 * BB + 2 + 1) by lia. rewrite nth_upd_eq by lia. eapply v_packed_0; eauto; lia.
    + rewrite nth_upd_neq by lia. replace (Nat.min n (8 * b + 7)) with (8 * b + 7) by lia. apply F6. lia.
  - set (BB := (n - 1) / 8) in *. rewrite st_some by lia. eexists. split; [reflexivity|]. split; [rewrite upd_length; auto|].
    intros b Hb. rewrite nth_upd_neq by lia. split; [apply HE; lia|]. subst j.
    destruct (Nat.eq_dec b BB) as [->|NE].
    + rewrite nth_upd_eq by lia. replace (Nat.min n (8 * BB + 7)) with n by lia. rewrite SU. eapply v_packed_add; eauto; lia.
    + rewrite nth_upd_neq by lia. replace (Nat.min n (8 * b + 7)) with (8 * b + 7) by lia. apply HO. lia.
Qed.
