(** * Proofs about cnt10/cnt01/map10/map01, cnt11, hi11, sel11 (Bits.v). *)
From Coq Require Import NArith ZArith List Lia Bool Arith.
From Verif Require Import Base Tables Bits SpecBits BitsProofs BitsProofs2 BitsProofs3 RankSelect.
Import ListNotations.
Local Open Scope N_scope.

(** ** Two-bit patterns *)
Definition prevbit (before : bool) (f : nat -> bool) (k : nat) : bool :=
  match k with O => before | S k' => f k' end.

Lemma count_pat2_rank : forall p1 p2 f n before,
  count_pat2 p1 p2 before (map f (seq 0 n)) =
  rank_of (fun k => eqb (prevbit before f k) p1 && eqb (f k) p2) n.
Proof.
  intros p1 p2 f n. revert f. induction n; intros; auto.
  cbn [seq map count_pat2]. rewrite <- seq_shift, map_map, IHn.
  change (S n) with (1 + n)%nat. rewrite rank_of_add. f_equal.
  - rewrite rank_of_S, rank_of_0. reflexivity.
  - apply rank_of_ext. intros. destruct j; auto.
Qed.

Lemma tb_carry_in : forall x (c : bool) k, is_word x -> (k < 64)%nat ->
  tb (N.lor (shl x 1) (b2n c)) k = prevbit c (tb x) k.
Proof.
  intros. rewrite tb_lor, tb_shl. apply Nat.ltb_lt in H0. rewrite H0. cbn [andb].
  destruct k; cbn [prevbit].
  - simpl. destruct c; reflexivity.
  - replace (1 <=? S k)%nat with true by reflexivity. replace (S k - 1)%nat with k by lia. cbn [andb].
    replace (tb (b2n c) (S k)) with false. { apply orb_false_r. }
    symmetry. apply tb_high with 1%nat; [destruct c; reflexivity|lia].
Qed.

Lemma is_word_b2n : forall c, is_word (b2n c). Proof. destruct c; reflexivity. Qed.
Global Hint Resolve is_word_b2n : word.

Lemma map01_bits : forall x (c : bool) k, is_word x -> (k < 64)%nat ->
  tb (map01 x (b2n c)) k = eqb (prevbit c (tb x) k) false && eqb (tb x k) true.
Proof.
  intros. unfold map01. rewrite tb_land, tb_lxor, tb_carry_in by auto.
  destruct (prevbit c (tb x) k), (tb x k); auto.
Qed.
Lemma map10_bits : forall x (c : bool) k, is_word x -> (k < 64)%nat ->
  tb (map10 x (b2n c)) k = eqb (prevbit c (tb x) k) true && eqb (tb x k) false.
Proof.
  intros. unfold map10. rewrite tb_land, tb_lxor, tb_carry_in, tb_wnot by auto.
  apply Nat.ltb_lt in H0. rewrite H0.
  destruct (prevbit c (tb x) k), (tb x k); auto.
Qed.
Lemma is_word_map01 : forall x (c : bool), is_word x -> is_word (map01 x (b2n c)).
Proof. intros. unfold map01. auto with word. Qed.
Lemma is_word_map10 : forall x (c : bool), is_word x -> is_word (map10 x (b2n c)).
Proof. intros. unfold map10. auto with word. Qed.

Lemma shr63 : forall x, is_word x -> shr x 63 = b2n (tb x 63).
Proof.
  intros. apply tb_ext. intro k. rewrite tb_shr. destruct k.
  - destruct (tb x 63) eqn:E; simpl; rewrite E; reflexivity.
  - rewrite (tb_word_high x) by (auto; lia). symmetry. apply tb_high with 1%nat; [destruct (tb x 63); reflexivity|lia].
Qed.

Lemma cnt01c_correct : forall x (c : bool), is_word x ->
  cnt01c x (b2n c) = (N.of_nat (count_pat2 false true c (bits_of_N 64 x)), b2n (tb x 63)).
Proof.
  intros. unfold cnt01c. fold (map01 x (b2n c)).
  rewrite cnt_correct by (apply is_word_map01; auto). f_equal; [f_equal|apply shr63; auto].
  unfold bits_of_N. rewrite count_pat2_rank, popcount_rank. apply rank_of_ext. intros. apply map01_bits; auto.
Qed.
Lemma cnt10c_correct : forall x (c : bool), is_word x ->
  cnt10c x (b2n c) = (N.of_nat (count_pat2 true false c (bits_of_N 64 x)), b2n (tb x 63)).
Proof.
  intros. unfold cnt10c. fold (map10 x (b2n c)).
  rewrite cnt_correct by (apply is_word_map10; auto). f_equal; [f_equal|apply shr63; auto].
  unfold bits_of_N. rewrite count_pat2_rank, popcount_rank. apply rank_of_ext. intros. apply map10_bits; auto.
Qed.

(** ** The 11 pattern, in base 4 digits *)
Definition e11 (d : N) : N := if d =? 3 then 1 else 0.
Definition g11 (d : N) : N := if d =? 3 then 0 else d.
(** state after a digit *)
Definition nx (s : bool) (d : N) : bool := (d =? 2) || ((d =? 3) && s).
(** digit of t *)
Definition td (s : bool) (d : N) : N := (3 * e11 d + b2n s) mod 4.

Fixpoint amap (f : bool -> N -> N) (s : bool) (ds : list N) : list N :=
  match ds with [] => [] | d :: t => f s d :: amap f (nx s d) t end.
Fixpoint afin (s : bool) (ds : list N) : bool :=
  match ds with [] => s | d :: t => afin (nx s d) t end.

Lemma dig2_cases : forall d, d < 4 -> d = 0 \/ d = 1 \/ d = 2 \/ d = 3.
Proof. intros. lia. Qed.

Lemma amap_length : forall f ds s, length (amap f s ds) = length ds.
Proof. induction ds; simpl; auto. Qed.

Definition m55n (n : nat) := undig 2 (repeat 1 n).

Ltac dig2 d H := let E := fresh "Ed" in destruct (dig2_cases d H) as [E|[E|[E|E]]]; rewrite ?E.
Ltac dig2s d H := let E := fresh "Ed" in destruct (dig2_cases d H) as [E|[E|[E|E]]]; subst d.
Ltac d4 := change (2 ^ N.of_nat 2) with 4 in *.

Lemma ex11_dig : forall ds, digs_ok 2 ds ->
  N.land (N.land (undig 2 ds) (shr (undig 2 ds) 1)) (m55n (length ds)) = undig 2 (map e11 ds).
Proof.
  induction 1; auto. cbn [undig map length]. unfold m55n in *. cbn [repeat undig].
  rewrite <- N.land_assoc. rewrite cat_shr_land by (auto; reflexivity).
  rewrite cat_land; auto.
  - rewrite <- IHForall, <- N.land_assoc. f_equal. d4. dig2 x H; reflexivity.
  - d4. dig2 x H; reflexivity.
Qed.

Lemma e11_ok : forall ds, digs_ok 2 (map e11 ds).
Proof. induction ds; simpl; constructor; auto. unfold e11. destruct (a =? 3); reflexivity. Qed.
Lemma e11_lt : forall ds, (length ds = 32)%nat -> 3 * undig 2 (map e11 ds) < W64.
Proof.
  intros. enough (forall l, 3 * undig 2 (map e11 l) + 1 <= 2 ^ N.of_nat (2 * length l)).
  { specialize (H0 ds). rewrite H in H0. change (2 ^ N.of_nat (2 * 32)) with W64 in H0. lia. }
  induction l; cbn [map undig length]. { discriminate. }
  replace (N.of_nat (2 * S (length l))) with (2 + N.of_nat (2 * length l)) by lia.
  rewrite N.pow_add_r. unfold cat. d4. change (2 ^ 2) with 4. unfold e11 at 1. destruct (a =? 3); lia.
Qed.

Lemma ex11d_dig : forall ds, digs_ok 2 ds ->
  N.lor (undig 2 (map e11 ds)) (2 * undig 2 (map e11 ds)) = undig 2 (map (fun d => 3 * e11 d) ds).
Proof.
  induction 1; auto. cbn [undig map].
  replace (2 * cat 2 (e11 x) (undig 2 (map e11 l))) with (cat 2 (2 * e11 x) (2 * undig 2 (map e11 l)))
    by (unfold cat; lia).
  d4. rewrite cat_lor; [|d4; dig2 x H; reflexivity|d4; dig2 x H; reflexivity].
  rewrite IHForall. f_equal. dig2 x H; reflexivity.
Qed.

Lemma lxor_dig : forall ds, digs_ok 2 ds ->
  N.lxor (undig 2 (map (fun d => 3 * e11 d) ds)) (undig 2 ds) = undig 2 (map g11 ds).
Proof.
  induction 1; auto. cbn [undig map]. d4.
  rewrite cat_lxor; [|d4; dig2 x H; reflexivity|auto].
  rewrite IHForall. f_equal. dig2 x H; reflexivity.
Qed.

(** the added-in ones *)
Fixpoint addin (c : N) (ds : list N) : list N :=
  match ds with [] => [] | d :: t => c :: addin (b2n (d =? 2)) t end.

Lemma addin_dig : forall ds c, digs_ok 2 ds -> c <= 1 ->
  N.land (c + 2 * undig 2 (map g11 ds)) (m55n (length ds)) = undig 2 (addin c ds).
Proof.
  intros ds c H. revert c. induction H; intros c Hc.
  - cbn [map undig length addin m55n repeat]. apply N.land_0_r.
  - cbn [map undig length addin]. unfold m55n. cbn [repeat undig]. fold (m55n (length l)).
    d4.
    replace (c + 2 * cat 2 (g11 x) (undig 2 (map g11 l))) with
      (cat 2 ((c + 2 * g11 x) mod 4) (b2n (x =? 2) + 2 * undig 2 (map g11 l))).
    2:{ unfold cat. d4. dig2 x H; unfold g11; simpl (_ =? _); cbn [b2n]; lia. }
    rewrite cat_land; [|d4; apply N.mod_lt; discriminate|reflexivity].
    rewrite IHForall by (destruct (x =? 2); simpl; lia).
    f_equal. destruct (N.eq_dec c 0) as [->|]; [|replace c with 1 by lia]; dig2 x H; reflexivity.
Qed.

(** addition with carry *)
Fixpoint acarry (c cy : bool) (ds : list N) : bool * bool :=
  match ds with [] => (c, cy) | d :: t => acarry (d =? 2) ((d =? 3) && (c || cy)) t end.

Lemma add_dig : forall ds c cy, digs_ok 2 ds -> c && cy = false ->
  undig 2 (map (fun d => 3 * e11 d) ds) + undig 2 (addin (b2n c) ds) + b2n cy =
  undig 2 (amap td (c || cy) ds) + 4 ^ N.of_nat (length ds) * b2n (snd (acarry c cy ds)).
Proof.
  intros ds c cy H. revert c cy. induction H; intros c cy Hc.
  - cbn [map undig addin amap acarry length snd]. change (4 ^ N.of_nat 0) with 1. lia.
  - cbn [map undig addin amap acarry length].
    specialize (IHForall (x =? 2) ((x =? 3) && (c || cy))).
    assert (E : (x =? 2) && ((x =? 3) && (c || cy)) = false) by (d4; dig2 x H; reflexivity).
    specialize (IHForall E). fold (nx (c || cy) x) in IHForall.
    rewrite Nat2N.inj_succ, N.pow_succ_r'.
    unfold cat. d4.
    assert (D : 3 * e11 x + b2n c + b2n cy = td (c || cy) x + 4 * b2n ((x =? 3) && (c || cy))).
    { dig2 x H; destruct c, cy; try discriminate; reflexivity. }
    lia.
Qed.

Lemma acarry_fin : forall ds c cy, digs_ok 2 ds -> c && cy = false ->
  afin (c || cy) ds = fst (acarry c cy ds) || snd (acarry c cy ds).
Proof.
  intros ds c cy H. revert c cy. induction H; intros c cy Hc; auto.
  cbn [afin acarry]. rewrite <- IHForall; auto. d4. dig2 x H; reflexivity.
Qed.

Lemma acarry_fst : forall ds c cy, (0 < length ds)%nat ->
  fst (acarry c cy ds) = (nth (length ds - 1) ds 0 =? 2).
Proof.
  induction ds; intros; simpl in H; [lia|]. cbn [acarry length].
  destruct ds; auto. rewrite IHds by (simpl; lia). cbn [length].
  replace (S (S (length ds)) - 1)%nat with (S (S (length ds) - 1)) by lia. reflexivity.
Qed.

Lemma td_ok : forall ds s, digs_ok 2 (amap td s ds).
Proof. induction ds; simpl; constructor; auto. - apply N.mod_lt. discriminate. - apply IHds. Qed.

(** all together, for a word *)
Definition yd (s : bool) (d : N) : N := N.lor (e11 d) (N.land (td s d) (N.land (g11 d) 1)).
Definition zd (s : bool) (d : N) : N := e11 d + N.land (td s d) (N.lor (N.land (g11 d) 1) (e11 d)).

Lemma g11_lt : forall d, d < 4 -> g11 d < 4.
Proof. intros. unfold g11. destruct (d =? 3); [reflexivity|auto]. Qed.

Lemma y_dig : forall ds s, digs_ok 2 ds ->
  N.lor (undig 2 (map e11 ds)) (N.land (undig 2 (amap td s ds)) (N.land (undig 2 (map g11 ds)) (m55n (length ds))))
  = undig 2 (amap yd s ds).
Proof.
  intros ds s H. revert s. induction H; intros; auto.
  cbn [map amap undig length]. unfold m55n. cbn [repeat undig]. fold (m55n (length l)). d4.
  rewrite cat_land; [|d4; apply g11_lt; auto|reflexivity].
  rewrite cat_land; [|apply N.mod_lt; discriminate|d4; dig2 x H; reflexivity].
  rewrite cat_lor.
  - rewrite IHForall. reflexivity.
  - d4; dig2 x H; reflexivity.
  - d4; dig2 x H; destruct s; reflexivity.
Qed.
Lemma z_dig : forall ds s, digs_ok 2 ds ->
  undig 2 (map e11 ds) + N.land (undig 2 (amap td s ds))
     (N.lor (N.land (undig 2 (map g11 ds)) (m55n (length ds))) (undig 2 (map e11 ds)))
  = undig 2 (amap zd s ds).
Proof.
  intros ds s H. revert s. induction H; intros; auto.
  cbn [map amap undig length]. unfold m55n. cbn [repeat undig]. fold (m55n (length l)). d4.
  rewrite cat_land; [|d4; apply g11_lt; auto|reflexivity].
  rewrite cat_lor; [|d4; dig2 x H; reflexivity|d4; dig2 x H; reflexivity].
  rewrite cat_land; [|apply N.mod_lt; discriminate|d4; dig2 x H; reflexivity].
  rewrite <- IHForall. unfold cat, zd. d4. lia.
Qed.

Lemma yd_ok : forall ds s, digs_ok 2 ds -> digs_ok 2 (amap yd s ds).
Proof.
  intros ds s H. revert s. induction H; intros; cbn [amap]; constructor; [|apply IHForall].
  d4. dig2 x H; destruct s; reflexivity.
Qed.
Lemma zd_ok : forall ds s, digs_ok 2 ds -> digs_ok 2 (amap zd s ds).
Proof.
  intros ds s H. revert s. induction H; intros; cbn [amap]; constructor; [|apply IHForall].
  d4. dig2 x H; destruct s; reflexivity.
Qed.

Lemma y_mask : forall ds s, digs_ok 2 ds ->
  N.land (undig 2 (amap yd s ds)) (m55n (length ds)) = undig 2 (amap yd s ds).
Proof.
  intros ds s H. revert s. induction H; intros; auto.
  cbn [amap undig length]. unfold m55n. cbn [repeat undig]. fold (m55n (length l)).
  rewrite cat_land; [|d4; dig2 x H; destruct s; reflexivity|reflexivity].
  rewrite IHForall. f_equal. d4. dig2 x H; destruct s; reflexivity.
Qed.

(** the automaton is the greedy matcher *)
Lemma greedy_dig : forall ds s, digs_ok 2 ds ->
  greedy11 s (flat_map (bits_of_N 2) ds) =
  (count_true (flat_map (bits_of_N 2) (amap yd s ds)), afin s ds).
Proof.
  intros ds s H. revert s. induction H; intros; auto.
  cbn [amap flat_map afin]. d4. rewrite count_true_app.
  specialize (IHForall (nx s x)).
  dig2s x H; destruct s; cbn in IHForall |- *; rewrite IHForall; reflexivity.
Qed.

Lemma greedy_ends_dig : forall ds s o, digs_ok 2 ds ->
  greedy11_ends s o (flat_map (bits_of_N 2) ds) =
  map (Nat.add o) (positions (tb (undig 2 (amap zd s ds))) (2 * length ds)).
Proof.
  intros ds s o H. revert s o. induction H; intros; auto.
  cbn [amap undig flat_map length].
  replace (2 * S (length l))%nat with (2 + 2 * length l)%nat by lia.
  assert (Z : zd s x < 2 ^ N.of_nat 2) by (d4; dig2 x H; destruct s; reflexivity).
  rewrite positions_add, map_app.
  rewrite (positions_ext _ (tb (zd s x)) 2).
  2:{ intros. rewrite tb_cat by auto. apply Nat.ltb_lt in H1. rewrite H1. auto. }
  rewrite (positions_ext _ (tb (undig 2 (amap zd (nx s x) l))) (2 * length l)).
  2:{ intros. rewrite tb_cat by auto. destruct (Nat.ltb_spec (2 + j) 2); try lia. f_equal. lia. }
  rewrite map_map.
  rewrite (map_ext (fun x0 : nat => (o + (2 + x0))%nat) (Nat.add (S (S o)))) by (intros; lia).
  rewrite <- IHForall.
  d4. dig2s x H; destruct s;
  match goal with |- context [positions (tb (zd ?a ?b)) 2] =>
    let v := eval vm_compute in (positions (tb (zd a b)) 2) in
    change (positions (tb (zd a b)) 2) with v end; cbn;
  repeat match goal with |- context [tb ?a ?b] =>
    let v := eval vm_compute in (tb a b) in change (tb a b) with v end; cbn;
  rewrite ?Nat.add_0_r, ?Nat.add_1_r; reflexivity.
Qed.

Lemma word_dig2 : forall x, is_word x -> exists ds, length ds = 32%nat /\ digs_ok 2 ds /\ x = undig 2 ds.
Proof.
  intros. exists (dig 2 32 x). split; [apply dig_length|]. split; [apply dig_ok|].
  symmetry. apply undig_dig. exact H.
Qed.

Lemma ex_all : forall ds, length ds = 32%nat -> digs_ok 2 ds ->
  let x := undig 2 ds in
  ex11 x = undig 2 (map e11 ds) /\ ex11d x = undig 2 (map (fun d => 3 * e11 d) ds) /\
  ex10or01 x = undig 2 (map g11 ds).
Proof.
  intros ds L O x.
  assert (E : ex11 x = undig 2 (map e11 ds)).
  { unfold ex11, x. change m55 with (m55n 32). rewrite <- L. apply ex11_dig; auto. }
  assert (D : ex11d x = undig 2 (map (fun d => 3 * e11 d) ds)).
  { unfold ex11d. rewrite E. rewrite shl_mul. change (2 ^ N.of_nat 1) with 2.
    rewrite N.mod_small by (pose proof (e11_lt ds L); lia). rewrite N.mul_comm. apply ex11d_dig; auto. }
  split; auto. split; auto. unfold ex10or01. rewrite D. apply lxor_dig; auto.
Qed.

Lemma addin_word : forall ds (c : bool), length ds = 32%nat -> digs_ok 2 ds ->
  N.lor (N.land (shl (ex10or01 (undig 2 ds)) 1) m55) (b2n c) = undig 2 (addin (b2n c) ds).
Proof.
  intros ds c L O. destruct (ex_all ds L O) as [_ [_ G]]. rewrite G.
  rewrite <- addin_dig by (auto; destruct c; simpl; lia). rewrite L. change (m55n 32) with m55.
  set (E := undig 2 (map g11 ds)).
  change (b2n c + 2 * E) with (cat 1 (b2n c) E).
  apply tb_ext. intro k. rewrite tb_lor, !tb_land, tb_shl, tb_cat by (destruct c; reflexivity).
  destruct k.
  - simpl. destruct c; reflexivity.
  - destruct (Nat.ltb_spec (S k) 1); [lia|].
    replace (1 <=? S k)%nat with true by reflexivity. simpl andb.
    replace (tb (b2n c) (S k)) with false.
    2:{ symmetry. apply tb_high with 1%nat; [destruct c; reflexivity|lia]. }
    rewrite orb_false_r. destruct (Nat.ltb_spec (S k) 64); auto.
    assert (tb m55 (S k) = false). { apply tb_word_high; [reflexivity|lia]. }
    rewrite H1, !andb_false_r. auto.
Qed.

Lemma t11_word : forall ds (c : bool), length ds = 32%nat -> digs_ok 2 ds ->
  let x := undig 2 ds in
  t11 x (b2n c) = undig 2 (amap td c ds) /\
  (t11 x (b2n c) <? ex11d x) = snd (acarry c false ds).
Proof.
  intros ds c L O x. destruct (ex_all ds L O) as [E [D G]]. fold x in E, D, G.
  unfold t11. unfold x. rewrite addin_word by auto. fold x. rewrite D.
  pose proof (add_dig ds c false O ltac:(destruct c; auto)) as A.
  rewrite L in A. change (4 ^ N.of_nat 32) with W64 in A. cbn [b2n] in A. rewrite N.add_0_r, orb_false_r in A.
  pose proof (undig_lt 2 _ (td_ok ds c)) as Lt. rewrite amap_length, L in Lt.
  change (2 ^ N.of_nat (2 * 32)) with W64 in Lt.
  assert (LtD : undig 2 (map (fun d => 3 * e11 d) ds) < W64).
  { rewrite <- D. unfold ex11d. rewrite E. apply is_word_lor; auto with word.
    pose proof (e11_lt ds L). unfold is_word. lia. }
  assert (LtA : undig 2 (addin (b2n c) ds) < W64).
  { rewrite <- addin_word by auto. apply is_word_lor; auto with word. }
  unfold wadd. rewrite A.
  rewrite N.mul_comm, N.mod_add by discriminate. rewrite N.mod_small by auto. split; auto.
  destruct (snd (acarry c false ds)); cbn [b2n] in A.
  - apply N.ltb_lt. lia.
  - apply N.ltb_ge. lia.
Qed.

Lemma ex10_63 : forall ds, length ds = 32%nat -> digs_ok 2 ds ->
  negb (shr (ex10or01 (undig 2 ds)) 63 =? 0) = (nth 31 ds 0 =? 2).
Proof.
  intros ds L O. destruct (ex_all ds L O) as [E [D G]]. rewrite G.
  assert (OG : digs_ok 2 (map g11 ds)).
  { eapply Forall_map_impl; [exact O|]. intros. apply g11_lt. exact H. }
  assert (W : is_word (undig 2 (map g11 ds))).
  { pose proof (undig_lt 2 _ OG). rewrite map_length, L in H. exact H. }
  rewrite shr63 by auto.
  replace (tb (undig 2 (map g11 ds)) 63) with (tb (nth 31 (map g11 ds) 0) 1).
  2:{ rewrite <- (undig_digit 2 _ 31 OG). rewrite tb_mod_pow2, <- shr_div, tb_shr. reflexivity. }
  change 0 with (g11 0) at 1. rewrite map_nth.
  assert (N31 : nth 31 ds 0 < 4).
  { apply (proj1 (Forall_forall _ _) O). apply nth_In. lia. }
  dig2 (nth 31 ds 0) N31; reflexivity.
Qed.

Lemma bits64_dig : forall ds, length ds = 32%nat -> digs_ok 2 ds ->
  bits_of_N 64 (undig 2 ds) = flat_map (bits_of_N 2) ds.
Proof. intros. rewrite <- tb_undig_bits, H by auto. reflexivity. Qed.

Lemma cnt11c_correct : forall x (c : bool), is_word x ->
  let r := greedy11 c (bits_of_N 64 x) in
  cnt11c x (b2n c) = (N.of_nat (fst r), b2n (snd r)).
Proof.
  intros x c Hx r. destruct (word_dig2 x Hx) as [ds [L [O ->]]].
  destruct (ex_all ds L O) as [E [D G]]. destruct (t11_word ds c L O) as [T1 T2].
  unfold cnt11c. rewrite T2, ex10_63 by auto.
  subst r. rewrite bits64_dig, greedy_dig by auto. cbn [fst snd].
  f_equal.
  - rewrite E, G, T1. change m55 with (m55n 32). rewrite <- L at 1. rewrite y_dig by auto.
    rewrite swar_cnt11_correct.
    + unfold popcount. rewrite bits64_dig by (rewrite ?amap_length; auto using yd_ok). auto.
    + pose proof (undig_lt 2 _ (yd_ok ds c O)). rewrite amap_length, L in H. exact H.
    + change m55 with (m55n 32). rewrite <- L at 1. apply y_mask; auto.
  - f_equal. rewrite <- (orb_false_r c) at 2. rewrite acarry_fin by (auto; destruct c; auto).
    rewrite acarry_fst by lia. rewrite L. reflexivity.
Qed.

Lemma cnt11_carry0 : forall x, cnt11 x = fst (cnt11c x 0).
Proof. intros. unfold cnt11, cnt11c, t11. rewrite N.lor_0_r. reflexivity. Qed.

Lemma cnt11_correct : forall x, is_word x -> cnt11 x = N.of_nat (fst (greedy11 false (bits_of_N 64 x))).
Proof. intros. rewrite cnt11_carry0. change 0 with (b2n false). rewrite cnt11c_correct by auto. auto. Qed.

Lemma sel11_word : forall ds (c : bool), length ds = 32%nat -> digs_ok 2 ds ->
  let x := undig 2 ds in
  wadd (ex11 x) (N.land (t11 x (b2n c)) (N.lor (N.land (ex10or01 x) m55) (ex11 x))) = undig 2 (amap zd c ds).
Proof.
  intros ds c L O x. destruct (ex_all ds L O) as [E [D G]]. destruct (t11_word ds c L O) as [T1 T2].
  fold x in E, D, G, T1, T2. rewrite E, G, T1. change m55 with (m55n 32). rewrite <- L at 1.
  unfold wadd. rewrite z_dig by auto. apply N.mod_small.
  pose proof (undig_lt 2 _ (zd_ok ds c O)). rewrite amap_length, L in H. exact H.
Qed.

(** the one bits of the mask computed by sel11/hi11 are the ends of the matches *)
Lemma sel11_mask : forall x (c : bool), is_word x ->
  let z := wadd (ex11 x) (N.land (t11 x (b2n c)) (N.lor (N.land (ex10or01 x) m55) (ex11 x))) in
  is_word z /\ positions (tb z) 64 = greedy11_ends c 0 (bits_of_N 64 x).
Proof.
  intros x c Hx z. destruct (word_dig2 x Hx) as [ds [L [O ->]]]. unfold z.
  split; [auto with word|]. rewrite sel11_word by auto. rewrite bits64_dig by auto.
  rewrite greedy_ends_dig by auto. rewrite L. change (2 * 32)%nat with 64%nat.
  rewrite <- (map_id (positions _ 64)) at 1. apply map_ext. intros. lia.
Qed.

Lemma sel11_correct : forall x i (c : bool), is_word x ->
  (1 <= i <= length (greedy11_ends c 0 (bits_of_N 64 x)))%nat ->
  sel11 x (N.of_nat i) (b2n c) = Some (N.of_nat (nth (i - 1) (greedy11_ends c 0 (bits_of_N 64 x)) 0%nat)).
Proof.
  intros x i c Hx Hi. unfold sel11. destruct (sel11_mask x c Hx) as [W P].
  set (z := wadd _ _) in *.
  destruct (sel_correct z i W) as [p [A B]].
  { rewrite popcount_rank. unfold rank_of. rewrite P. auto. }
  rewrite A, <- P. do 2 f_equal. symmetry. apply select_positions; auto.
  destruct B as [B _]. apply Nat.nle_gt. intro. rewrite tb_word_high in B by auto. discriminate.
Qed.

Lemma hi11_correct : forall x, is_word x ->
  hi11 x = N.of_nat (last (greedy11_ends false 0 (bits_of_N 64 x)) 0%nat).
Proof.
  intros x Hx. destruct (sel11_mask x false Hx) as [W P].
  unfold hi11. cbn [b2n] in *. unfold t11 in *. rewrite N.lor_0_r in *.
  set (z := wadd _ (N.land _ _)) in *. rewrite <- P.
  rewrite hi_correct by auto. destruct (N.eq_dec z 0) as [E|E].
  - rewrite E. reflexivity.
  - destruct (log2_is_msb z E) as [A B].
    assert (Lt : (N.to_nat (N.log2 z) < 64)%nat).
    { apply Nat.nle_gt. intro. rewrite tb_word_high in A by auto. discriminate. }
    rewrite <- (N2Nat.id (N.log2 z)) at 1. f_equal.
    set (q := N.to_nat (N.log2 z)) in *. clearbody q.
    replace 64%nat with (S q + (63 - q))%nat by lia. rewrite positions_add.
    rewrite (positions_ext (fun j => tb z (S q + j)) (fun _ => false)) by (intros; apply B; lia).
    replace (positions (fun _ => false) (63 - q)) with (@nil nat).
    2:{ symmetry. apply length_zero_iff_nil. apply rank_of_const_false. }
    simpl map. rewrite app_nil_r, positions_S, A. rewrite last_last. auto.
Qed.

(** ** Streams of words *)
Lemma greedy11_app : forall l1 l2 c,
  greedy11 c (l1 ++ l2) =
  (fst (greedy11 c l1) + fst (greedy11 (snd (greedy11 c l1)) l2), snd (greedy11 (snd (greedy11 c l1)) l2))%nat.
Proof.
  induction l1; intros; cbn [app greedy11].
  - cbn [fst snd]. rewrite Nat.add_0_l. apply surjective_pairing.
  - destruct a; [destruct c|]; rewrite IHl1.
    + destruct (greedy11 false l1). cbn [fst snd]. f_equal.
    + auto.
    + auto.
Qed.

Lemma last_cons : forall A (l : list A) a c, last (a :: l) c = last l a.
Proof.
  induction l as [|b l IH]; intros; auto.
  change (last (a :: b :: l) c) with (last (b :: l) c). rewrite !IH. auto.
Qed.

Lemma count_pat2_app : forall p1 p2 l1 l2 c,
  count_pat2 p1 p2 c (l1 ++ l2) = (count_pat2 p1 p2 c l1 + count_pat2 p1 p2 (last l1 c) l2)%nat.
Proof.
  induction l1; intros; cbn [app count_pat2]; [auto|].
  rewrite IHl1, last_cons. lia.
Qed.

Lemma last_bits64 : forall x c, last (bits_of_N 64 x) c = tb x 63.
Proof. intros. unfold bits_of_N. rewrite seq_S, map_app. apply last_last. Qed.

Lemma stream_cnt11 : forall ws (c : bool), words_ok ws ->
  stream_count cnt11c (b2n c) ws =
  (N.of_nat (fst (greedy11 c (stream_bits ws))), b2n (snd (greedy11 c (stream_bits ws)))).
Proof.
  intros ws c H. revert c. induction H; intros; auto.
  cbn [stream_count stream_bits flat_map]. rewrite cnt11c_correct by auto.
  rewrite IHForall. rewrite greedy11_app. cbn [fst snd].
  fold (stream_bits l). f_equal. lia.
Qed.

Lemma last_app_ne : forall A (l1 l2 : list A) d, last (l1 ++ l2) d = last l2 (last l1 d).
Proof.
  induction l1; intros; auto. cbn [app]. rewrite !last_cons. apply IHl1.
Qed.

Lemma stream_cnt01 : forall ws (c : bool), words_ok ws ->
  stream_count cnt01c (b2n c) ws =
  (N.of_nat (count_pat2 false true c (stream_bits ws)), b2n (last (stream_bits ws) c)).
Proof.
  intros ws c H. revert c. induction H; intros; auto.
  cbn [stream_count stream_bits flat_map]. rewrite cnt01c_correct by auto.
  rewrite IHForall. rewrite count_pat2_app, last_bits64, last_app_ne, last_bits64.
  fold (stream_bits l). f_equal. lia.
Qed.
Lemma stream_cnt10 : forall ws (c : bool), words_ok ws ->
  stream_count cnt10c (b2n c) ws =
  (N.of_nat (count_pat2 true false c (stream_bits ws)), b2n (last (stream_bits ws) c)).
Proof.
  intros ws c H. revert c. induction H; intros; auto.
  cbn [stream_count stream_bits flat_map]. rewrite cnt10c_correct by auto.
  rewrite IHForall. rewrite count_pat2_app, last_bits64, last_app_ne, last_bits64.
  fold (stream_bits l). f_equal. lia.
Qed.
