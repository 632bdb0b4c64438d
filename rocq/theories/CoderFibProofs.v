(** * Proofs about CoderFib.v: Zeckendorf representations and the encoder. *)
From Coq Require Import NArith List Bool Arith Lia.
From Verif Require Import Base Tables Bits SpecBits BitsProofs BitsProofs2 BitsProofs3 BitsProofs4 BitsMem IntVector AbsVec WtBase Coder CoderProofs CoderProofs3 SpecFib CoderFib.
Import ListNotations.

Lemma fib_S : forall n, fib (S (S n)) = (fib n + fib (S n))%N.
Proof. intros. unfold fib. simpl. destruct (fib_pair n). reflexivity. Qed.
Lemma fib_SS : forall n, (fib (S n) <= 2 * fib n /\ fib n < fib (S n) /\ 1 <= fib n)%N.
Proof.
  induction n. { unfold fib. simpl. lia. }
  rewrite fib_S. lia.
Qed.
Lemma fib_pos : forall n, (1 <= fib n)%N.
Proof. intros. apply fib_SS. Qed.
Lemma fib_mono : forall a b, a <= b -> (fib a <= fib b)%N.
Proof. induction 1; [lia|]. pose proof (fib_SS m). lia. Qed.
Lemma fib_le_pow : forall n, (fib n <= 2 ^ N.of_nat n)%N.
Proof. induction n. { unfold fib; simpl; lia. } pose proof (fib_SS n). rewrite pow2_S. lia. Qed.
Lemma lt_fib_ok : forall j, j < 92 -> lt_fib j = Some (fib j).
Proof.
  assert (forallb (fun j => match lt_fib j with Some x => (x =? fib j)%N | None => false end) (seq 0 92) = true) by (vm_compute; reflexivity).
  intros j Hj. rewrite forallb_forall in H. specialize (H j ltac:(apply in_seq; lia)). destruct (lt_fib j); [|discriminate].
  apply N.eqb_eq in H. congruence.
Qed.
Lemma fibs_92 : fibs = 92.
Proof. reflexivity. Qed.
Lemma fib_92 : (2 ^ 64 < fib 92)%N.
Proof. vm_compute. reflexivity. Qed.

(** ** sums and codewords *)
(** sum of the Fibonacci numbers selected by the bits, the first with index [k] *)
Fixpoint fv (k : nat) (l : list bool) : N :=
  match l with [] => 0%N | b :: t => ((if b then fib k else 0) + fv (S k) t)%N end.
(** a suffix of a codeword: the only 11 is at the end *)
Inductive cw : list bool -> Prop :=
| cw_end : cw [true; true]
| cw_0 : forall t, cw t -> cw (false :: t)
| cw_1 : forall t, cw (false :: t) -> cw (true :: false :: t).

Lemma fv_app : forall a b k, fv k (a ++ b) = (fv k a + fv (k + length a) b)%N.
Proof.
  induction a; intros; simpl. { rewrite Nat.add_0_r. auto. }
  rewrite IHa. replace (S k + length a0) with (k + S (length a0)) by lia. lia.
Qed.
Lemma fv_false : forall n k, fv k (repeat false n) = 0%N.
Proof. induction n; intros; simpl; auto. rewrite IHn. auto. Qed.
Lemma cw_len : forall c, cw c -> 2 <= length c.
Proof. induction 1; simpl in *; lia. Qed.
Lemma cw_greedy : forall c, cw c -> forall r, greedy11 false (c ++ r) = (S (fst (greedy11 false r)), snd (greedy11 false r)).
Proof.
  induction 1; intros r; simpl in *; auto. destruct (greedy11 false r). auto.
Qed.
Lemma cw_ends : forall c, cw c -> forall p r, greedy11_ends false p (c ++ r) = (p + length c - 1) :: greedy11_ends false (p + length c) r.
Proof.
  induction 1; intros p r.
  - simpl. f_equal; [lia|]. f_equal. lia.
  - pose proof (cw_len _ H). simpl. rewrite IHcw. f_equal; [lia|]. f_equal. lia.
  - pose proof (cw_len _ H). cbn [app greedy11_ends]. specialize (IHcw (S p) r). cbn [app greedy11_ends] in IHcw. rewrite IHcw.
    simpl in *. f_equal; [lia|]. f_equal. lia.
Qed.
Lemma cw_prefix : forall a b, cw (a ++ b) -> b <> [] -> fst (greedy11 false a) = 0.
Proof.
  intros a b H NB. remember (a ++ b) as c. revert a b Heqc NB. induction H; intros a b E NB.
  - destruct a as [|x [|y [|z a]]]; simpl in *; auto.
    + injection E. intros. subst. auto.
    + injection E. intros. subst. contradiction.
    + injection E. intros. discriminate.
  - destruct a as [|x a]; [auto|]. injection E. intros. subst. simpl. eauto.
  - destruct a as [|x [|y a]]; [auto| |]; injection E; intros; subst; [auto|]. simpl.
    specialize (IHcw (false :: a) b eq_refl NB). simpl in IHcw. auto.
Qed.
Lemma cw_tl : forall b t, cw (b :: t) -> (b = true /\ t = [true]) \/ (cw t /\ (b = true -> exists t', t = false :: t')).
Proof. intros b t H. inversion H; subst; auto. right. split; auto. discriminate. right. split; eauto. Qed.
Lemma cw_skip : forall n c, cw c -> n + 2 <= length c -> cw (skipn n c).
Proof.
  induction n; intros; simpl; auto. destruct c as [|b t]; simpl in *; [lia|].
  destruct (cw_tl _ _ H) as [[-> ->]|[A _]]; simpl in *; [lia|]. apply IHn; auto. lia.
Qed.
Lemma cw_last : forall c, cw c -> exists c', c = c' ++ [true; true] /\ removelast c = c' ++ [true].
Proof.
  induction 1.
  - exists []. auto.
  - destruct IHcw as [c' [E R]]. exists (false :: c'). split. { simpl. rewrite E. auto. }
    pose proof (cw_len _ H). destruct t; [simpl in *; lia|]. change (removelast (false :: b :: t)) with (false :: removelast (b :: t)). rewrite R. auto.
  - destruct IHcw as [c' [E R]]. exists (true :: c'). split. { simpl. rewrite E. auto. }
    change (removelast (true :: false :: t)) with (true :: removelast (false :: t)). rewrite R. auto.
Qed.
Lemma cw_unique : forall c d r s, cw c -> cw d -> c ++ r = d ++ s -> c = d /\ r = s.
Proof.
  intros c d r s C D E. pose proof (cw_ends _ C 0 r) as A. pose proof (cw_ends _ D 0 s) as B. rewrite E, B in A. injection A. intros _ L.
  pose proof (cw_len _ C). pose proof (cw_len _ D). assert (length c = length d) by lia.
  assert (firstn (length c) (c ++ r) = firstn (length c) (d ++ s)) by congruence.
  rewrite firstn_app, Nat.sub_diag, firstn_O, app_nil_r, firstn_all in H2. rewrite H1, firstn_app, Nat.sub_diag, firstn_O, app_nil_r, firstn_all in H2.
  split; auto. subst d. apply app_inv_head in E. auto.
Qed.

(** ** greedy representation *)
Fixpoint zk (n : nat) (x : N) : list bool :=
  match n with
  | 0 => []
  | S j => if (fib j <=? x)%N then zk j (x - fib j) ++ [true] else zk j x ++ [false]
  end.
Lemma zk_length : forall n x, length (zk n x) = n.
Proof. induction n; intros; simpl; auto. destruct (fib n <=? x)%N; rewrite app_length, IHn; simpl; lia. Qed.
Lemma zk_0 : forall n, zk n 0 = repeat false n.
Proof.
  induction n; auto. simpl. pose proof (fib_pos n). destruct (N.leb_spec (fib n) 0); [lia|]. rewrite IHn.
  change (false :: repeat false n) with (repeat false (S n)). rewrite <- (Nat.add_1_r n). rewrite repeat_app. auto.
Qed.
Lemma zk_sum : forall n x, (x < fib n)%N -> fv 0 (zk n x) = x.
Proof.
  induction n; intros x H. { unfold fib in H. simpl in *. lia. }
  simpl. destruct (N.leb_spec (fib n) x).
  - rewrite fv_app, zk_length. simpl. rewrite IHn. lia. pose proof (fib_SS n). lia.
  - rewrite fv_app, IHn by auto. simpl. lia.
Qed.
Lemma zk_small : forall n x, (x < fib n)%N -> zk (S n) x = zk n x ++ [false].
Proof. intros. simpl. destruct (N.leb_spec (fib n) x); [lia|]. auto. Qed.
Lemma zk_greedy : forall n x, (x < fib n)%N -> greedy11 false (zk n x) = (0, match n with 0 => false | S j => (fib j <=? x)%N end).
Proof.
  induction n as [|n IH]; intros x H; auto. simpl. destruct (N.leb_spec (fib n) x).
  - rewrite greedy11_app. rewrite IH.
    + destruct n; auto. destruct (N.leb_spec (fib n) (x - fib (S n))); auto. exfalso. rewrite fib_S in H. lia.
    + pose proof (fib_SS n). lia.
  - rewrite greedy11_app, IH by auto. auto.
Qed.
(** a list without 11 that ends in a one, followed by a one *)
Lemma cw_of_greedy : forall a, greedy11 false a = (0, true) -> cw (a ++ [true]).
Proof.
  intros a. remember (length a) as n. revert a Heqn. induction n as [n IH] using lt_wf_ind. intros a E H.
  destruct a as [|b a]; simpl in *; [discriminate|]. destruct b.
  - destruct a as [|c a]; simpl in *.
    + constructor.
    + destruct c; [destruct (greedy11 false a); discriminate|]. constructor. apply (IH (S (length a))) with (a := false :: a); simpl; auto. lia.
  - constructor. eapply IH; eauto. lia.
Qed.
Lemma zk_cw : forall l x, (fib l <= x < fib (S l))%N -> cw (zk (S l) x ++ [true]).
Proof.
  intros. apply cw_of_greedy. rewrite zk_greedy by lia. f_equal. apply N.leb_le. lia.
Qed.

(** ** encoding_length *)
Lemma el_loop_ok : forall fuel k x, is_word x -> (fib k <= x)%N -> k < 92 -> 92 <= k + fuel ->
  exists l, el_loop fuel k x = Some (S l) /\ (fib l <= x < fib (S l))%N /\ l < 92.
Proof.
  induction fuel; intros k x Hx Hk L F; [lia|]. cbn [el_loop]. rewrite fibs_92, Nat.add_1_r. destruct (Nat.ltb_spec (S k) 92).
  - rewrite lt_fib_ok by auto. cbn [obind]. destruct (N.leb_spec (fib (S k)) x).
    + apply IHfuel; auto. lia.
    + exists k. split; auto.
  - exists k. assert (k = 91) by lia. subst k. split; auto. split; [|lia]. split; auto. pose proof fib_92. unfold is_word in Hx. rewrite W64_pow in Hx. change (2 ^ N.of_nat 64)%N with (2 ^ 64)%N in Hx. lia.
Qed.
Lemma fib_len_ok : forall x, is_word x -> exists l, fib_len_o x = Some (l + 2) /\ (fib l <= fib_value x < fib (S l))%N /\ l < 92.
Proof.
  intros x Hx. unfold fib_len_o, fib_value. destruct (N.eqb_spec x 0).
  - exists 91. split; auto. split; [|lia]. split; vm_compute; [discriminate|reflexivity].
  - destruct (hi_word x Hx n) as [A B].
    destruct (el_loop_ok 93 (N.to_nat (hi x)) x Hx) as [l [R [C D]]]; try lia.
    { eapply N.le_trans; [apply fib_le_pow|]. rewrite A. apply N.log2_spec. lia. }
    rewrite R. cbn [obind]. exists l. split; auto. f_equal. lia.
Qed.

(** ** the encoder *)
Lemma N_of_bits_app2 : forall a b, N_of_bits (a ++ b) = (N_of_bits a + 2 ^ N.of_nat (length a) * N_of_bits b)%N.
Proof.
  induction a; intros; cbn [app N_of_bits length]. { change (N.of_nat 0) with 0%N. rewrite N.pow_0_r. lia. }
  rewrite IHa, pow2_S. lia.
Qed.
Lemma W64_nz : W64 <> 0%N.
Proof. discriminate. Qed.
Lemma shl_m : forall A k, shl (A mod W64) k = ((A * 2 ^ N.of_nat k) mod W64)%N.
Proof. intros. rewrite shl_mul. rewrite N.mul_mod_idemp_l by apply W64_nz. auto. Qed.
Lemma lor_m : forall A, N.lor ((A * 2) mod W64) 1 = ((A * 2 + 1) mod W64)%N.
Proof.
  intros. rewrite (N.mul_comm A 2). change W64 with (2 * 2 ^ 63)%N. rewrite N.mul_mod_distr_l by (try discriminate; apply N.pow_nonzero; discriminate).
  pose proof (N.mod_lt A (2 ^ 63) ltac:(apply N.pow_nonzero; discriminate)) as B.
  pose proof (N.div_mod' A (2 ^ 63)) as D. revert B D. generalize (A mod 2 ^ 63)%N (A / 2 ^ 63)%N. intros r q B D.
  transitivity (2 * r + 1)%N. { destruct r; reflexivity. }
  apply N.mod_unique with q. lia. lia.
Qed.
Lemma shl_1m : forall A, shl (A mod W64) 1 = ((A * 2) mod W64)%N.
Proof. intros. rewrite shl_m. auto. Qed.
Lemma modW_ext : forall a b, a = b -> Some (a mod W64)%N = Some (b mod W64)%N.
Proof. congruence. Qed.
Lemma lo_loop_ok : forall c A x, c <= 64 -> (x < fib c)%N ->
  lo_loop c (A mod W64) x = Some ((A * 2 ^ N.of_nat c + N_of_bits (zk c x)) mod W64)%N.
Proof.
  induction c as [c IH] using lt_wf_ind. intros A x Hc Hx. destruct c as [|j].
  { cbn [lo_loop zk N_of_bits]. apply modW_ext. change (N.of_nat 0) with 0%N. rewrite N.pow_0_r. lia. }
  cbn [lo_loop zk]. rewrite lt_fib_ok by lia. cbn [obind]. rewrite shl_1m. destruct (N.leb_spec (fib j) x).
  - rewrite lor_m. rewrite N_of_bits_app2, zk_length. cbn [N_of_bits b2n].
    destruct (N.eqb_spec (x - fib j) 0).
    + cbn [negb]. rewrite shl_c_some by lia. rewrite shl_m. rewrite e, zk_0. apply modW_ext. rewrite pow2_S.
      assert (N_of_bits (repeat false j) = 0%N) as ->. { clear. induction j; auto. cbn [repeat N_of_bits b2n]. rewrite IHj. auto. } lia.
    + cbn [negb]. rewrite shl_1m. destruct j as [|j'].
      { exfalso. unfold fib in Hx, H, n. simpl in *. lia. }
      rewrite IH; try lia. 2:{ rewrite fib_S in Hx. lia. }
      rewrite zk_small by (rewrite fib_S in Hx; lia). rewrite N_of_bits_app2. cbn [N_of_bits b2n]. apply modW_ext. rewrite !pow2_S. lia.
  - rewrite IH; try lia. rewrite N_of_bits_app2, zk_length. cbn [N_of_bits b2n]. apply modW_ext. rewrite pow2_S. lia.
Qed.
Lemma lo_loop_S : forall j lw x, lo_loop (S j) lw x =
    (let lw := shl lw 1 in
    let* t := lt_fib j in
    if (t <=? x)%N then
      let x := (x - t)%N in
      let lw := N.lor lw 1 in
      if negb (x =? 0)%N then
        let lw := shl lw 1 in
        match j with 0 => Some lw | S j' => lo_loop j' lw x end
      else shl_c lw j
    else lo_loop j lw x).
Proof. reflexivity. Qed.
Lemma zk_big : forall j x, (fib j <= x)%N -> zk (S j) x = zk j (x - fib j) ++ [true].
Proof. intros. cbn [zk]. destruct (N.leb_spec (fib j) x); auto. lia. Qed.
Lemma lo_loop_65 : forall x, (x < fib 64)%N -> lo_loop 65 1 x = Some (N_of_bits (zk 64 x)).
Proof.
  intros x H. rewrite lo_loop_S, lt_fib_ok by lia. cbn [obind]. destruct (N.leb_spec (fib 64) x); [lia|].
  change (shl 1 1) with (2 mod W64)%N. rewrite lo_loop_ok by (auto; lia). f_equal.
  pose proof (N_of_bits_lt (zk 64 x)) as B. rewrite zk_length in B. change (2 ^ N.of_nat 64)%N with W64 in *.
  rewrite N.add_comm, N.mod_add by apply W64_nz. apply N.mod_small. auto.
Qed.
Fixpoint hr (c : nat) (x : N) : N :=
  match c with
  | 0 => x
  | S j => if 65 <=? j then (if (fib j <=? x)%N then hr j (x - fib j) else hr j x) else x
  end.
Lemma hr_big : forall j x, 65 <= j -> (fib j <= x)%N -> hr (S j) x = hr j (x - fib j).
Proof. intros. cbn [hr]. replace (65 <=? j) with true by lia. destruct (N.leb_spec (fib j) x); auto. lia. Qed.
Lemma hr_0 : forall c, hr c 0 = 0%N.
Proof. induction c; auto. cbn [hr]. destruct (65 <=? c); auto. pose proof (fib_pos c). destruct (N.leb_spec (fib c) 0); auto. Qed.
Lemma hr_small : forall c x, (x < fib c)%N -> hr (S c) x = hr c x.
Proof.
  intros. cbn [hr]. destruct (Nat.leb_spec 65 c). { destruct (N.leb_spec (fib c) x); auto. lia. }
  destruct c; auto. cbn [hr]. replace (65 <=? c) with false by lia. auto.
Qed.
Lemma hr_le : forall c x, c <= 65 -> hr c x = x.
Proof. intros. destruct c; auto. cbn [hr]. destruct (Nat.leb_spec 65 c); auto. lia. Qed.
Lemma hr_step : forall j x, 65 <= j -> hr (S j) x = hr j (if (fib j <=? x)%N then (x - fib j)%N else x).
Proof. intros. cbn [hr]. destruct (Nat.leb_spec 65 j); [|lia]. destruct (fib j <=? x)%N; auto. Qed.
Lemma hr_fold : forall k a x, a = 65 -> fold_left (fun r j => if (fib j <=? r)%N then (r - fib j)%N else r) (rev (seq a k)) x = hr (a + k) x.
Proof.
  induction k; intros a x E.
  - cbn [seq rev fold_left]. rewrite hr_le; auto. lia.
  - rewrite seq_S, rev_unit. rewrite Nat.add_succ_r, hr_step by lia. cbn [fold_left]. apply IHk. auto.
Qed.
Lemma hr_rest : forall x, fib_rest x = hr 92 x.
Proof. intros. unfold fib_rest. rewrite (hr_fold 27 65 x eq_refl). reflexivity. Qed.
Lemma hr_down : forall c d x, d <= c -> (x < fib d)%N -> hr c x = hr d x.
Proof.
  induction 1; intros; auto. rewrite hr_small; auto. pose proof (fib_mono d m H). lia.
Qed.
Lemma skip64 : forall (a b : list bool), 64 <= length a -> skipn 64 (a ++ b) = skipn 64 a ++ b.
Proof. intros. rewrite skipn_app. replace (64 - length a) with 0 by lia. auto. Qed.
Lemma hi_loop_ok : forall c A x, 64 <= c <= 92 -> (x < fib c)%N -> hr c x <> 0%N ->
  exists xr, hi_loop c (A mod W64) x = Some (((A * 2 ^ N.of_nat (c - 64) + N_of_bits (skipn 64 (zk c x))) mod W64)%N, xr) /\
    (xr < fib 64)%N /\ zk c x = zk 64 xr ++ skipn 64 (zk c x).
Proof.
  induction c as [c IH] using lt_wf_ind. intros A x Hc Hx Hs. destruct c as [|j]; [lia|]. cbn [hi_loop].
  destruct (Nat.ltb_spec 63 j).
  2:{ assert (j = 63) by lia. subst j. exists x. rewrite skipn_all2 by (rewrite zk_length; lia). rewrite app_nil_r. split; auto. f_equal. f_equal.
      f_equal. change (N.of_nat (64 - 64)) with 0%N. rewrite N.pow_0_r. cbn [N_of_bits]. lia. }
  rewrite shl_1m, lt_fib_ok by lia. cbn [obind]. 
  assert (P : (2 ^ N.of_nat (S j - 64) = 2 * 2 ^ N.of_nat (j - 64))%N). { rewrite <- pow2_S. f_equal. lia. }
  destruct (N.leb_spec (fib j) x) as [F|F].
  - rewrite lor_m. 
    assert (Z1 : zk (S j) x = zk j (x - fib j) ++ [true]) by (apply zk_big; auto).
    destruct (Nat.ltb_spec 64 j) as [G|G].
    + assert (hr (S j) x = hr j (x - fib j)) as HE by (apply hr_big; auto; lia).
      destruct (N.eqb_spec (x - fib j) 0). { exfalso. apply Hs. rewrite HE, e. apply hr_0. }
      cbn [negb andb]. rewrite shl_1m. destruct j as [|j']; [lia|].
      assert (X : (x - fib (S j') < fib j')%N) by (rewrite fib_S in Hx; lia).
      destruct (IH j' ltac:(lia) ((A * 2 + 1) * 2)%N (x - fib (S j'))%N) as [xr [R [B Z]]]; auto; try lia.
      { rewrite <- hr_small by auto. congruence. }
      exists xr. rewrite R. rewrite (zk_small j' _ X) in Z1. rewrite <- app_assoc in Z1. cbn [app] in Z1.
      rewrite Z1. rewrite skip64 by (rewrite zk_length; lia). split; [|split; auto].
      * f_equal. f_equal. f_equal. rewrite N_of_bits_app2, skipn_length, zk_length. cbn [N_of_bits b2n].
        rewrite P. replace (2 ^ N.of_nat (S j' - 64))%N with (2 * 2 ^ N.of_nat (j' - 64))%N. 2:{ rewrite <- pow2_S. f_equal. lia. } lia.
      * rewrite app_assoc. rewrite <- Z. auto.
    + assert (j = 64) by lia. subst j. rewrite andb_false_r. exists (x - fib 64)%N.
      rewrite Z1, skip64 by (rewrite zk_length; lia). rewrite skipn_all2 by (rewrite zk_length; lia). cbn [app]. split; [|split].
      * f_equal. f_equal. rewrite shl_m. f_equal. change (2 ^ N.of_nat 0)%N with 1%N. change (2 ^ N.of_nat (65 - 64))%N with 2%N. cbn [N_of_bits b2n]. lia.
      * pose proof (fib_SS 64). lia.
      * auto.
  - assert (Z1 : zk (S j) x = zk j x ++ [false]) by (apply zk_small; auto).
    destruct (IH j ltac:(lia) (A * 2)%N x) as [xr [R [B Z]]]; auto; try lia. { rewrite <- hr_small; auto. }
    exists xr. rewrite R. rewrite Z1, skip64 by (rewrite zk_length; lia). split; [|split; auto].
    + f_equal. f_equal. f_equal. rewrite N_of_bits_app2, P. cbn [N_of_bits b2n]. lia.
    + rewrite app_assoc, <- Z. auto.
Qed.

(** the bits at [p] spell the codeword of [x] *)
Definition fcode : code_t := fun m p x q => exists c, cw c /\ length c <= 93 /\ q = p + length c /\
  (forall k, k < length c -> mbit m (p + k) = nth k c false) /\ x = (fv 0 (removelast c) mod W64)%N.
Lemma f_CL : forall m p x q m' p', fcode m p x q -> (forall k, p + k < q -> mbit m (p + k) = mbit m' (p' + k)) ->
  fcode m' p' x (p' + (q - p)).
Proof.
  intros m p x q m' p' [c [C [L [Q [B X]]]]] E. exists c. split; auto. split; auto. split; [lia|]. split; auto.
  intros. rewrite <- E by lia. auto.
Qed.
Lemma f_CP : forall m p x q, fcode m p x q -> p < q.
Proof. intros m p x q [c [C [L [Q _]]]]. pose proof (cw_len _ C). lia. Qed.
Lemma fib_enc_code : forall l x X, (fib l <= X < fib (S l))%N -> l < 92 -> (X mod W64 = x)%N -> forall m p,
  (forall k, k < l + 2 -> mbit m (p + k) = nth k (zk (S l) X ++ [true]) false) -> fcode m p x (p + (l + 2)).
Proof.
  intros l x X HX Hl E m p B. exists (zk (S l) X ++ [true]). rewrite app_length, zk_length. cbn [length].
  split. { apply zk_cw. auto. }
  split; [lia|]. split; [lia|]. split. { intros. apply B. lia. } rewrite removelast_last, zk_sum by lia. auto.
Qed.
Lemma f_E1 : forall m w off x, words_ok m -> off < 64 -> is_word x -> fib_encodable x -> 64 * w + off + fib_len x <= 64 * length m ->
  exists m' w' off', fib_enc1 m w off x = Some (m', w', off') /\ length m' = length m /\ words_ok m' /\
    64 * w' + off' = 64 * w + off + fib_len x /\ off' < 64 /\
    (forall k, k < 64 * w + off \/ 64 * w + off + fib_len x <= k -> mbit m' k = mbit m k) /\
    fcode m' (64 * w + off) x (64 * w + off + fib_len x).
Proof.
  intros m w off x Hm Ho Hx He L. destruct (fib_len_ok x Hx) as [l [R [B Hl]]]. unfold fib_len in *. rewrite R in *.
  unfold fib_enc1. rewrite R. cbn [obind]. remember (64 * w + off) as p eqn:Ep. replace (l + 2 - 1) with (S l) by lia.
  unfold fib_encodable in He. rewrite hr_rest in He.
  assert (XW : (fib_value x mod W64 = x)%N). { unfold fib_value. destruct (N.eqb_spec x 0). { subst. reflexivity. } apply N.mod_small. auto. }
  destruct (Nat.leb_spec 64 (S l)).
  - assert (exists xr, (if (x =? 0)%N then
                       let* t := lt_fib (S l - 1) in hi_loop (S l - 2) (shl (N.lor (shl 1 1) 1) 1) (wsub x t)
                     else hi_loop (S l) 1 x) = Some (N_of_bits (skipn 64 (zk (S l) (fib_value x)) ++ [true]), xr) /\ (xr < fib 64)%N /\
              zk (S l) (fib_value x) = zk 64 xr ++ skipn 64 (zk (S l) (fib_value x))) as [xr [RH [XR ZX]]].
    { rewrite N_of_bits_app2, skipn_length, zk_length. cbn [N_of_bits b2n].
      assert (SM : (N_of_bits (skipn 64 (zk (S l) (fib_value x))) + 2 ^ N.of_nat (S l - 64) * (1 + 2 * 0) < W64)%N).
      { pose proof (N_of_bits_lt (skipn 64 (zk (S l) (fib_value x)))) as SL. rewrite skipn_length, zk_length in SL.
        pose proof (pow2_S (S l - 64)). pose proof (pow2_le_W (S (S l - 64)) ltac:(lia)). lia. }
      destruct (N.eqb_spec x 0) as [->|Nz].
      - assert (l = 91). { unfold fib_len_o in R. cbn [N.eqb] in R. apply some_inj in R. lia. } subst l.
        replace (S 91 - 1) with 91 by lia. replace (S 91 - 2) with 90 by lia. rewrite lt_fib_ok by lia. cbn [obind]. change (shl (N.lor (shl 1 1) 1) 1) with (6 mod W64)%N.
        assert (EV : fib_value 0 = (2 ^ 64)%N) by reflexivity. rewrite EV in *.
        assert (S1 : (wsub 0 (fib 91) = 2 ^ 64 - fib 91)%N) by (vm_compute; reflexivity).
        assert (S2 : (2 ^ 64 - fib 91 < fib 90)%N) by (vm_compute; reflexivity).
        assert (S3 : (fib 91 <= 2 ^ 64)%N) by (vm_compute; discriminate).
        assert (Z1 : zk 92 (2 ^ 64) = zk 90 (2 ^ 64 - fib 91) ++ [false; true]).
        { rewrite zk_big by auto. rewrite zk_small by auto. rewrite <- app_assoc. auto. }
        rewrite S1. destruct (hi_loop_ok 90 6 (2 ^ 64 - fib 91)) as [xr [RR [RB RZ]]]; try lia; try assumption.
        exists xr. rewrite RR. rewrite Z1 in *. rewrite skip64 in * by (rewrite zk_length; lia). split; [|split; auto].
        + f_equal.
        + rewrite app_assoc, <- RZ. auto.
      - assert (EV : fib_value x = x). { unfold fib_value. destruct (N.eqb_spec x 0); auto. contradiction. } rewrite EV in *.
        change (hi_loop (S l) 1 x) with (hi_loop (S l) (1 mod W64) x). destruct (hi_loop_ok (S l) 1 x) as [xr [RR [RB RZ]]]; try lia; try assumption.
        { rewrite <- (hr_down 92 (S l)); auto; lia. }
        exists xr. split; auto. rewrite RR. f_equal. f_equal. rewrite <- (N.mod_small _ _ SM). f_equal. lia. }
    rewrite RH. cbn [obind]. rewrite lo_loop_65 by auto. cbn [obind].
    destruct (write_int_and_move_correct m w (N_of_bits (zk 64 xr)) off 64 Hm ltac:(apply fits_bits; lia)) as [m1 [w1 [o1 [R1 [M1 [P1 O1]]]]]].
    rewrite R1. cbn [obind]. pose proof M1 as [L1 [W1 B1]].
    destruct (write_int_and_move_correct m1 w1 (N_of_bits (skipn 64 (zk (S l) (fib_value x)) ++ [true])) o1 (S l - 63) W1 ltac:(apply fits_bits; lia)) as [m2 [w2 [o2 [R2 [M2 [P2 O2]]]]]].
    rewrite R2. pose proof M2 as [L2 [W2 B2]]. exists m2, w2, o2. split; auto. split; [lia|]. split; auto. split; [lia|]. split; auto. split.
    + intros k Hk. rewrite (mem_set_keep _ _ _ _ _ _ M2) by lia. rewrite (mem_set_keep _ _ _ _ _ _ M1) by lia. auto.
    + apply (fib_enc_code l x (fib_value x)); auto. intros k Hk. rewrite ZX, <- app_assoc. rewrite P1, <- Ep in *. destruct (Nat.lt_ge_cases k 64).
      * rewrite B2. replace (p + 64 <=? p + k) with false by lia. cbn [andb]. rewrite B1. replace (p <=? p + k) with true by lia. replace (p + k <? p + 64) with true by lia.
        cbn [andb]. rewrite tb_N_of_bits. rewrite app_nth1 by (rewrite zk_length; auto). f_equal. lia.
      * rewrite B2. replace (p + 64 <=? p + k) with true by lia. replace (p + k <? p + 64 + (S l - 63)) with true by lia. cbn [andb].
        rewrite tb_N_of_bits. rewrite (app_nth2 (zk 64 xr)) by (rewrite zk_length; auto). rewrite zk_length. f_equal. lia.
  - assert (EV : fib_value x = x). { unfold fib_value. destruct (N.eqb_spec x 0); auto. subst. exfalso. unfold fib_len_o in R. cbn [N.eqb] in R. apply some_inj in R. lia. }
    rewrite EV in *.
    assert (SM : (N_of_bits (zk (S l) x ++ [true]) < W64)%N).
    { pose proof (N_of_bits_lt (zk (S l) x ++ [true])) as Q. rewrite app_length, zk_length in Q. cbn [length] in Q. pose proof (pow2_le_W (S l + 1) ltac:(lia)). lia. }
    change (lo_loop (S l) 1 x) with (lo_loop (S l) (1 mod W64) x). rewrite lo_loop_ok by (lia).
    replace ((1 * 2 ^ N.of_nat (S l) + N_of_bits (zk (S l) x)) mod W64)%N with (N_of_bits (zk (S l) x ++ [true])).
    2:{ rewrite <- (N.mod_small _ _ SM). f_equal. rewrite N_of_bits_app2, zk_length. cbn [N_of_bits b2n]. lia. }
    cbn [obind].
    destruct (write_int_and_move_correct m w (N_of_bits (zk (S l) x ++ [true])) off (S l + 1) Hm ltac:(apply fits_bits; lia)) as [m1 [w1 [o1 [R1 [M1 [P1 O1]]]]]].
    pose proof M1 as [L1 [W1 B1]]. exists m1, w1, o1. split; auto. split; [lia|]. split; auto. split; [lia|]. split; auto. split.
    + intros k Hk. apply (mem_set_keep _ _ _ _ _ _ M1). lia.
    + apply (fib_enc_code l x x); auto. intros k Hk. rewrite <- Ep in *. rewrite B1. replace (p <=? p + k) with true by lia. replace (p + k <? p + (S l + 1)) with true by lia.
      cbn [andb]. rewrite tb_N_of_bits. f_equal. lia.
Qed.
Lemma f_enc_all : forall xs m w off, words_ok m -> off < 64 -> Forall is_word xs -> Forall fib_encodable xs ->
  64 * w + off + list_sum (map fib_len xs) <= 64 * length m ->
  exists m' w' off', enc_all fib_enc1 m w off xs = Some (m', w', off') /\ length m' = length m /\ words_ok m' /\
    64 * w' + off' = 64 * w + off + list_sum (map fib_len xs) /\ off' < 64 /\
    (forall k, k < 64 * w + off \/ 64 * w + off + list_sum (map fib_len xs) <= k -> mbit m' k = mbit m k) /\
    codes fcode m' (64 * w + off) xs (64 * w + off + list_sum (map fib_len xs)).
Proof.
  induction xs as [|x t IH]; intros m w off Hm Ho Hx Hs L.
  - exists m, w, off. simpl. repeat split; auto; lia.
  - inversion_clear Hx. inversion_clear Hs. change (list_sum (map fib_len (x :: t))) with (fib_len x + list_sum (map fib_len t)) in *.
    destruct (f_E1 m w off x Hm Ho H H1 ltac:(lia)) as [m1 [w1 [o1 [R1 [L1 [W1 [P1 [O1 [F1 K1]]]]]]]]].
    destruct (IH m1 w1 o1 W1 O1 H0 H2 ltac:(lia)) as [m2 [w2 [o2 [R2 [L2 [W2 [P2 [O2 [F2 K2]]]]]]]]].
    exists m2, w2, o2. simpl enc_all. rewrite R1. cbn [obind]. rewrite R2. repeat split; auto; try lia.
    + intros k Hk. rewrite F2 by lia. apply F1. lia.
    + exists (64 * w1 + o1). split.
      * rewrite P1. replace (64 * w + off + fib_len x) with (64 * w + off + (64 * w + off + fib_len x - (64 * w + off))) by lia.
        apply f_CL with (m := m1); auto. intros. symmetry. apply F2. lia.
      * replace (64 * w + off + (fib_len x + list_sum (map fib_len t))) with (64 * w1 + o1 + list_sum (map fib_len t)) by lia. auto.
Qed.
