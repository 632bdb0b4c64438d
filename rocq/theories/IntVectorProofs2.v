(** * Proofs about int_vector: set_to_value, iterators, comparisons (C07, C08, C10) *)
From Coq Require Import NArith ZArith List Bool Arith Lia.
From Verif Require Import Base Bits SpecBits BitsMem IntVector SpecIntVector IntVectorProofs.
Import ListNotations.

(** ** set_to_value *)
Lemma mod_mod_mul : forall p c w, w <> 0 -> c <> 0 -> (p mod (c * w)) mod w = p mod w.
Proof.
  intros. rewrite (Nat.div_mod p (c * w)) at 2 by nia.
  replace (c * w * (p / (c * w)) + p mod (c * w)) with (p mod (c * w) + (c * (p / (c * w))) * w) by lia.
  rewrite Nat.mod_add; auto.
Qed.

Lemma mod_in_block : forall t w j, j < w -> (t * w + j) mod w = j.
Proof. intros. rewrite Nat.add_comm, Nat.mod_add, Nat.mod_small; lia. Qed.


Definition pinv (k : N) (w t : nat) (vec : mem) (off n : nat) : Prop :=
  length vec = 67 /\ words_ok vec /\ 64 * n + off = t * w /\ off < 64 /\ n <= t /\
  forall p, p < 64 * (n + 1) -> mbit vec p = (p <? t * w) && tb k (p mod w).

Lemma pat_loop_ok : forall sr k w, sr_ok sr w -> 1 <= w <= 64 -> (k < 2 ^ N.of_nat w)%N ->
  forall fuel t vec off n, t + fuel = 65 -> t < 64 -> pinv k w t vec off n -> (off = 0 -> t = 0) ->
  exists vec' n', pat_loop sr fuel k w vec off n = Some (vec', n') /\ 0 < n' /\ n' <= 65 /\
    length vec' = 67 /\ words_ok vec' /\ (exists c, 64 * n' = c * w) /\
    forall p, p < 64 * n' -> mbit vec' p = tb k (p mod w).
Proof.
  intros sr k w [SR1 SR2] Bw Kw. assert (KW : is_word k).
  { unfold is_word. eapply N.lt_le_trans; [exact Kw|]. rewrite W64_pow. apply N.pow_le_mono_r; lia. }
  induction fuel as [|f IH]; intros t vec off n F T I Z; [lia|].
  destruct I as [L [WO [E [O [NT B]]]]]. cbn [pat_loop].
  assert (N66 : n + 1 < 66) by lia.
  rewrite ld_some by lia. cbn [obind]. rewrite st_some by lia. cbn [obind].
  set (vec1 := upd vec n (N.lor (nth n vec 0%N) (shl k off))).
  assert (L1 : length vec1 = 67) by (unfold vec1; rewrite upd_length; auto).
  assert (W1 : words_ok vec1) by (apply words_ok_upd; auto; apply is_word_lor; auto with word).
  assert (TW : t * w + w = (t + 1) * w) by nia.
  assert (B1 : forall p, p < 64 * (n + 1) -> mbit vec1 p = (p <? t * w + w) && tb k (p mod w)).
  { intros p Hp. unfold vec1. rewrite mbit_upd by lia. destruct (Nat.eqb_spec (p / 64) n) as [En|En].
    - rewrite tb_lor, tb_shl. specialize (B p Hp). unfold mbit in B. rewrite En in B. rewrite B.
      replace (p mod 64 <? 64) with true by lia. cbn [andb].
      destruct (Nat.ltb_spec p (t * w)).
      + replace (off <=? p mod 64) with false by lia. replace (p <? t * w + w) with true by lia. cbn [andb].
        rewrite orb_false_r. auto.
      + cbn [andb orb]. replace (off <=? p mod 64) with true by lia. cbn [andb].
        replace (p mod 64 - off) with (p - t * w) by lia.
        destruct (Nat.ltb_spec p (t * w + w)); cbn [andb].
        * f_equal. replace p with (t * w + (p - t * w)) at 2 by lia. rewrite mod_in_block; lia.
        * apply tb_high with w; auto. lia.
    - rewrite B by auto. replace (p <? t * w) with true by lia. replace (p <? t * w + w) with true by lia. auto. }
  assert (CONT : forall vec2 off2 n2, pinv k w (t + 1) vec2 off2 n2 \/
             (off2 = 0 /\ length vec2 = 67 /\ words_ok vec2 /\ 64 * n2 + off2 = (t + 1) * w /\ n2 <= t + 1 /\
              forall p, p < 64 * n2 -> mbit vec2 p = (p <? (t + 1) * w) && tb k (p mod w)) ->
     exists (vec' : mem) (n' : nat), (if off2 =? 0 then Some (vec2, n2) else pat_loop sr f k w vec2 off2 n2) = Some (vec', n') /\
       0 < n' /\ n' <= 65 /\ length vec' = 67 /\ words_ok vec' /\ (exists c : nat, 64 * n' = c * w) /\
       (forall p : nat, p < 64 * n' -> mbit vec' p = tb k (p mod w))).
  { intros vec2 off2 n2 H. destruct (Nat.eqb_spec off2 0) as [Z2|Z2].
    - exists vec2, n2. split; auto.
      assert (A : length vec2 = 67 /\ words_ok vec2 /\ 64 * n2 + off2 = (t + 1) * w /\ n2 <= t + 1 /\
              forall p, p < 64 * n2 -> mbit vec2 p = (p <? (t + 1) * w) && tb k (p mod w)).
      { destruct H as [H|[_ H]]; [|exact H]. destruct H as [Q1 [Q2 [Q3 [Q4 [Q5 Q6]]]]]. repeat split; auto.
        intros. apply Q6. lia. }
      destruct A as [A1 [A0 [A2 [A3 A4]]]]. split; [nia|]. split; [lia|]. split; auto. split; auto.
      split; [exists (t + 1); lia|]. intros p Hp. rewrite A4 by auto. replace (p <? (t + 1) * w) with true by lia. auto.
    - destruct H as [H|[H _]]; [|lia].
      destruct (Nat.eq_dec (t + 1) 64) as [E64|E64].
      { exfalso. destruct H as [_ [_ [Q3 [Q4 _]]]]. rewrite E64 in Q3. lia. }
      apply (IH (t + 1)); auto; lia. }
  destruct (Nat.leb_spec 64 (off + w)) as [L64|L64].
  - rewrite st_some by lia. cbn [obind].
    replace (w - (off + w - 64)) with (64 - off) by lia.
    assert (exists y, sr k (64 - off) = Some y /\ is_word y /\ (off <> 0 -> y = shr k (64 - off))) as [y [Ey [Wy Hy]]].
    { destruct (Nat.eq_dec off 0) as [O0|O0].
      - subst off. destruct (SR2 ltac:(lia) k) as [y [Y1 Y2]]. exists y. rewrite Nat.sub_0_r. repeat split; auto; lia.
      - exists (shr k (64 - off)). rewrite SR1 by lia. repeat split; auto. apply is_word_shr. auto. }
    rewrite Ey. cbn [obind]. rewrite st_some by (rewrite upd_length; lia). cbn [obind].
    apply CONT. set (vec2 := upd (upd vec1 (n + 1) 0%N) (n + 1) y).
    assert (L2 : length vec2 = 67) by (unfold vec2; rewrite !upd_length; auto).
    assert (B2 : forall p, p < 64 * (n + 1) -> mbit vec2 p = (p <? (t + 1) * w) && tb k (p mod w)).
    { intros p Hp. unfold vec2. rewrite mbit_upd by (rewrite upd_length; lia).
      replace (p / 64 =? n + 1) with false by lia. rewrite mbit_upd by lia. replace (p / 64 =? n + 1) with false by lia.
      rewrite B1 by auto. rewrite TW. auto. }
    assert (W2 : words_ok vec2). { unfold vec2. apply words_ok_upd; auto. apply words_ok_upd; auto. reflexivity. }
    destruct (Nat.eq_dec off 0) as [O0|O0].
    + right. repeat split; auto; lia.
    + left. split; auto. split; auto.
      split; [lia|]. split; [lia|]. split; [lia|]. intros p Hp.
      destruct (Nat.lt_ge_cases p (64 * (n + 1))) as [C|C]; auto.
      unfold vec2. rewrite mbit_upd by (rewrite upd_length; lia). replace (p / 64 =? n + 1) with true by lia.
      rewrite (Hy O0), tb_shr. destruct (Nat.ltb_spec p ((t + 1) * w)); cbn [andb].
      * f_equal. replace p with (t * w + (p - t * w)) at 2 by lia. rewrite mod_in_block; lia.
      * apply tb_high with w; auto. lia.
  - cbn [obind]. apply CONT. left. split; auto. split; auto. split; [lia|]. split; [lia|]. split; [lia|].
    intros p Hp. rewrite B1 by auto. rewrite TW. auto.
Qed.

Lemma copy_pat_ok : forall vec n todo ii m, n <= length vec -> ii < n -> todo <= length m ->
  exists m', copy_pat vec n todo ii m = Some m' /\ length m' = length m /\
    forall i, nth i m' 0%N = if i <? todo then nth ((ii + i) mod n) vec 0%N else nth i m 0%N.
Proof.
  intros vec n. induction todo; intros ii m H1 H2 H3.
  - exists m. auto.
  - destruct m as [|a m]; [simpl in H3; lia|]. cbn [length] in H3. cbn [copy_pat].
    rewrite ld_some by lia. cbn [obind].
    destruct (IHtodo (if S ii =? n then 0 else S ii) m) as [m' [E [L N]]]; auto; try lia.
    { destruct (Nat.eqb_spec (S ii) n); lia. }
    rewrite E. cbn [obind]. eexists. split; [reflexivity|]. cbn [length]. split; [lia|].
    intros [|i]; cbn [nth].
    + replace (0 <? S todo) with true by lia. rewrite Nat.add_0_r, Nat.mod_small by lia. auto.
    + rewrite N. replace (S i <? S todo) with (i <? todo) by lia. destruct (i <? todo); auto. f_equal.
      destruct (Nat.eqb_spec (S ii) n) as [En|En].
      * replace (ii + S i) with (i + 1 * n) by lia. rewrite Nat.mod_add by lia. auto.
      * f_equal. lia.
Qed.

Lemma elems_const : forall v k, iv_ok v -> (k < 2 ^ N.of_nat (iv_width v))%N ->
  (forall p, p < iv_size v -> mbit (iv_data v) p = tb k (p mod iv_width v)) ->
  elems v = repeat k (iv_len v).
Proof.
  intros v k O Hk H. apply list_nth_ext with 0%N. { rewrite elems_length, repeat_length. auto. }
  intros i Hi. rewrite elems_length in Hi. rewrite nth_repeat_lt by auto. rewrite nth_elems by auto.
  destruct (iv_elem_bound v i O Hi). apply tb_ext. intro j. rewrite tb_field.
  destruct (Nat.ltb_spec j (iv_width v)).
  - cbn [andb]. rewrite H by lia. rewrite mod_in_block by auto. auto.
  - cbn [andb]. symmetry. eapply tb_high; eauto.
Qed.

Lemma fill_words_ok : forall x v, iv_ok v -> is_word x -> exists v', fill_words x v = Some v' /\ iv_ok v' /\
  iv_size v' = iv_size v /\ iv_width v' = iv_width v /\ length (iv_data v') = length (iv_data v) /\
  forall p, p < iv_size v -> mbit (iv_data v') p = tb x (p mod 64).
Proof.
  intros x v [A [B C]] X. unfold fill_words, iv_empty. destruct (Nat.eqb_spec (iv_size v) 0) as [E|E].
  - exists v. repeat split; auto; try lia.
  - assert (exists m', word_map (fun _ => x) (iv_data v) (iv_capacity v / 64) = Some m') as [m' W].
    { unfold word_map. replace (iv_capacity v / 64 <=? length (iv_data v)) with true by (rewrite cap_div; lia). eauto. }
    rewrite W. cbn [obind]. eexists. split; [reflexivity|]. cbn [iv_size iv_data iv_width].
    pose proof (word_map_length _ _ _ _ W) as L. split.
    { split; cbn; [|split; auto; lia]. eapply word_map_ok; eauto. auto. }
    repeat split; auto. intros p Hp. unfold mbit. rewrite (nth_word_map _ _ _ _ _ W) by lia.
    replace (p / 64 <? iv_capacity v / 64) with true by (rewrite cap_div; lia). auto.
Qed.

Lemma set_to_value_ok : forall sr v k, iv_ok v -> is_word k -> sr_ok sr (iv_width v) ->
  exists v', iv_set_to_value sr v k = Some v' /\ iv_ok v' /\ iv_size v' = iv_size v /\ iv_width v' = iv_width v /\
    length (iv_data v') = length (iv_data v) /\
    elems v' = repeat (k mod 2 ^ N.of_nat (iv_width v))%N (iv_len v).
Proof.
  intros sr v k O K SR. pose proof O as [A [B C]]. unfold iv_set_to_value, iv_empty.
  destruct (Nat.eqb_spec (iv_size v) 0) as [E|E].
  { exists v. split; auto. split; auto. repeat split; auto. unfold elems, iv_len. rewrite E. rewrite Nat.div_0_l by lia. auto. }
  replace (iv_width v =? 0) with false by lia.
  assert (FILL : forall x kk, is_word x -> (kk < 2 ^ N.of_nat (iv_width v))%N ->
    (forall p, tb x (p mod 64) = tb kk (p mod iv_width v)) ->
    exists v', fill_words x v = Some v' /\ iv_ok v' /\ iv_size v' = iv_size v /\ iv_width v' = iv_width v /\
      length (iv_data v') = length (iv_data v) /\ elems v' = repeat kk (iv_len v)).
  { intros x kk X KK H. destruct (fill_words_ok x v O X) as [v' [R [O' [S [W [L F]]]]]]. exists v'. repeat split; auto; try apply O'.
    replace (iv_len v) with (iv_len v') by (unfold iv_len; congruence). apply elems_const; auto; rewrite ?W, ?S; auto.
    intros. rewrite F by auto. auto. }
  destruct (N.eqb_spec k 0) as [K0|K0].
  { subst k. rewrite N.mod_0_l by (apply N.pow_nonzero; lia). apply FILL; [reflexivity| |].
    - apply N.neq_0_lt_0. apply N.pow_nonzero. lia. - intros. rewrite !tb_0. auto. }
  destruct (N.eqb_spec (lo_set (iv_width v)) k) as [K1|K1].
  { subst k. rewrite <- land_lo_set. rewrite N.land_diag. apply FILL; [reflexivity| |].
    - rewrite lo_set_val. assert (2 ^ N.of_nat (iv_width v) <> 0)%N by (apply N.pow_nonzero; lia). lia.
    - intros p. rewrite !tb_lo_set. pose proof (Nat.mod_upper_bound p (iv_width v) ltac:(lia)).
      replace (p mod 64 <? 64) with true by lia. replace (p mod iv_width v <? iv_width v) with true by lia. auto. }
  rewrite shr_c_some by lia. cbn [obind].
  replace (N.land k (shr (lo_set 64) (64 - iv_width v))) with (k mod 2 ^ N.of_nat (iv_width v))%N.
  2: { apply tb_ext. intro j. rewrite tb_mod_pow2, tb_land, tb_shr, tb_lo_set. rewrite andb_comm. f_equal. lia. }
  set (k' := (k mod 2 ^ N.of_nat (iv_width v))%N).
  assert (K' : (k' < 2 ^ N.of_nat (iv_width v))%N) by (apply N.mod_lt; apply N.pow_nonzero; lia).
  assert (PI : pinv k' (iv_width v) 0 (repeat 0%N 67) 0 0).
  { split; [apply repeat_length|]. split. { apply Forall_forall. intros x Hx. apply repeat_spec in Hx. subst. reflexivity. }
    split; [lia|]. split; [lia|]. split; [lia|]. intros p Hp. unfold mbit.
    replace (nth (p / 64) (repeat 0%N 67) 0%N) with 0%N by (rewrite nth_repeat_lt; auto; lia). rewrite tb_0. auto. }
  destruct (pat_loop_ok sr k' (iv_width v) SR B K' 65 0 (repeat 0%N 67) 0 0 eq_refl ltac:(lia) PI ltac:(auto))
    as [vec [n [R [N1 [N2 [N3 [N6 [[c N4] N5]]]]]]]].
  rewrite R. cbn [obind]. rewrite cap_div.
  destruct (copy_pat_ok vec n ((iv_size v + 63) / 64) 0 (iv_data v)) as [m' [R2 [L2 M2]]]; try lia.
  rewrite R2. cbn [obind]. eexists. split; [reflexivity|]. cbn [iv_size iv_data iv_width].
  assert (WV : forall p, p < iv_size v -> mbit m' p = tb k' (p mod iv_width v)).
  { intros p Hp. unfold mbit. rewrite M2. replace (p / 64 <? (iv_size v + 63) / 64) with true by lia. cbn [Nat.add].
    assert (Q : p mod (64 * n) = 64 * ((p / 64) mod n) + p mod 64) by (rewrite Nat.mod_mul_r by lia; lia).
    assert (M3 : p / 64 mod n < n) by (apply Nat.mod_upper_bound; lia).
    specialize (N5 (p mod (64 * n)) ltac:(lia)). rewrite N4 in N5 at 2. rewrite mod_mod_mul in N5 by (destruct c; lia).
    rewrite <- N5. rewrite Q. rewrite mbit_wo by lia. auto. }
  assert (O' : iv_ok (mkiv (iv_size v) m' (iv_width v))).
  { split; cbn; [|split; auto; lia]. unfold words_ok. rewrite Forall_forall. intros x Hx.
    destruct (In_nth _ _ 0%N Hx) as [i [Hi Ei]]. subst x. rewrite M2. destruct (i <? _); apply words_ok_nth; auto. }
  split; auto. repeat split; auto.
  apply (elems_const (mkiv (iv_size v) m' (iv_width v))); auto.
Qed.

(** the constructor *)
Lemma new_ok : forall sr g tw n k w, fresh_ok g -> is_word k ->
  (tw = 0 /\ 1 <= w <= 64 \/ 1 <= tw <= 64 /\ w = tw) -> sr_ok sr w ->
  exists v, iv_new sr g tw n k w = Some v /\ iv_ok v /\ iv_width v = w /\ iv_size v = n * w /\ padding_ok v /\
    elems v = repeat (k mod 2 ^ N.of_nat w)%N n.
Proof.
  intros sr g tw n k w G K T SR. unfold iv_new, iv_set_width. cbn [iv_size iv_data iv_width].
  assert (SW : set_width tw w tw = w). { apply set_width_ok; destruct T as [[? ?]|[? ?]]; auto; lia. }
  assert (Bw : 1 <= w <= 64) by lia.
  rewrite SW. unfold iv_resize. cbn [iv_width].
  destruct (bit_resize_bits g (mkiv 0 [] w) (n * w) G) as [v [R [S [W [KO [L _]]]]]]; cbn; [constructor|lia|].
  rewrite R. cbn [obind]. cbn [iv_width] in W.
  assert (P : padding_ok v) by (eapply bit_resize_padding; [exact R|right; auto]).
  destruct (set_to_value_ok sr v k) as [v' [R' [O' [S' [W' [L' E']]]]]]; auto.
  { split; auto. split; [lia|lia]. } { rewrite W. auto. }
  exists v'. split; auto. split; auto. split; [congruence|]. split; [congruence|]. split.
  { unfold padding_ok in *. rewrite S', L'. auto. }
  rewrite E', W. f_equal. unfold iv_len. rewrite S, W. apply Nat.div_mul. lia.
Qed.

(** ** iterators *)
Lemma begin_designates : forall v, designates (iv_width v) (iv_begin v) 0.
Proof. intros. unfold designates, iv_begin, iter_at. cbn [it_len it_off it_word]. split; auto. split; lia. Qed.
Lemma end_designates : forall v, designates (iv_width v) (iv_end v) (Z.of_nat (iv_len v)).
Proof. intros. unfold designates, iv_end, iter_at. cbn [it_len it_off it_word]. split; auto. split; lia. Qed.

Lemma inc_designates : forall w it i, 1 <= w <= 64 -> designates w it i -> designates w (iter_inc it) (i + 1).
Proof.
  intros w [iw io il] i B [H1 [H2 H3]]. unfold designates, iter_inc in *. cbn [it_len it_off it_word] in *. subst il.
  destruct (Nat.leb_spec 64 ((io + w) mod 256)); cbn [it_len it_off it_word]; split; auto; split; lia.
Qed.
Lemma dec_designates : forall w it i, 1 <= w <= 64 -> designates w it i -> designates w (iter_dec it) (i - 1).
Proof.
  intros w [iw io il] i B [H1 [H2 H3]]. unfold designates, iter_dec in *. cbn [it_len it_off it_word] in *. subst il.
  destruct (Nat.leb_spec 64 ((io + 256 - w) mod 256)); cbn [it_len it_off it_word]; split; auto; split; lia.
Qed.
Lemma add_nat_designates : forall w it i n, 1 <= w <= 64 -> designates w it i -> designates w (iter_add_nat it n) (i + Z.of_nat n).
Proof.
  intros w [iw io il] i n B [H1 [H2 H3]]. unfold designates, iter_add_nat in *. cbn [it_len it_off it_word] in *. subst il.
  rewrite Z.mul_add_distr_r, <- H3. rewrite <- Nat2Z.inj_mul. set (t := n * w) in *. clearbody t. clear H3.
  destruct (Nat.eqb_spec ((io + t mod 64) mod 256 / 64) 0); cbn [negb it_len it_off it_word]; split; auto; split; lia.
Qed.
Lemma sub_nat_designates : forall w it i n, 1 <= w <= 64 -> designates w it i -> designates w (iter_sub_nat it n) (i - Z.of_nat n).
Proof.
  intros w [iw io il] i n B [H1 [H2 H3]]. unfold designates, iter_sub_nat in *. cbn [it_len it_off it_word] in *. subst il.
  rewrite Z.mul_sub_distr_r, <- H3. rewrite <- Nat2Z.inj_mul. set (t := n * w) in *. clearbody t. clear H3.
  destruct (Nat.eqb_spec ((io + 256 - t mod 64) mod 256 / 64) 0); cbn [negb it_len it_off it_word]; split; auto; split; lia.
Qed.
Lemma add_designates : forall w it i d, 1 <= w <= 64 -> designates w it i -> designates w (iter_add it d) (i + d).
Proof.
  intros w it i d B H. unfold iter_add. destruct (Z.ltb_spec d 0).
  - replace (i + d)%Z with (i - Z.of_nat (Z.to_nat (- d)))%Z by lia. apply sub_nat_designates; auto.
  - replace d with (Z.of_nat (Z.to_nat d)) at 2 by lia. apply add_nat_designates; auto.
Qed.
Lemma sub_designates : forall w it i d, 1 <= w <= 64 -> designates w it i -> designates w (iter_sub it d) (i - d).
Proof.
  intros w it i d B H. unfold iter_sub. destruct (Z.ltb_spec d 0).
  - replace (i - d)%Z with (i + Z.of_nat (Z.to_nat (- d)))%Z by lia. apply add_nat_designates; auto.
  - replace d with (Z.of_nat (Z.to_nat d)) at 2 by lia. apply sub_nat_designates; auto.
Qed.
Lemma designates_unique : forall w a b i, designates w a i -> designates w b i -> a = b.
Proof.
  intros w [aw ao al] [bw bo bl] i [A1 [A2 A3]] [B1 [B2 B3]]. cbn [it_len it_off it_word] in *. f_equal; lia.
Qed.
Lemma iter_eq_ok : forall w a b i j, 1 <= w -> designates w a i -> designates w b j -> iter_eq a b = (i =? j)%Z.
Proof.
  intros w [aw ao al] [bw bo bl] i j B [A1 [A2 A3]] [B1 [B2 B3]]. unfold iter_eq. cbn [it_len it_off it_word] in *.
  destruct (Z.eqb_spec i j) as [E|E].
  - subst j. replace (bw =? aw)%Z with true by lia. replace (bo =? ao) with true by lia. auto.
  - destruct (Z.eqb_spec bw aw); auto. destruct (Nat.eqb_spec bo ao); auto. subst. exfalso. apply E.
    apply Z.mul_reg_r with (Z.of_nat w); lia.
Qed.
Lemma iter_lt_ok : forall w a b i j, 1 <= w -> designates w a i -> designates w b j -> iter_lt a b = (i <? j)%Z.
Proof.
  intros w [aw ao al] [bw bo bl] i j B [A1 [A2 A3]] [B1 [B2 B3]]. unfold iter_lt. cbn [it_len it_off it_word] in *.
  assert ((i < j)%Z <-> (i * Z.of_nat w < j * Z.of_nat w)%Z) by (apply Z.mul_lt_mono_pos_r; lia).
  destruct (Z.eqb_spec aw bw) as [E|E]; lia.
Qed.
Lemma iter_gt_ok : forall w a b i j, 1 <= w -> designates w a i -> designates w b j -> iter_gt a b = (j <? i)%Z.
Proof.
  intros w [aw ao al] [bw bo bl] i j B [A1 [A2 A3]] [B1 [B2 B3]]. unfold iter_gt. cbn [it_len it_off it_word] in *.
  assert ((j < i)%Z <-> (j * Z.of_nat w < i * Z.of_nat w)%Z) by (apply Z.mul_lt_mono_pos_r; lia).
  destruct (Z.eqb_spec aw bw) as [E|E]; lia.
Qed.
Lemma iter_diff_ok : forall w a b i j, 1 <= w -> designates w a i -> designates w b j -> iter_diff a b = (i - j)%Z.
Proof.
  intros w [aw ao al] [bw bo bl] i j B [A1 [A2 A3]] [B1 [B2 B3]]. unfold iter_diff. cbn [it_len it_off it_word] in *. subst.
  replace ((aw - bw) * 64 + Z.of_nat ao - Z.of_nat bo)%Z with ((i - j) * Z.of_nat w)%Z by lia.
  apply Z.quot_mul. lia.
Qed.

Lemma designates_pos : forall w it i, designates w it (Z.of_nat i) ->
  (0 <= it_word it)%Z /\ 64 * Z.to_nat (it_word it) + it_off it = i * w.
Proof. intros w [iw io il] i [A1 [A2 A3]]. cbn [it_len it_off it_word] in *. lia. Qed.

Lemma citer_read : forall m it, words_ok m -> (0 <= it_word it)%Z ->
  fits m (Z.to_nat (it_word it)) (it_off it) (it_len it) -> 1 <= it_len it ->
  citer_get m it = read_int m (Z.to_nat (it_word it)) (it_off it) (it_len it).
Proof.
  intros m it A P [F1 [F2 [F3 F4]]] L. unfold citer_get, read_int.
  replace (it_word it <? 0)%Z with false by lia. rewrite ld_some by auto. cbn [obind]. rewrite shr_c_some by auto. cbn [obind].
  destruct (Nat.leb_spec (it_off it + it_len it) 64).
  - replace (64 <? it_off it + it_len it) with false by lia. auto.
  - replace (64 <? it_off it + it_len it) with true by lia. auto.
Qed.

Lemma iter_get_ok : forall v it i, iv_ok v -> i < iv_len v -> designates (iv_width v) it (Z.of_nat i) ->
  citer_get (iv_data v) it = Some (nth i (elems v) 0%N) /\ iter_get (iv_data v) it = Some (nth i (elems v) 0%N).
Proof.
  intros v it i O H D. destruct (iv_elem_bound v i O H) as [E1 E2]. pose proof O as [A [B C]].
  destruct (designates_pos _ _ _ D) as [P Q]. destruct D as [D1 [D2 D3]].
  assert (F : fits (iv_data v) (Z.to_nat (it_word it)) (it_off it) (it_len it)).
  { rewrite D1. unfold fits. lia. }
  rewrite citer_read by (auto; lia). unfold iter_get. replace (it_word it <? 0)%Z with false by lia.
  rewrite read_int_correct by auto. rewrite nth_elems by auto. rewrite Q, D1. auto.
Qed.
Lemma iter_set_ok : forall v it i x, iv_ok v -> i < iv_len v -> designates (iv_width v) it (Z.of_nat i) ->
  exists m', iter_set (iv_data v) it x = Some m' /\ iv_ref_set v i x = Some (mkiv (iv_size v) m' (iv_width v)).
Proof.
  intros v it i x O H D. destruct (iv_elem_bound v i O H) as [E1 E2]. pose proof O as [A [B C]].
  destruct (designates_pos _ _ _ D) as [P Q]. destruct D as [D1 [D2 D3]].
  assert (E : Z.to_nat (it_word it) = i * iv_width v / 64 /\ it_off it = i * iv_width v mod 64) by lia. destruct E as [Ea Eb].
  unfold iter_set, iv_ref_set. replace (it_word it <? 0)%Z with false by lia. rewrite Ea, Eb, D1.
  destruct (write_at (iv_data v) (i * iv_width v) (iv_width v) x A B) as [m' [W S]]; [lia|].
  exists m'. rewrite W. auto.
Qed.

(** ** comparison *)
Lemma eq_words_ok : forall k m1 m2 p, p + k <= length m1 -> p + k <= length m2 -> exists b,
  eq_words k m1 m2 p = Some b /\ (b = true <-> forall i, p <= i < p + k -> nth i m1 0%N = nth i m2 0%N).
Proof.
  induction k; intros m1 m2 p H1 H2; cbn [eq_words].
  - exists true. split; auto. split; auto. intros. lia.
  - rewrite !ld_some by lia. cbn [obind]. destruct (N.eqb_spec (nth p m1 0%N) (nth p m2 0%N)) as [E|E].
    + destruct (IHk m1 m2 (S p)) as [b [R S]]; try lia. exists b. split; auto. rewrite S. split; intros K i Hi.
      * destruct (Nat.eq_dec i p); [subst; auto|]. apply K. lia. * apply K. lia.
    + exists false. split; auto. split; [discriminate|]. intro K. exfalso. apply E. apply K. lia.
Qed.

Lemma eqb_ok : forall v1 v2, iv_ok v1 -> iv_ok v2 -> exists b, iv_eqb v1 v2 = Some b /\
  (b = true <-> iv_size v1 = iv_size v2 /\ iv_bits v1 = iv_bits v2).
Proof.
  intros v1 v2 [A1 [B1 C1]] [A2 [B2 C2]]. unfold iv_eqb, iv_empty.
  destruct (Nat.eqb_spec (iv_capacity v1) (iv_capacity v2)) as [E|E]; cbn [negb].
  2: { exists false. split; auto. split; [discriminate|]. intros [H _]. exfalso. apply E. unfold iv_capacity. congruence. }
  destruct (Nat.eqb_spec (iv_size v1) (iv_size v2)) as [S|S]; cbn [negb].
  2: { exists false. split; auto. split; [discriminate|]. intros [H _]. contradiction. }
  destruct (Nat.eqb_spec (iv_size v1) 0) as [Z|Z].
  { exists true. split; auto. split; auto. intros _. split; auto. unfold iv_bits. rewrite <- S, Z. auto. }
  set (k := iv_capacity v1 / 64 - 1). assert (K : k = (iv_size v1 + 63) / 64 - 1) by (unfold k; rewrite cap_div; auto). clearbody k.
  destruct (eq_words_ok k (iv_data v1) (iv_data v2) 0) as [b [R H]]; try lia.
  rewrite R. cbn [obind].
  assert (BITS : iv_bits v1 = iv_bits v2 <-> forall p, p < iv_size v1 -> mbit (iv_data v1) p = mbit (iv_data v2) p).
  { unfold iv_bits. rewrite <- S. split.
    - intros Q p Hp. rewrite <- (nth_map_seq _ (mbit (iv_data v1)) (iv_size v1) p false) by auto. rewrite Q. apply nth_map_seq. auto.
    - intros Q. apply map_ext_in. intros p Hp. apply in_seq in Hp. apply Q. lia. }
  destruct b; cbn [negb].
  - rewrite !ld_some by lia. cbn [obind]. eexists. split; [reflexivity|]. rewrite N.eqb_eq, BITS.
    set (l := 64 - (iv_capacity v1 - iv_size v1)). assert (L : l = iv_size v1 - 64 * k) by (unfold l, iv_capacity; lia). clearbody l.
    destruct H as [H _]. specialize (H eq_refl). split.
    + intros Q. split; auto. intros p Hp. unfold mbit. destruct (Nat.eq_dec (p / 64) k) as [Ek|Ek].
      * assert (T : tb (N.land (nth k (iv_data v2) 0%N) (lo_set l)) (p mod 64) = tb (N.land (nth k (iv_data v1) 0%N) (lo_set l)) (p mod 64)) by congruence.
        rewrite !tb_land, !tb_lo_set in T. replace (p mod 64 <? l) with true in T by lia. rewrite !andb_true_r in T. rewrite Ek. auto.
      * f_equal. apply H. lia.
    + intros [_ Q]. apply tb_ext. intro j. rewrite !tb_land, !tb_lo_set. destruct (Nat.ltb_spec j l); [|rewrite !andb_false_r; auto].
      rewrite !andb_true_r. specialize (Q (64 * k + j) ltac:(lia)). rewrite !mbit_wo in Q by lia. auto.
  - exists false. split; auto. split; [discriminate|]. intros [_ Q]. apply H. intros i Hi. apply tb_word_ext; try (apply words_ok_nth; auto).
    intros j Hj. rewrite BITS in Q. specialize (Q (64 * i + j) ltac:(lia)). rewrite !mbit_wo in Q by lia. auto.
Qed.


Lemma eqb_elems : forall v1 v2, iv_ok v1 -> iv_ok v2 -> iv_width v1 = iv_width v2 -> whole v1 -> whole v2 ->
  exists b, iv_eqb v1 v2 = Some b /\ (b = true <-> elems v1 = elems v2).
Proof.
  intros v1 v2 O1 O2 W H1 H2. destruct (eqb_ok v1 v2 O1 O2) as [b [R H]]. exists b. split; auto. rewrite H. split.
  - intros [S B]. apply bits_reads; auto.
  - intros E. assert (L : iv_len v1 = iv_len v2) by (rewrite <- !elems_length; congruence).
    assert (S : iv_size v1 = iv_size v2) by (unfold whole in *; congruence). split; auto.
    unfold iv_bits. rewrite <- S. apply map_ext_in. intros p Hp. apply in_seq in Hp.
    pose proof O1 as [_ [Bw _]]. unfold whole in H1.
    assert (Hi : p / iv_width v1 < iv_len v1).
    { apply Nat.div_lt_upper_bound; lia. }
    assert (Q : nth (p / iv_width v1) (elems v1) 0%N = nth (p / iv_width v1) (elems v2) 0%N) by congruence.
    rewrite !nth_elems in Q by lia. rewrite <- W in Q.
    assert (T : tb (field (iv_data v1) (p / iv_width v1 * iv_width v1) (iv_width v1)) (p mod iv_width v1) =
                tb (field (iv_data v2) (p / iv_width v1 * iv_width v1) (iv_width v1)) (p mod iv_width v1)) by congruence.
    rewrite !tb_field in T. pose proof (Nat.mod_upper_bound p (iv_width v1) ltac:(lia)) as MB.
    replace (p mod iv_width v1 <? iv_width v1) with true in T by lia. cbn [andb] in T.
    replace (p / iv_width v1 * iv_width v1 + p mod iv_width v1) with p in T; auto.
    rewrite (Nat.div_mod p (iv_width v1)) at 1 by lia. lia.
Qed.

Fixpoint cmp_list (op : N -> N -> bool) (k : nat) (l1 l2 : list N) : option bool :=
  match k, l1, l2 with
  | S k', a :: t1, b :: t2 => if (a =? b)%N then cmp_list op k' t1 t2 else Some (op a b)
  | _, _, _ => None
  end.

Lemma skipn_S_nth : forall A (l : list A) i d, i < length l -> skipn i l = nth i l d :: skipn (S i) l.
Proof. induction l; intros [|i] d H; cbn in *; auto; try lia. apply IHl. lia. Qed.

Lemma cmp_loop_ok : forall op v1 v2 mn, iv_ok v1 -> iv_ok v2 -> mn <= iv_len v1 -> mn <= iv_len v2 ->
  forall k i it it2 en, i + k = mn -> designates (iv_width v1) it (Z.of_nat i) -> designates (iv_width v2) it2 (Z.of_nat i) ->
  designates (iv_width v1) en (Z.of_nat mn) ->
  cmp_loop op (S k) (iv_data v1) (iv_data v2) it en it2 = Some (cmp_list op k (skipn i (elems v1)) (skipn i (elems v2))).
Proof.
  intros op v1 v2 mn O1 O2 M1 M2. pose proof O1 as [_ [B1 _]]. pose proof O2 as [_ [B2 _]].
  induction k; intros i it it2 en E D1 D2 D3.
  - cbn [cmp_loop]. rewrite (iter_eq_ok _ _ _ _ _ (proj1 B1) D1 D3). replace (Z.of_nat i =? Z.of_nat mn)%Z with true by lia. auto.
  - remember (S k) as k1. cbn [cmp_loop]. subst k1. rewrite (iter_eq_ok _ _ _ _ _ (proj1 B1) D1 D3).
    replace (Z.of_nat i =? Z.of_nat mn)%Z with false by lia.
    destruct (iter_get_ok v1 it i O1 ltac:(lia) D1) as [G1 _]. destruct (iter_get_ok v2 it2 i O2 ltac:(lia) D2) as [G2 _].
    rewrite G1, G2. cbn [obind]. rewrite (skipn_S_nth _ (elems v1) i 0%N) by (rewrite elems_length; lia).
    rewrite (skipn_S_nth _ (elems v2) i 0%N) by (rewrite elems_length; lia). cbn [cmp_list].
    destruct (N.eqb (nth i (elems v1) 0%N) (nth i (elems v2) 0%N)); auto.
    apply IHk; auto; try lia; replace (Z.of_nat (S i)) with (Z.of_nat i + 1)%Z by lia; apply inc_designates; auto.
Qed.

Lemma cmp_list_lt : forall l1 l2, match cmp_list N.ltb (Nat.min (length l1) (length l2)) l1 l2 with
  | Some b => (b = true <-> lex_lt l1 l2) | None => length l1 < length l2 <-> lex_lt l1 l2 end.
Proof.
  induction l1; intros [|b l2]; cbn [length Nat.min cmp_list lex_lt]; try (split; [lia|tauto]).
  - split; auto. lia.
  - destruct (N.eqb_spec a b) as [E|E].
    + subst b. specialize (IHl1 l2). destruct (cmp_list _ _ l1 l2).
      * rewrite IHl1. split; [auto|]. intros [H|H]; [lia|tauto].
      * rewrite <- Nat.succ_lt_mono. rewrite IHl1. split; [auto|]. intros [H|H]; [lia|tauto].
    + rewrite N.ltb_lt. split; [auto|]. intros [H|[H _]]; [auto|contradiction].
Qed.
Lemma cmp_list_gt : forall l1 l2, match cmp_list (fun a b => N.ltb b a) (Nat.min (length l1) (length l2)) l1 l2 with
  | Some b => (b = true <-> lex_lt l2 l1) | None => length l2 < length l1 <-> lex_lt l2 l1 end.
Proof.
  induction l1; intros [|b l2]; cbn [length Nat.min cmp_list lex_lt]; try (split; [lia|tauto]).
  - split; auto. lia.
  - destruct (N.eqb_spec a b) as [E|E].
    + subst b. specialize (IHl1 l2). destruct (cmp_list _ _ l1 l2).
      * rewrite IHl1. split; [auto|]. intros [H|H]; [lia|tauto].
      * rewrite <- Nat.succ_lt_mono. rewrite IHl1. split; [auto|]. intros [H|H]; [lia|tauto].
    + rewrite N.ltb_lt. split; [auto|]. intros [H|[H _]]; [auto|congruence].
Qed.

Lemma ltb_ok : forall v1 v2, iv_ok v1 -> iv_ok v2 -> exists b, iv_ltb v1 v2 = Some b /\ (b = true <-> lex_lt (elems v1) (elems v2)).
Proof.
  intros v1 v2 O1 O2. unfold iv_ltb. pose proof O1 as [_ [B1 _]].
  replace (if iv_len v2 <? iv_len v1 then iv_len v2 else iv_len v1) with (Nat.min (iv_len v1) (iv_len v2))
    by (destruct (Nat.ltb_spec (iv_len v2) (iv_len v1)); lia).
  rewrite (cmp_loop_ok N.ltb v1 v2 (Nat.min (iv_len v1) (iv_len v2)) O1 O2 ltac:(lia) ltac:(lia) _ 0); auto;
    try apply begin_designates.
  2: { replace (Z.of_nat (Nat.min (iv_len v1) (iv_len v2))) with (0 + Z.of_nat (Nat.min (iv_len v1) (iv_len v2)))%Z at 2 by lia.
       apply add_designates; auto. apply begin_designates. }
  cbn [obind skipn]. pose proof (cmp_list_lt (elems v1) (elems v2)) as H. rewrite !elems_length in H.
  destruct (cmp_list _ _ _ _); [eauto|]. eexists. split; [reflexivity|]. rewrite <- H. apply Nat.ltb_lt.
Qed.
Lemma gtb_ok : forall v1 v2, iv_ok v1 -> iv_ok v2 -> exists b, iv_gtb v1 v2 = Some b /\ (b = true <-> lex_lt (elems v2) (elems v1)).
Proof.
  intros v1 v2 O1 O2. unfold iv_gtb. pose proof O1 as [_ [B1 _]].
  replace (if iv_len v2 <? iv_len v1 then iv_len v2 else iv_len v1) with (Nat.min (iv_len v1) (iv_len v2))
    by (destruct (Nat.ltb_spec (iv_len v2) (iv_len v1)); lia).
  rewrite (cmp_loop_ok (fun a b => N.ltb b a) v1 v2 (Nat.min (iv_len v1) (iv_len v2)) O1 O2 ltac:(lia) ltac:(lia) _ 0); auto;
    try apply begin_designates.
  2: { replace (Z.of_nat (Nat.min (iv_len v1) (iv_len v2))) with (0 + Z.of_nat (Nat.min (iv_len v1) (iv_len v2)))%Z at 2 by lia.
       apply add_designates; auto. apply begin_designates. }
  cbn [obind skipn]. pose proof (cmp_list_gt (elems v1) (elems v2)) as H. rewrite !elems_length in H.
  destruct (cmp_list _ _ _ _); [eauto|]. eexists. split; [reflexivity|]. rewrite <- H. apply Nat.ltb_lt.
Qed.

Lemma lex_irrefl : forall l, ~ lex_lt l l.
Proof. induction l; cbn; auto. intros [H|[_ H]]; [lia|auto]. Qed.
Lemma lex_trans : forall l1 l2 l3, lex_lt l1 l2 -> lex_lt l2 l3 -> lex_lt l1 l3.
Proof.
  induction l1; intros [|b l2] [|c l3]; cbn; try tauto. intros [H|[-> H]] [K|[-> K]].
  - left. lia. - left. lia. - left. lia. - right. eauto.
Qed.
Lemma lex_total : forall l1 l2, lex_lt l1 l2 \/ l1 = l2 \/ lex_lt l2 l1.
Proof.
  induction l1; intros [|b l2]; cbn; auto. destruct (N.lt_trichotomy a b) as [H|[->|H]]; auto.
  destruct (IHl1 l2) as [H|[->|H]]; auto.
Qed.

(** ** set_to_id *)
Lemma iota_ok : forall todo i v it en, iv_ok v -> i + todo = iv_len v -> designates (iv_width v) it (Z.of_nat i) ->
  designates (iv_width v) en (Z.of_nat (iv_len v)) -> (forall j, j < i -> nth j (elems v) 0%N = (N.of_nat j mod 2 ^ N.of_nat (iv_width v))%N) ->
  exists m', iota_loop (S todo) (iv_data v) it en (N.of_nat i mod W64)%N = Some m' /\ iv_ok (mkiv (iv_size v) m' (iv_width v)) /\
    forall j, j < iv_len v -> nth j (elems (mkiv (iv_size v) m' (iv_width v))) 0%N = (N.of_nat j mod 2 ^ N.of_nat (iv_width v))%N.
Proof.
  induction todo; intros i v it en O E D1 D2 H; pose proof O as [A [B C]].
  - cbn [iota_loop]. rewrite (iter_eq_ok _ _ _ _ _ (proj1 B) D1 D2). replace (Z.of_nat i =? Z.of_nat (iv_len v))%Z with true by lia.
    exists (iv_data v). split; auto. destruct v as [s d w]. cbn [iv_size iv_data iv_width] in *. split; auto. intros j Hj. apply H. lia.
  - remember (S todo) as td. cbn [iota_loop]. subst td. rewrite (iter_eq_ok _ _ _ _ _ (proj1 B) D1 D2).
    replace (Z.of_nat i =? Z.of_nat (iv_len v))%Z with false by lia.
    destruct (iter_set_ok v it i (N.of_nat i mod W64)%N O ltac:(lia) D1) as [m1 [R1 R2]].
    destruct (ref_set_ok v i (N.of_nat i mod W64)%N O ltac:(lia)) as [v1 [Q1 [Q2 [Q3 [Q4 [Q5 Q6]]]]]].
    rewrite R2 in Q1. apply some_inj in Q1. rewrite R1. cbn [obind].
    assert (L1 : iv_len v1 = iv_len v) by (unfold iv_len; congruence).
    destruct (IHtodo (S i) v1 (iter_inc it) en) as [m' [P1 [P2 P3]]]; auto.
    + lia.
    + rewrite Q4. replace (Z.of_nat (S i)) with (Z.of_nat i + 1)%Z by lia. apply inc_designates; auto.
    + rewrite Q4, L1. auto.
    + intros j Hj. rewrite Q6, nth_upd, elems_length, Q4. destruct (Nat.eqb_spec j i) as [->|N].
      * replace (i <? iv_len v) with true by lia. cbn [andb]. rewrite <- !zmod_N. rewrite N2Z.inj_mod.
        change (Z.of_N W64) with (2 ^ 64)%Z. apply zmod_of_word. lia.
      * cbn [andb]. apply H. lia.
    + rewrite <- Q1 in P1, P2, P3. cbn [iv_data iv_size iv_width] in P1, P2, P3.
      exists m'. split; [|split].
      * rewrite <- P1. f_equal. unfold wadd. rewrite N.add_mod_idemp_l by discriminate. f_equal. lia.
      * auto.
      * intros j Hj. apply P3. unfold iv_len in *. cbn. auto.
Qed.

Lemma set_to_id_ok : forall v, iv_ok v -> exists v', iv_set_to_id v = Some v' /\ iv_ok v' /\ iv_size v' = iv_size v /\
  iv_width v' = iv_width v /\ elems v' = map (fun i => (N.of_nat i mod 2 ^ N.of_nat (iv_width v))%N) (seq 0 (iv_len v)).
Proof.
  intros v O. unfold iv_set_to_id.
  destruct (iota_ok (iv_len v) 0 v (iv_begin v) (iv_end v) O) as [m' [P1 [P2 P3]]]; auto.
  - apply begin_designates. - apply end_designates. - intros. lia.
  - change (N.of_nat 0 mod W64)%N with 0%N in P1. rewrite P1. cbn [obind]. eexists. split; [reflexivity|]. split; auto.
    split; auto. split; auto. apply list_nth_ext with 0%N. { rewrite elems_length, map_length, seq_length. auto. }
    intros j Hj. rewrite elems_length in Hj. unfold iv_len in Hj. cbn in Hj. rewrite P3 by auto. rewrite nth_map_seq; auto.
Qed.
