(** * Proofs about CoderFib.v: decode_prefix_sum. *)
From Coq Require Import NArith List Bool Arith Lia.
From Verif Require Import Base Tables Bits SpecBits BitsProofs BitsProofs2 BitsProofs3 BitsProofs4 BitsMem IntVector AbsVec WtBase WtProofs Coder CoderProofs CoderProofs3 SpecCoder SpecFib CoderFib CoderFibProofs CoderFibProofs2.
Import ListNotations.

(** ** the table of 16 bits *)
Lemma cw_bound : forall c, cw c -> forall k, (fv k (removelast c) + (if hd false c then fib (S k) else fib k) <= fib (k + length c - 1) + (if hd false c then fib k else 0))%N.
Proof.
  induction 1; intros k.
  - cbn [removelast fv hd length]. replace (k + 2 - 1) with (S k) by lia. lia.
  - assert (removelast (false :: t) = false :: removelast t) as ->. { destruct t; auto. apply cw_len in H. simpl in H. lia. }
    cbn [fv hd length]. specialize (IHcw (S k)). replace (k + S (length t) - 1) with (S k + length t - 1) by lia. pose proof (fib_SS k). rewrite fib_S in IHcw.
    destruct (hd false t); lia.
  - change (removelast (true :: false :: t)) with (true :: removelast (false :: t)). cbn [hd length]. specialize (IHcw (S k)). cbn [hd length] in IHcw.
    replace (k + S (S (length t)) - 1) with (S k + S (length t) - 1) by lia. change (fv k (true :: removelast (false :: t))) with (fib k + fv (S k) (removelast (false :: t)))%N. lia.
Qed.
Lemma cw_bound0 : forall c, cw c -> (fv 0 (removelast c) < fib (length c - 1))%N.
Proof.
  intros c C. pose proof (cw_bound c C 0) as B. change (0 + length c - 1) with (length c - 1) in B. change (fib 0) with 1%N in B. change (fib 1) with 2%N in B.
  destruct (hd false c); lia.
Qed.
Lemma cw_bound100 : forall c, cw c -> length c <= 16 -> (fv 0 (removelast c) <= 100 * N.of_nat (length c))%N.
Proof.
  intros c C L. pose proof (cw_bound0 c C) as B. pose proof (cw_len c C).
  assert (T : forallb (fun l => (fib (l - 1) <=? 100 * N.of_nat l)%N) (seq 1 16) = true) by (vm_compute; reflexivity).
  rewrite forallb_forall in T. specialize (T (length c) ltac:(apply in_seq; lia)). lia.
Qed.
Definition sumfv (cs : list (list bool)) : N := fold_right (fun c a => (fv 0 (removelast c) + a)%N) 0%N cs.
Lemma sumfv_bound : forall cs, Forall cw cs -> length (concat cs) <= 16 -> (sumfv cs <= 100 * N.of_nat (length (concat cs)))%N.
Proof.
  induction cs as [|c cs IH]; intros F L; [simpl; lia|]. inversion_clear F. cbn [sumfv fold_right concat] in *. rewrite app_length in *. fold (sumfv cs).
  specialize (IH H0 ltac:(lia)). pose proof (cw_bound100 c H ltac:(lia)). lia.
Qed.
Lemma greedy_concat : forall cs r, Forall cw cs -> fst (greedy11 false (concat cs ++ r)) = length cs + fst (greedy11 false r).
Proof.
  induction cs as [|c cs IH]; intros r F; auto. inversion_clear F. cbn [concat]. rewrite <- app_assoc, cw_greedy by auto. cbn [fst length]. rewrite IH; auto.
Qed.
Lemma tb0 : forall b l, tb (N_of_bits (b :: l)) 0 = b.
Proof. intros. rewrite tb_N_of_bits. auto. Qed.
Lemma tb1 : forall b c l, tb (N_of_bits (b :: c :: l)) 1 = c.
Proof. intros. rewrite tb_N_of_bits. auto. Qed.
Lemma shr1 : forall b l, shr (N_of_bits (b :: l)) 1 = N_of_bits l.
Proof. intros. rewrite shr_skip. auto. Qed.
Lemma g16_loop_ok : forall fuel t cs r k off V, cw t -> Forall cw cs -> length t + length (concat cs) <= fuel -> k + length t + length (concat cs) <= 90 ->
  g16_loop fuel (N_of_bits (t ++ concat cs ++ r)) (S (length cs)) (k + 1) off (V mod 2 ^ 16) =
  Some (off + length t + length (concat cs), ((V + fv k (removelast t) + sumfv cs) mod 2 ^ 16)%N).
Proof.
  induction fuel as [|f IH]; intros t cs r k off V C F L B; pose proof (cw_len _ C) as L2; [lia|].
  assert (MA : forall x, ((V mod 2 ^ 16 + x) mod 2 ^ 16 = (V + x) mod 2 ^ 16)%N) by (intros; apply N.add_mod_idemp_l; discriminate).
  cbn [g16_loop]. replace (k + 1 - 1) with k by lia.
  destruct t as [|b t]; [simpl in L2; lia|]. destruct (cw_tl _ _ C) as [[-> ->]|[C' B']].
  - cbn [app]. rewrite tb0, tb1, lt_fib_ok by (cbn [length] in *; lia). cbn [obind]. rewrite MA.
    rewrite (csub_some _ 1 (length cs)) by lia. cbn [obind]. rewrite !shr1. change (fv k (removelast [true; true])) with (fib k + 0)%N. rewrite N.add_0_r.
    destruct cs as [|c cs].
    + cbn [length Nat.eqb concat sumfv fold_right]. rewrite N.add_0_r. f_equal. f_equal. cbn [length]. lia.
    + cbn [length Nat.eqb]. inversion_clear F. cbn [concat] in *. rewrite <- app_assoc. rewrite app_length in *. cbn [length] in *.
      pose proof (IH c cs r 0 (off + 1 + 1) (V + fib k)%N H H0 ltac:(lia) ltac:(lia)) as R. cbn [Nat.add] in R. cbn [Nat.add]. rewrite R. cbn [sumfv fold_right]. fold (sumfv cs).
      f_equal. f_equal. { lia. } f_equal. lia.
  - assert (E : removelast (b :: t) = b :: removelast t). { destruct t; auto. apply cw_len in C'. simpl in C'. lia. } rewrite E. cbn [fv app length] in *.
    assert (R : forall V', g16_loop f (N_of_bits (t ++ concat cs ++ r)) (S (length cs)) (k + 1 + 1) (off + 1) (V' mod 2 ^ 16) =
       Some (off + 1 + length t + length (concat cs), ((V' + fv (S k) (removelast t) + sumfv cs) mod 2 ^ 16)%N)).
    { intros. replace (k + 1 + 1) with (S k + 1) by lia. apply IH; auto; lia. }
    rewrite tb0. destruct b.
    + rewrite lt_fib_ok by lia. cbn [obind]. rewrite MA. destruct (B' eq_refl) as [t' ->]. cbn [app]. rewrite tb1. cbn [Nat.eqb obind]. rewrite shr1.
      cbn [app] in R. rewrite R. f_equal. f_equal. { cbn [length]. lia. } f_equal. lia.
    + cbn [obind Nat.eqb]. rewrite shr1, R. f_equal. f_equal. { lia. }
Qed.
Lemma fib_g16_ok : forall cs r, Forall cw cs -> fst (greedy11 false r) = 0 -> length (concat cs ++ r) <= 16 ->
  exists temp, fib_g16 (N_of_bits (concat cs ++ r)) = Some temp /\ N.shiftr temp 11 = N.of_nat (length (concat cs)) /\ N.land temp 2047 = sumfv cs.
Proof.
  intros cs r F Z L. rewrite app_length in L.
  assert (SB : (sumfv cs < 2 ^ 11)%N). { pose proof (sumfv_bound cs F ltac:(lia)). change (2 ^ 11)%N with 2048%N. lia. }
  exists (N.of_nat (length (concat cs)) * 2 ^ 11 + sumfv cs)%N. split.
  - unfold fib_g16. rewrite cnt_bits by (rewrite app_length; lia). rewrite greedy_concat, Z, Nat.add_0_r, Nat2N.id by auto.
    assert ((if length cs =? 0 then Some (0, 0%N) else g16_loop 17 (N_of_bits (concat cs ++ r)) (length cs) 1 0 0) = Some (length (concat cs), sumfv cs)) as ->.
    { destruct cs as [|c cs]; [reflexivity|]. cbn [length Nat.eqb concat]. inversion_clear F. rewrite <- app_assoc. cbn [concat] in L. rewrite app_length in L.
      change 0%N with (0 mod 2 ^ 16)%N at 1. pose proof (g16_loop_ok 17 c cs r 0 0 0 H H0 ltac:(lia) ltac:(lia)) as R. cbn [Nat.add] in R. rewrite R. rewrite app_length. f_equal. f_equal.
      cbn [sumfv fold_right]. fold (sumfv cs). rewrite N.add_0_l. apply N.mod_small. cbn [sumfv fold_right] in SB. fold (sumfv cs) in SB. change (2 ^ 11)%N with 2048%N in SB. change (2 ^ 16)%N with 65536%N. lia. }
    cbn [obind]. f_equal. rewrite N.shiftl_mul_pow2.
    assert (E : N.lor (N.of_nat (length (concat cs)) * 2 ^ 11) (sumfv cs) = (N.of_nat (length (concat cs)) * 2 ^ 11 + sumfv cs)%N).
    { assert (Q : N.land (N.of_nat (length (concat cs)) * 2 ^ 11) (sumfv cs) = 0%N).
      { apply N.bits_inj. intros k. rewrite N.land_spec, N.bits_0. destruct (N.lt_ge_cases k 11).
        - rewrite N.mul_pow2_bits_low by auto. auto.
        - rewrite <- (N.mod_small _ _ SB). rewrite N.mod_pow2_bits_high by auto. apply andb_false_r. }
      rewrite <- N.lxor_lor by auto. symmetry. apply N.add_nocarry_lxor. auto. }
    rewrite E. apply N.mod_small. change (2 ^ 11)%N with 2048%N in *. change (2 ^ 16)%N with 65536%N. lia.
  - split.
    + rewrite N.shiftr_div_pow2. rewrite N.div_add_l by discriminate. rewrite N.div_small by auto. lia.
    + change 2047%N with (N.ones 11). rewrite N.land_ones. rewrite N.add_comm, N.mod_add by discriminate. apply N.mod_small. auto.
Qed.

(** ** counting and locating codewords *)
Lemma codes_greedy : forall xs m P q r, codes fcode m P xs q ->
  greedy11 false (bs m P (q - P) ++ r) = (length xs + fst (greedy11 false r), snd (greedy11 false r)).
Proof.
  induction xs as [|x t IH]; intros m P q r K; simpl in K.
  - subst. rewrite Nat.sub_diag. cbn. destruct (greedy11 false r). auto.
  - destruct K as [s [[c [C1 [C2 [C3 [C4 C5]]]]] K]]. pose proof (f_le _ _ _ _ K). replace (q - P) with (length c + (q - s)) by lia.
    rewrite bs_app, bs_is, <- app_assoc by auto. rewrite cw_greedy by auto. replace (P + length c) with s by lia. rewrite (IH m s q r K). auto.
Qed.
Lemma codes_count_lt : forall xs m P q L, codes fcode m P xs q -> P + L < q -> fst (greedy11 false (bs m P L)) < length xs.
Proof.
  induction xs as [|x t IH]; intros m P q L K H; simpl in K; [lia|].
  destruct K as [s [[c [C1 [C2 [C3 [C4 C5]]]]] K]]. pose proof (f_le _ _ _ _ K). destruct (Nat.lt_ge_cases L (length c)).
  - replace (bs m P L) with (firstn L c).
    2:{ rewrite <- (bs_is m P c C4). replace (length c) with (L + (length c - L)) by lia. rewrite bs_app. rewrite firstn_app, bs_length, Nat.sub_diag. rewrite firstn_all2 by (rewrite bs_length; auto). cbn [firstn]. rewrite app_nil_r. auto. }
    rewrite (cw_prefix _ (skipn L c)). { simpl. lia. } { rewrite firstn_skipn. auto. }
    intro Q. apply (f_equal (@length bool)) in Q. rewrite skipn_length in Q. simpl in Q. lia.
  - replace L with (length c + (L - length c)) by lia. rewrite bs_app, bs_is by auto. rewrite cw_greedy by auto. cbn [fst length].
    apply -> Nat.succ_lt_mono. replace (P + length c) with s by lia. eapply IH; eauto. lia.
Qed.
Lemma ends_app : forall a c p b, greedy11_ends c p (a ++ b) = greedy11_ends c p a ++ greedy11_ends (snd (greedy11 c a)) (p + length a) b.
Proof.
  induction a as [|x a IH]; intros c p b; cbn [app length greedy11_ends greedy11].
  - rewrite Nat.add_0_r. auto.
  - replace (p + S (length a)) with (S p + length a) by lia. destruct x; [destruct c|]; rewrite IH; auto.
    destruct (greedy11 false a); auto.
Qed.
Lemma ends_len : forall a c p, length (greedy11_ends c p a) = fst (greedy11 c a).
Proof.
  induction a as [|x a IH]; intros; auto. cbn [greedy11_ends greedy11]. destruct x; [destruct c|]; auto.
  cbn [length]. rewrite IH. destruct (greedy11 false a). auto.
Qed.
Lemma ends_shift : forall a c p, greedy11_ends c p a = map (Nat.add p) (greedy11_ends c 0 a).
Proof.
  assert (G : forall a c p k, greedy11_ends c (p + k) a = map (Nat.add p) (greedy11_ends c k a)).
  { induction a as [|x a IH]; intros; auto. cbn [greedy11_ends]. replace (S (p + k)) with (p + S k) by lia. destruct x; [destruct c|]; rewrite IH; auto. }
  intros. rewrite <- G. f_equal. lia.
Qed.
Lemma codes_end : forall xs m P q r p, xs <> [] -> codes fcode m P xs q ->
  nth (length xs - 1) (greedy11_ends false p (bs m P (q - P) ++ r)) 0 = p + (q - P) - 1.
Proof.
  induction xs as [|x t IH]; intros m P q r p NE K; simpl in K; [contradiction|].
  destruct K as [s [[c [C1 [C2 [C3 [C4 C5]]]]] K]]. pose proof (f_le _ _ _ _ K). pose proof (cw_len _ C1). replace (q - P) with (length c + (q - s)) at 1 by lia.
  rewrite bs_app, bs_is, <- app_assoc by auto. rewrite cw_ends by auto. replace (P + length c) with s by lia. destruct t as [|y t].
  - simpl in K. subst q. cbn [length Nat.sub nth]. lia.
  - cbn [length]. rewrite Nat.sub_succ, Nat.sub_0_r. cbn [nth]. specialize (IH m s q r (p + length c) ltac:(discriminate) K). cbn [length] in IH. rewrite Nat.sub_succ, Nat.sub_0_r in IH. rewrite IH. lia.
Qed.
Lemma word_bs : forall m d, bits_of_N 64 (nth d m 0%N) = bs m (64 * d) 64.
Proof.
  intros. apply list_nth_ext with (d := false). { rewrite bits_of_N_length, bs_length. auto. }
  intros k Hk. rewrite bits_of_N_length in Hk. rewrite nth_bits_of_N, nth_bs. destruct (Nat.ltb_spec k 64); auto. cbn [andb]. rewrite mbit_wo; auto.
Qed.
Lemma greedy_lead : forall n l, greedy11 false (repeat false n ++ l) = greedy11 false l.
Proof. induction n; simpl; auto. Qed.
Lemma fp_count_S : forall f m d n i carry w, fp_count (S f) m d n i carry w =
    (let* x := ld m (d + (w + 1)) in
    let '(t, c) := cnt11c x carry in
    if i + N.to_nat t <? n then fp_count f m d n (i + N.to_nat t) c (w + 1) else Some (w + 1, i, carry)).
Proof. reflexivity. Qed.
Lemma bs_next : forall m d read w, read < 64 -> bs m (64 * d + read) (64 - read + 64 * (w + 1)) = bs m (64 * d + read) (64 - read + 64 * w) ++ bs m (64 * (d + (w + 1))) 64.
Proof.
  intros. replace (64 - read + 64 * (w + 1)) with (64 - read + 64 * w + 64) by lia. rewrite bs_app. f_equal. f_equal. lia.
Qed.
Lemma cnt11c_word : forall m k c, words_ok m -> k < length m ->
  cnt11c (nth k m 0%N) (b2n c) = (N.of_nat (fst (greedy11 c (bs m (64 * k) 64))), b2n (snd (greedy11 c (bs m (64 * k) 64)))).
Proof. intros. rewrite <- word_bs. apply cnt11c_correct. apply Forall_nth; auto. Qed.
Lemma count_next : forall m d read xs q w, read < 64 -> codes fcode m (64 * d + read) xs q -> q <= 64 * length m ->
  fst (greedy11 false (bs m (64 * d + read) (64 - read + 64 * w))) < length xs -> d + (w + 1) < length m.
Proof.
  intros m d read xs q w Hr K Hq H. destruct (Nat.lt_ge_cases (d + (w + 1)) (length m)); auto. exfalso.
  pose proof (codes_count _ _ _ _ (64 - read + 64 * w) K ltac:(lia)). lia.
Qed.
Lemma fp_count_ok : forall fuel m d read xs q w A i c, words_ok m -> read < 64 -> codes fcode m (64 * d + read) xs q -> q <= 64 * length m ->
  A = bs m (64 * d + read) (64 - read + 64 * w) -> greedy11 false A = (i, c) ->
  i < length xs -> length m <= fuel + w + d ->
  exists w' B i' c', fp_count fuel m d (length xs) i (b2n c) w = Some (w' + 1, i', b2n c') /\ B = bs m (64 * d + read) (64 - read + 64 * w') /\
    greedy11 false B = (i', c') /\ i' < length xs /\ length xs <= fst (greedy11 false (B ++ bs m (64 * (d + (w' + 1))) 64)) /\ d + (w' + 1) < length m.
Proof.
  induction fuel as [|f IH]; intros m d read xs q w A i c Hm Hr K Hq EA G HA F.
  { exfalso. assert (HB : fst (greedy11 false A) < length xs) by (rewrite G; exact HA). rewrite EA in HB. pose proof (count_next _ _ _ _ _ _ Hr K Hq HB). lia. }
  assert (D : d + (w + 1) < length m). { assert (HB : fst (greedy11 false A) < length xs) by (rewrite G; exact HA). rewrite EA in HB. apply (count_next _ _ _ _ _ _ Hr K Hq HB). }
  rewrite fp_count_S, ld_some by exact D. cbn [obind]. rewrite cnt11c_word by (auto; lia). rewrite Nat2N.id.
  pose proof (greedy11_app A (bs m (64 * (d + (w + 1))) 64) false) as E2. pose proof (bs_next m d read w Hr) as E. rewrite <- EA in E. rewrite G in E2. cbn [fst snd] in E2.
  remember (bs m (64 * (d + (w + 1))) 64) as X eqn:EX. remember (fst (greedy11 c X)) as j. remember (snd (greedy11 c X)) as c2.
  destruct (Nat.ltb_spec (i + j) (length xs)) as [Q|Q].
  - apply (IH m d read xs q (w + 1) (A ++ X) (i + j) c2 Hm Hr K Hq (eq_sym E) E2 Q). clear - F. lia.
  - exists w, A, i, c. rewrite <- EX. split; [reflexivity|]. split; [exact EA|]. split; [exact G|]. split; [exact HA|]. split; [|exact D]. rewrite E2. exact Q.
Qed.
Lemma fp_bits_ok : forall m start xs q, words_ok m -> codes fcode m start xs q -> q <= 64 * length m -> xs <> [] ->
  fp_bits m (start / 64) (start mod 64) (length xs) = Some (q - start).
Proof.
  intros m start xs q Hm K Hq NE. remember (start / 64) as d. remember (start mod 64) as read.
  assert (ES : start = 64 * d + read) by lia. assert (Hr : read < 64) by lia. clear Heqd Heqread. subst start.
  pose proof (f_le _ _ _ _ K) as LK. assert (Ln : 1 <= length xs). { destruct xs; [contradiction|simpl; lia]. }
  unfold fp_bits. rewrite ld_some by lia. cbn [obind].
  assert (W : is_word (nth d m 0%N)) by (apply Forall_nth; auto; lia).
  change 0%N with (b2n false) at 2. rewrite cnt11c_correct by (apply is_word_tb; intros; rewrite tb_land, tb_word_high; auto).
  assert (EB : bits_of_N 64 (N.land (nth d m 0%N) (wnot (lo_set read))) = repeat false read ++ bs m (64 * d + read) (64 - read)).
  { apply list_nth_ext with (d := false). { rewrite bits_of_N_length, app_length, repeat_length, bs_length. lia. }
    intros k Hk. rewrite bits_of_N_length in Hk. rewrite nth_bits_of_N, tb_land, tb_wnot, tb_lo_set. replace (k <? 64) with true by lia. cbn [andb].
    destruct (Nat.ltb_spec k read).
    - rewrite app_nth1 by (rewrite repeat_length; auto). rewrite nth_repeat. apply andb_false_r.
    - rewrite app_nth2 by (rewrite repeat_length; auto). rewrite repeat_length, nth_bs. replace (k - read <? 64 - read) with true by lia. cbn [xorb andb]. rewrite andb_true_r.
      replace (64 * d + read + (k - read)) with (64 * d + k) by lia. rewrite mbit_wo; auto. }
  rewrite EB, greedy_lead, Nat2N.id.
  assert (E0 : bs m (64 * d + read) (64 - read) = bs m (64 * d + read) (64 - read + 64 * 0)) by (f_equal; lia).
  destruct (Nat.ltb_spec (fst (greedy11 false (bs m (64 * d + read) (64 - read)))) (length xs)).
  - rewrite E0 in *. destruct (greedy11 false (bs m (64 * d + read) (64 - read + 64 * 0))) as [i0 c0] eqn:G0. cbn [fst snd] in *.
    destruct (fp_count_ok (length m) m d read xs q 0 _ i0 c0 Hm Hr K Hq eq_refl G0 H ltac:(lia)) as [w [A [i [c [R [EA [GA [G1 [G2 G3]]]]]]]]].
    rewrite R. cbn [obind]. rewrite ld_some by lia. cbn [obind].
    assert (LA : length A = 64 - read + 64 * w) by (subst A; apply bs_length).
    assert (EL : bs m (64 * d + read) (64 - read + 64 * (w + 1)) = A ++ bs m (64 * (d + (w + 1))) 64).
    { rewrite EA. apply bs_next. auto. }
    assert (Q : q <= 64 * d + read + (64 - read + 64 * (w + 1))).
    { destruct (Nat.le_gt_cases q (64 * d + read + (64 - read + 64 * (w + 1)))); auto. pose proof (codes_count_lt _ _ _ _ (64 - read + 64 * (w + 1)) K ltac:(lia)) as Z. rewrite EL in Z. lia. }
    assert (Q2 : 64 * d + read + length A < q).
    { destruct (Nat.lt_ge_cases (64 * d + read + length A) q); auto. pose proof (codes_count _ _ _ _ (length A) K ltac:(lia)) as Z. rewrite LA, <- EA, GA in Z. cbn [fst] in Z. lia. }
    rewrite greedy_app_fst, GA in G2. cbn [fst snd] in G2.
    pose proof (codes_end xs m _ q (bs m q (64 * d + read + (64 - read + 64 * (w + 1)) - q)) 0 NE K) as CE.
    rewrite <- (firstn_skipn 0 (bs m q _)) in CE. cbn [firstn skipn app] in CE.
    replace (bs m (64 * d + read) (q - (64 * d + read)) ++ bs m q (64 * d + read + (64 - read + 64 * (w + 1)) - q)) with (A ++ bs m (64 * (d + (w + 1))) 64) in CE.
    2:{ rewrite <- EL. replace (64 - read + 64 * (w + 1)) with ((q - (64 * d + read)) + (64 * d + read + (64 - read + 64 * (w + 1)) - q)) at 1 by lia. rewrite bs_app. f_equal. f_equal. lia. }
    rewrite ends_app, GA in CE. cbn [snd] in CE. rewrite <- word_bs in CE, G2.
    rewrite app_nth2 in CE by (rewrite ends_len, GA; cbn [fst]; lia).
    rewrite ends_len, GA in CE. cbn [fst] in CE. rewrite (ends_shift _ _ (0 + length A)) in CE.
    rewrite sel11_correct; [|apply Forall_nth; auto; lia|rewrite ends_len; lia].
    cbn [obind]. rewrite Nat2N.id. apply csub_some.
    pose proof (ends_len (bits_of_N 64 (nth (d + (w + 1)) m 0%N)) c 0) as EE.
    remember (greedy11_ends c 0 (bits_of_N 64 (nth (d + (w + 1)) m 0%N))) as e.
    replace (length xs - 1 - i) with (length xs - i - 1) in CE by lia.
    rewrite (nth_indep _ 0 (0 + length A + 0)) in CE by (rewrite map_length, EE; lia). rewrite map_nth in CE. lia.
  - assert (Q : q <= 64 * d + read + (64 - read)).
    { destruct (Nat.le_gt_cases q (64 * d + read + (64 - read))); auto. pose proof (codes_count_lt _ _ _ _ (64 - read) K ltac:(lia)). lia. }
    assert (EB2 : bits_of_N 64 (shr (nth d m 0%N) read) = bs m (64 * d + read) (64 - read) ++ repeat false read).
    { apply list_nth_ext with (d := false). { rewrite bits_of_N_length, app_length, repeat_length, bs_length. lia. }
      intros k Hk. rewrite bits_of_N_length in Hk. rewrite nth_bits_of_N, tb_shr. replace (k <? 64) with true by lia. cbn [andb].
      destruct (Nat.lt_ge_cases k (64 - read)).
      - rewrite app_nth1 by (rewrite bs_length; auto). rewrite nth_bs. replace (k <? 64 - read) with true by lia. cbn [andb]. replace (64 * d + read + k) with (64 * d + (k + read)) by lia. rewrite mbit_wo by lia. auto.
      - rewrite app_nth2 by (rewrite bs_length; auto). rewrite nth_repeat. apply tb_word_high; auto. lia. }
    assert (ES2 : bits_of_N 64 (shr (nth d m 0%N) read) = bs m (64 * d + read) (q - (64 * d + read)) ++ (bs m q (64 * d + 64 - q) ++ repeat false read)).
    { rewrite EB2, app_assoc. f_equal. replace (64 - read) with ((q - (64 * d + read)) + (64 * d + 64 - q)) by lia. rewrite bs_app. f_equal. f_equal. lia. }
    pose proof (sel11_correct (shr (nth d m 0%N) read) (length xs) false) as SE. cbn [b2n] in SE. rewrite SE; clear SE.
    + cbn [obind]. rewrite ES2, Nat2N.id, codes_end by auto. f_equal. lia.
    + apply is_word_tb. intros. rewrite tb_shr. apply tb_word_high; auto. lia.
    + rewrite ends_len, ES2. rewrite (codes_greedy _ _ _ _ _ K). cbn [fst]. lia.
Qed.
