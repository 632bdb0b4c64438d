(** * Proofs about CoderFib.v: prefix sums, whole vectors and sequences. *)
From Coq Require Import NArith List Bool Arith Lia.
From Verif Require Import Base Tables Bits SpecBits BitsProofs BitsProofs2 BitsProofs3 BitsProofs4 BitsMem IntVector AbsVec WtBase WtProofs Coder CoderProofs CoderProofs3 CoderProofs4 SpecCoder SpecFib CoderFib CoderFibProofs CoderFibProofs2 CoderFibProofs3 CoderFibProofs4.
Import ListNotations.

Lemma cw2 : forall c, cw c -> length c = 2 -> c = [true; true].
Proof.
  intros c C L. inversion C; subst; cbn [length] in *; auto; exfalso.
  - pose proof (cw_len _ H). lia.
  - inversion H; subst. pose proof (cw_len _ H1). lia.
Qed.
Lemma cw3 : forall c, cw c -> length c = 3 -> c = [false; true; true].
Proof.
  intros c C L. inversion C; subst; cbn [length] in *; try lia.
  - f_equal. apply cw2; auto.
  - exfalso. inversion H; subst. pose proof (cw_len _ H1). lia.
Qed.
Lemma codes_2n : forall xs m P q, codes fcode m P xs q -> P + 2 * length xs <= q /\ (q = P + 2 * length xs -> sum_list xs = N.of_nat (length xs)) /\
  (q = P + 2 * length xs + 1 -> sum_list xs = N.of_nat (length xs + 1)).
Proof.
  induction xs as [|x t IH]; intros m P q K; simpl in K.
  - subst. cbn [length sum_list fold_right]. repeat split; lia.
  - destruct K as [s [[c [C1 [C2 [C3 [C4 C5]]]]] K]]. destruct (IH _ _ _ K) as [I1 [I2 I3]]. pose proof (cw_len _ C1). cbn [length]. rewrite sum_cons.
    split; [lia|]. split; intro E.
    + assert (length c = 2) by lia. rewrite (cw2 c C1 H0) in C5. change (fv 0 (removelast [true; true]) mod W64)%N with 1%N in C5. rewrite I2 by lia. lia.
    + assert (length c = 2 \/ length c = 3) as [Q|Q] by lia.
      * rewrite (cw2 c C1 Q) in C5. change (fv 0 (removelast [true; true]) mod W64)%N with 1%N in C5. rewrite I3 by lia. lia.
      * rewrite (cw3 c C1 Q) in C5. change (fv 0 (removelast [false; true; true]) mod W64)%N with 2%N in C5. rewrite I2 by lia. lia.
Qed.
Lemma fib_prefix_sum_ok : forall m start xs q, words_ok m -> codes fcode m start xs q -> q <= 64 * length m -> (N.of_nat (q - start) < 2 ^ 31)%N ->
  fib_prefix_sum m start (length xs) = Some (sum_list xs mod W64)%N.
Proof.
  intros m start xs q Hm K Hq Hs. unfold fib_prefix_sum. destruct xs as [|x t] eqn:EX. { reflexivity. }
  rewrite <- EX in *. assert (NE : xs <> []) by (subst; discriminate). clear EX.
  replace (length xs =? 0) with false by (destruct xs; [contradiction|reflexivity]).
  rewrite (fp_bits_ok m start xs q) by auto. cbn [obind]. destruct (N.ltb_spec (N.of_nat (q - start)) (2 ^ 31)); [|lia]. cbn [obind].
  destruct (codes_2n _ _ _ _ K) as [A [B C]].
  assert (SM : forall n, n <= q - start + 1 -> (N.of_nat n mod W64 = N.of_nat n)%N).
  { intros. apply N.mod_small. change W64 with (2 ^ 64)%N. change (2 ^ 31)%N with 2147483648%N in *. change (2 ^ 64)%N with 18446744073709551616%N. lia. }
  destruct (Nat.eqb_spec (q - start) (2 * length xs)). { rewrite B by lia. rewrite SM by lia. auto. }
  destruct (Nat.eqb_spec (q - start) (2 * length xs + 1)). { rewrite C by lia. rewrite SM by lia. auto. }
  change 0%N with (field m start 0) at 1. change (fp_loop (64 * length m + 1) m (start / 64) (start mod 64) 0 (q - start) (field m start 0) 0 0) with
    (fp_loop (64 * length m + 1) m (start / 64) (start mod 64) 0 (q - start) (field m start 0) (0 mod W64) 0).
  assert (LX : 0 < length xs) by (destruct xs; [contradiction|cbn; lia]).
  rewrite (fp_loop_ok _ m _ _ _ _ start q 0 0 xs (sum_list xs)); auto; try (clear - A LX Hq; lia).
  left. auto.
Qed.
(** ** counting the codewords of a whole vector *)
Definition cstep (nc : N * N) (x : N) : N * N := let '(n, c) := cnt11c x (snd nc) in ((fst nc + n)%N, c).
Lemma fold_cnt : forall k m, words_ok m -> k <= length m -> forall i c, greedy11 false (bs m 0 (64 * k)) = (i, c) ->
  fold_left cstep (firstn k m) (0%N, 0%N) = (N.of_nat i, b2n c).
Proof.
  induction k; intros m Hm L i c G. { injection G as <- <-. reflexivity. }
  assert (E : firstn (S k) m = firstn k m ++ [nth k m 0%N]).
  { clear - L. revert m L. induction k; intros [|a m] L; cbn [length] in L; try lia; auto. cbn [firstn app nth]. f_equal. apply IHk. lia. }
  replace (64 * S k) with (64 * k + 64) in G by lia. rewrite bs_app, greedy11_app, Nat.add_0_l in G.
  destruct (greedy11 false (bs m 0 (64 * k))) as [i0 c0] eqn:G0. cbn [fst snd] in G.
  rewrite E, fold_left_app, (IHk m Hm ltac:(lia) i0 c0 G0). cbn [fold_left]. unfold cstep. cbn [fst snd]. rewrite cnt11c_word by (auto; lia).
  destruct (greedy11 c0 (bs m (64 * k) 64)) as [i1 c1]. cbn [fst snd] in *. injection G as <- <-. f_equal. lia.
Qed.
Lemma greedy_false : forall n c, greedy11 c (repeat false n) = (0, match n with 0 => c | _ => false end).
Proof. induction n; intros; auto. cbn [repeat greedy11]. rewrite IHn. destruct n; auto. Qed.
Lemma fib_decode_ok : forall width m xs bits, words_ok m -> codes fcode m 0 xs bits -> bits <= 64 * length m -> Forall is_word xs ->
  fib_decode width m bits = Some (map (fun x => (x mod 2 ^ N.of_nat width)%N) xs).
Proof.
  intros width m xs bits Hm K Hb Hx. unfold fib_decode. destruct (Nat.eqb_spec bits 0).
  { subst. destruct xs; auto. apply f_le in K. simpl in K. lia. }
  remember ((bits + 63) / 64 - 1) as k eqn:Ek. assert (BK : 64 * k < bits <= 64 * k + 64) by lia.
  replace (k <=? length m) with true by lia. cbn [obind]. destruct (greedy11 false (bs m 0 (64 * k))) as [i0 c0] eqn:G0.
  fold cstep. rewrite (fold_cnt k m Hm ltac:(lia) i0 c0 G0). rewrite ld_some by lia. cbn [obind].
  set (y := if negb (bits mod 64 =? 0) then N.land (nth k m 0%N) (lo_set (bits mod 64)) else nth k m 0%N).
  assert (BY : bits_of_N 64 y = bs m (64 * k) (bits - 64 * k) ++ repeat false (64 * k + 64 - bits)).
  { apply list_nth_ext with (d := false). { rewrite bits_of_N_length, app_length, bs_length, repeat_length. lia. }
    intros j Hj. rewrite bits_of_N_length in Hj. rewrite nth_bits_of_N. replace (j <? 64) with true by lia. cbn [andb].
    assert (Y : tb y j = (j <? bits - 64 * k) && mbit m (64 * k + j)).
    { rewrite mbit_wo by auto. unfold y. destruct (Nat.eqb_spec (bits mod 64) 0); cbn [negb].
      - replace (j <? bits - 64 * k) with true by lia. auto.
      - rewrite tb_land, tb_lo_set. replace (bits mod 64) with (bits - 64 * k) by lia. apply andb_comm. }
    rewrite Y. destruct (Nat.ltb_spec j (bits - 64 * k)); cbn [andb].
    - rewrite app_nth1 by (rewrite bs_length; auto). rewrite nth_bs. replace (j <? bits - 64 * k) with true by lia. auto.
    - rewrite app_nth2 by (rewrite bs_length; auto). rewrite bs_length. symmetry. apply nth_repeat. }
  assert (WN : is_word (nth k m 0%N)) by (apply Forall_nth; auto; lia).
  assert (WY : is_word y). { unfold y. destruct (negb _); auto. apply is_word_tb. intros. rewrite tb_land, tb_word_high; auto. }
  rewrite cnt11c_correct by auto. cbv zeta. rewrite BY. cbn [fst].
  pose proof (codes_greedy xs m 0 bits (repeat false (64 * k + 64 - bits)) K) as G. rewrite greedy_false in G.
  replace (bits - 0) with (64 * k + (bits - 64 * k)) in G by lia. rewrite bs_app, <- app_assoc, greedy11_app, Nat.add_0_l, G0 in G. cbn [fst snd] in G. apply (f_equal fst) in G. cbn [fst] in G.
  rewrite <- Nat2N.inj_add, G, Nat.add_0_r, Nat2N.id. rewrite (fib_decode_n_ok false m 0 xs bits) by auto. auto.
Qed.
Lemma fib_roundtrip : forall g width xs, 1 <= width <= 64 -> Forall (fun x => (x < 2 ^ N.of_nat width)%N) xs ->
  Forall (fun x => fib_encodable (cd_zero width x)) xs -> (forall i, is_word (g i)) ->
  exists m bits, fib_encode g width xs = Some (m, bits) /\ length m = bits / 64 + 1 /\ fib_decode width m bits = Some xs.
Proof.
  intros g width xs Hw Hx He Hg. unfold fib_encode.
  remember (cd_bits fib_len width xs) as bits eqn:EB. remember (map g (seq 0 (bits / 64 + 1))) as m0 eqn:Em0.
  assert (L0 : length m0 = bits / 64 + 1) by (subst m0; rewrite map_length, seq_length; auto).
  assert (W0 : words_ok m0). { subst m0. apply Forall_forall. intros y Hy. apply in_map_iff in Hy. destruct Hy as [i [<- _]]. auto. }
  assert (exists m1, (if negb (bits mod 64 =? 0) then st m0 (bits / 64) 0%N else Some m0) = Some m1 /\ length m1 = length m0 /\ words_ok m1) as [m1 [R1 [L1 W1]]].
  { destruct (negb (bits mod 64 =? 0)).
    - rewrite st_some by lia. eexists. split; [reflexivity|]. split; [apply upd_length|]. apply words_ok_upd; auto with word.
    - exists m0. auto. }
  assert (ZW : Forall is_word (map (cd_zero width) xs)).
  { apply Forall_map. eapply Forall_impl; [|exact Hx]. intros a Ha. apply cd_zero_word; auto. }
  assert (ZE : Forall fib_encodable (map (cd_zero width) xs)) by (apply Forall_map; auto).
  assert (LB : list_sum (map fib_len (map (cd_zero width) xs)) = bits).
  { subst bits. unfold cd_bits. rewrite map_map. auto. }
  destruct (f_enc_all (map (cd_zero width) xs) m1 0 0 W1 ltac:(lia) ZW ZE) as [m2 [w2 [o2 [R2 [L2 [W2 [P2 [O2 [F2 K2]]]]]]]]].
  { rewrite LB. lia. }
  rewrite LB in *. exists m2, bits. unfold cd_encode. rewrite <- EB, <- Em0, R1. cbn [obind]. rewrite R2. cbn [obind].
  split; auto. split; [lia|]. simpl in K2. rewrite (fib_decode_ok width m2 _ bits W2 K2) by (auto; lia).
  f_equal. rewrite map_map. rewrite <- (map_id xs) at 2. apply map_ext_in. intros a Ha.
  rewrite Forall_forall in Hx. apply cd_zero_word; auto.
Qed.
(** ** sequences *)
Lemma enc_all_app : forall enc1 xs m w off ys, enc_all enc1 m w off (xs ++ ys) = (let* (m, w, off) := enc_all enc1 m w off xs in enc_all enc1 m w off ys).
Proof.
  induction xs as [|x t IH]; intros; auto. cbn [app enc_all]. destruct (enc1 m w off x) as [[[m1 w1] o1]|]; auto. cbn [obind]. apply IH.
Qed.
Lemma f_keep : forall xs m m' p q, codes fcode m p xs q -> (forall k, p <= k < q -> mbit m k = mbit m' k) -> codes fcode m' p xs q.
Proof.
  induction xs as [|x t IH]; intros m m' p q K E; simpl in *; auto. destruct K as [s [C K]]. pose proof (f_CP _ _ _ _ C). pose proof (f_le _ _ _ _ K).
  exists s. split.
  - replace s with (p + (s - p)) by lia. apply f_CL with (m := m); auto. intros. apply E. lia.
  - apply IH with (m := m); auto. intros. apply E. lia.
Qed.
Lemma fib_seq : forall xs ys zs m w off, words_ok m -> off < 64 -> Forall is_word (xs ++ ys ++ zs) -> Forall fib_encodable (xs ++ ys ++ zs) ->
  64 * w + off + list_sum (map fib_len (xs ++ ys ++ zs)) <= 64 * length m ->
  let start := 64 * w + off + list_sum (map fib_len xs) in
  let stop := start + list_sum (map fib_len ys) in
  let endp := 64 * w + off + list_sum (map fib_len (xs ++ ys ++ zs)) in
  exists m' w' off', enc_all fib_enc1 m w off (xs ++ ys ++ zs) = Some (m', w', off') /\
    64 * w' + off' = endp /\ off' < 64 /\ length m' = length m /\ words_ok m' /\
    same_outside (64 * w + off) endp (mbit m') (mbit m) /\
    fib_decode_n false m' start (length ys) = Some ys /\
    fib_decode_n true m' start (length ys) = Some (running_sums ys) /\
    ((N.of_nat (stop - start) < 2 ^ 31)%N -> fib_prefix_sum m' start (length ys) = Some (sum_list ys mod 2 ^ 64)%N).
Proof.
  intros xs ys zs m w off Hm Ho Hw He L start stop endp.
  apply Forall_app in Hw. destruct Hw as [Hwx Hw]. apply Forall_app in Hw. destruct Hw as [Hwy Hwz].
  apply Forall_app in He. destruct He as [Hex He]. apply Forall_app in He. destruct He as [Hey Hez].
  rewrite !map_app, !list_sum_app in L.
  destruct (f_enc_all xs m w off Hm Ho Hwx Hex ltac:(lia)) as [m1 [w1 [o1 [R1 [L1 [W1 [P1 [O1 [F1 K1]]]]]]]]].
  destruct (f_enc_all ys m1 w1 o1 W1 O1 Hwy Hey ltac:(lia)) as [m2 [w2 [o2 [R2 [L2 [W2 [P2 [O2 [F2 K2]]]]]]]]].
  destruct (f_enc_all zs m2 w2 o2 W2 O2 Hwz Hez ltac:(lia)) as [m3 [w3 [o3 [R3 [L3 [W3 [P3 [O3 [F3 K3]]]]]]]]].
  exists m3, w3, o3. rewrite enc_all_app, R1. cbn [obind]. rewrite enc_all_app, R2. cbn [obind]. split; auto.
  assert (EE : endp = start + list_sum (map fib_len ys) + list_sum (map fib_len zs)). { unfold endp, start. rewrite !map_app, !list_sum_app. lia. }
  assert (EL : endp <= 64 * length m). { rewrite EE. unfold start. lia. }
  unfold stop. clearbody endp. fold start in P1, F1. rewrite P1 in *. rewrite P2 in *.
  assert (S0 : 64 * w + off <= start) by (unfold start; lia). clearbody start. clear stop.
  assert (KY : codes fcode m3 start ys (start + list_sum (map fib_len ys))).
  { apply f_keep with (m := m2); auto. intros. symmetry. apply F3. lia. }
  split; [lia|]. split; auto. split; [lia|]. split; auto. split.
  { intros k Hk. rewrite F3, F2 by lia. apply F1. lia. }
  split; [|split].
  - rewrite (fib_decode_n_ok false m3 start ys _ W3 KY) by (auto; lia). auto.
  - rewrite (fib_decode_n_ok true m3 start ys _ W3 KY) by (auto; lia). rewrite wpsums_0. auto.
  - intro S. apply (fib_prefix_sum_ok m3 start ys _ W3 KY); auto. lia.
Qed.
Lemma fib_len_spec : forall x, is_word x -> is_fib_len x (fib_len x).
Proof.
  intros x Hx. destruct (fib_len_ok x Hx) as [l [A [B C]]]. exists l. unfold fib_len. rewrite A. split; auto. replace (l + 1) with (S l) by lia. auto.
Qed.
(** everything below fib 65 = 44945570212853 except that the code of 0 needs the value 2^64 *)
Lemma fib_small_encodable : forall x, (0 < x < fib 65)%N -> fib_encodable x.
Proof.
  intros x [A B]. unfold fib_encodable, fib_value, fib_rest. destruct (N.eqb_spec x 0); [lia|].
  assert (G : forall l, Forall (fun j => 65 <= j) l -> fold_left (fun r j => if (fib j <=? r)%N then (r - fib j)%N else r) l x = x).
  { induction 1 as [|j l Hj Hl IH]; auto. cbn [fold_left]. destruct (N.leb_spec (fib j) x); auto. exfalso.
    pose proof (fib_mono 65 j Hj). lia. }
  rewrite G; [lia|]. apply Forall_rev. apply Forall_forall. intros j Hj. apply in_seq in Hj. lia.
Qed.
