(** * Proofs about int_vector: serialisation, width changes, counting, scanning (C06, C09, C11) *)
From Coq Require Import NArith ZArith List Bool Arith Lia.
From Verif Require Import Base Bits SpecBits RankSelect BitsProofs BitsProofs2 BitsProofs4 BitsMem
  IntVector SpecIntVector IntVectorProofs IntVectorProofs2.
Import ListNotations.

(** ** serialisation *)
Lemma le_bytes_length : forall n x, length (le_bytes n x) = n.
Proof. induction n; intros; cbn [le_bytes length]; auto. Qed.
Lemma le_val_bytes : forall n x, le_val (le_bytes n x) = (x mod 256 ^ N.of_nat n)%N.
Proof.
  induction n; intros; cbn [le_bytes le_val].
  - change (256 ^ N.of_nat 0)%N with 1%N. rewrite N.mod_1_r. auto.
  - rewrite IHn. replace (N.of_nat (S n)) with (N.succ (N.of_nat n)) by lia. rewrite N.pow_succ_r'.
    assert (256 ^ N.of_nat n <> 0)%N by (apply N.pow_nonzero; discriminate).
    rewrite N.mod_mul_r by (auto; discriminate). auto.
Qed.
Lemma le_val_word : forall x, is_word x -> le_val (le_bytes 8 x) = x.
Proof. intros. rewrite le_val_bytes. apply N.mod_small. exact H. Qed.
Lemma take_bytes_app : forall n a b, length a = n -> take_bytes n (a ++ b) = Some (a, b).
Proof.
  intros n a b H. unfold take_bytes. rewrite app_length. replace (n <=? length a + length b) with true by lia.
  subst n. rewrite firstn_app, Nat.sub_diag, firstn_all, skipn_app, skipn_all, Nat.sub_diag. cbn [firstn skipn app].
  rewrite app_nil_r. auto.
Qed.

Definition wbytes (ws : list N) : list N := flat_map (le_bytes 8) ws.
Lemma words_bytes_ok : forall k m p, p + k <= length m -> words_bytes m p k = Some (wbytes (firstn k (skipn p m))).
Proof.
  induction k; intros m p H; cbn [words_bytes]; auto.
  rewrite ld_some by lia. cbn [obind]. rewrite IHk by lia. cbn [obind].
  rewrite (skipn_S_nth _ m p 0%N) by lia. cbn [firstn wbytes flat_map]. auto.
Qed.
Lemma wbytes_app : forall a b, wbytes (a ++ b) = wbytes a ++ wbytes b.
Proof. intros. unfold wbytes. apply flat_map_app. Qed.
Lemma wbytes_length : forall ws, length (wbytes ws) = 8 * length ws.
Proof. induction ws; cbn [wbytes flat_map length]; auto. unfold wbytes in IHws. rewrite app_length, IHws, le_bytes_length. lia. Qed.

Lemma firstn_add : forall A (l : list A) a b, firstn (a + b) l = firstn a l ++ firstn b (skipn a l).
Proof. induction l; intros [|a'] b; cbn; auto. - destruct b; auto. - f_equal. apply IHl. Qed.
Lemma skipn_add : forall A (l : list A) a b, skipn (a + b) l = skipn b (skipn a l).
Proof. induction l; intros [|a'] b; cbn; auto. destruct b; auto. Qed.

Lemma write_data_loop_ok : forall B fuel m words idx written, 0 < B -> idx <= words -> words <= length m -> words - idx < fuel ->
  write_data_loop B fuel m words idx written = Some (wbytes (firstn (words - idx) (skipn idx m)), written + (words - idx) * 8).
Proof.
  intros B. induction fuel; intros m words idx written HB H1 H2 HF; [lia|]. cbn [write_data_loop].
  destruct (Nat.ltb_spec (idx + B) words).
  - rewrite words_bytes_ok by lia. cbn [obind]. rewrite IHfuel by lia. cbn [obind].
    f_equal. f_equal; [|lia]. rewrite <- wbytes_app. f_equal. rewrite (skipn_add _ m idx B).
    rewrite <- firstn_add. f_equal. lia.
  - rewrite words_bytes_ok by lia. cbn [obind]. auto.
Qed.

(** reading back *)
Lemma read_words_ok : forall ws m p s, p + length ws <= length m -> Forall is_word ws ->
  read_words m p (length ws) (wbytes ws ++ s) = Some (firstn p m ++ ws ++ skipn (p + length ws) m, s).
Proof.
  induction ws as [|w ws IH]; intros m p s H W; cbn [read_words length] in *.
  - rewrite Nat.add_0_r. cbn [wbytes flat_map app]. rewrite firstn_skipn. auto.
  - cbn [wbytes flat_map]. rewrite <- app_assoc. rewrite take_bytes_app by apply le_bytes_length. cbn [obind].
    inversion W; subst. rewrite le_val_word by auto. rewrite st_some by lia. cbn [obind].
    fold (wbytes ws). rewrite IH by (auto; rewrite upd_length; lia). f_equal. f_equal.
    assert (U : upd m p w = firstn p m ++ w :: skipn (S p) m).
    { rewrite <- (firstn_skipn p m) at 1. rewrite upd_app_r by (rewrite firstn_length; lia).
      rewrite firstn_length. replace (p - Nat.min p (length m)) with 0 by lia.
      rewrite (skipn_S_nth _ m p 0%N) by lia. reflexivity. }
    rewrite U.
    assert (LF : length (firstn p m) = p) by (rewrite firstn_length; lia).
    rewrite firstn_app, LF. rewrite (firstn_all2 (n := S p)) by lia. replace (S p - p) with 1 by lia. cbn [firstn].
    rewrite skipn_app, LF. rewrite skipn_all2 by lia. cbn [app].
    replace (S p + length ws - p) with (S (length ws)) by lia.
    change (skipn (S (length ws)) (w :: skipn (S p) m)) with (skipn (length ws) (skipn (S p) m)).
    rewrite <- skipn_add. rewrite <- app_assoc. cbn [app]. replace (p + S (length ws)) with (S p + length ws) by lia. auto.
Qed.

Lemma load_loop_ok : forall B fuel ws m idx s, 0 < B -> idx + length ws <= length m -> Forall is_word ws -> length ws < fuel ->
  load_loop B fuel m (idx + length ws) idx (wbytes ws ++ s) = Some (firstn idx m ++ ws ++ skipn (idx + length ws) m, s).
Proof.
  intros B. induction fuel; intros ws m idx s HB H W HF; [lia|]. cbn [load_loop].
  destruct (Nat.ltb_spec (idx + B) (idx + length ws)).
  - assert (WB : wbytes ws = wbytes (firstn B ws) ++ wbytes (skipn B ws)) by (rewrite <- wbytes_app, firstn_skipn; auto).
    rewrite WB, <- app_assoc.
    assert (LB : length (firstn B ws) = B) by (rewrite firstn_length; lia).
    assert (W1 : Forall is_word (firstn B ws) /\ Forall is_word (skipn B ws)).
    { rewrite <- (firstn_skipn B ws) in W. apply Forall_app in W. auto. } destruct W1 as [W1 W2].
    rewrite <- LB at 1. rewrite read_words_ok by (auto; lia). cbn [obind].
    assert (LS : length (skipn B ws) = length ws - B) by apply skipn_length.
    replace (idx + length ws) with (idx + B + length (skipn B ws)) by lia.
    rewrite LB.
    assert (LF : length (firstn idx m ++ firstn B ws) = idx + B) by (rewrite app_length, firstn_length; lia).
    rewrite IHfuel; auto; try lia.
    2: { rewrite !app_length, LB, !skipn_length, firstn_length. lia. }
    f_equal. f_equal. rewrite (app_assoc (firstn idx m)). rewrite firstn_app, LF, Nat.sub_diag. cbn [firstn]. rewrite app_nil_r.
    rewrite firstn_all2 by lia. rewrite <- app_assoc. f_equal.
    rewrite skipn_app. rewrite LF. rewrite (skipn_all2 (firstn idx m ++ firstn B ws)) by lia. cbn [app].
    rewrite <- skipn_add. rewrite app_assoc, firstn_skipn. f_equal. f_equal. lia.
  - replace (idx + length ws - idx) with (length ws) by lia. apply read_words_ok; auto.
Qed.


Lemma serialize_load : forall B B' g tw far tw' v t rest, 0 < B -> 0 < B' -> fresh_ok g -> iv_ok v -> width_ok tw (iv_width v) ->
  (N.of_nat (iv_size v) < W64)%N ->
  words_ok (iv_data t) -> iv_size t <= 64 * length (iv_data t) -> width_ok tw' (iv_width t) ->
  (far = false /\ tw' = tw \/ far = true /\ tw' = 0) ->
  exists bytes n v', iv_serialize B tw v far = Some (bytes, n) /\ n = length bytes /\
    iv_load B' g tw' t (bytes ++ rest) = Some (v', rest) /\ iv_ok v' /\ iv_size v' = iv_size v /\ iv_width v' = iv_width v /\
    iv_bits v' = iv_bits v.
Proof.
  intros B B' g tw far tw' v t rest HB HB' G O WV SV At Ct WT T. pose proof O as [A [Bw C]].
  set (words := (iv_size v + 63) / 64).
  set (ws := firstn words (iv_data v)).
  assert (Lws : length ws = words) by (unfold ws; rewrite firstn_length; unfold words; lia).
  assert (Wws : Forall is_word ws).
  { unfold words_ok in A. rewrite <- (firstn_skipn words (iv_data v)) in A. apply Forall_app in A. apply A. }
  assert (WD : iv_write_data B v = Some (wbytes ws, words * 8)).
  { unfold iv_write_data. rewrite cap_div. fold words. rewrite write_data_loop_ok; try lia.
    cbn [skipn Nat.add]. rewrite Nat.sub_0_r. auto. }
  (* the header *)
  assert (HD : exists h hn, (if (0 <? tw) && far then write_header 0 (iv_size v) tw else write_header tw (iv_size v) (iv_width v)) = (h, hn)
     /\ hn = length h /\ forall s, read_header tw' (iv_width t) (h ++ s) = Some (iv_size v, iv_width v, s)).
  { assert (H8 : forall s : list N, take_bytes 8 (le_bytes 8 (N.of_nat (iv_size v)) ++ s) = Some (le_bytes 8 (N.of_nat (iv_size v)), s)).
    { intros. apply take_bytes_app. apply le_bytes_length. }
    assert (V8 : N.to_nat (le_val (le_bytes 8 (N.of_nat (iv_size v)))) = iv_size v).
    { rewrite le_val_word by exact SV. lia. }
    assert (VAR : exists h hn, write_header 0 (iv_size v) (iv_width v) = (h, hn) /\ hn = length h /\
              forall s, read_header 0 (iv_width t) (h ++ s) = Some (iv_size v, iv_width v, s)).
    { unfold write_header. cbn [Nat.eqb]. eexists. eexists. split; [reflexivity|]. split.
      - rewrite app_length, !le_bytes_length. auto.
      - intros s. unfold read_header. rewrite <- app_assoc, H8. cbn [obind Nat.eqb].
        rewrite take_bytes_app by apply le_bytes_length. cbn [obind]. rewrite V8. rewrite le_val_bytes.
        change (256 ^ N.of_nat 1)%N with 256%N. rewrite N.mod_small by lia. rewrite Nat2N.id. auto. }
    destruct T as [[-> ->]|[-> ->]].
    - rewrite andb_false_r. destruct (Nat.eq_dec tw 0) as [->|NZ]; [exact VAR|].
      unfold write_header. replace (tw =? 0) with false by lia. eexists. eexists. split; [reflexivity|]. split.
      + rewrite le_bytes_length. auto.
      + intros s. unfold read_header. rewrite H8. cbn [obind]. replace (tw =? 0) with false by lia. rewrite V8.
        destruct WV, WT; try lia. congruence.
    - destruct (Nat.eq_dec tw 0) as [->|NZ]; [exact VAR|]. replace (0 <? tw) with true by lia. cbn [andb].
      destruct WV as [|WV]; [lia|]. rewrite <- WV. exact VAR. }
  destruct HD as [h [hn [HD1 [HD2 HD3]]]].
  unfold iv_serialize. rewrite HD1, WD. cbn [obind].
  exists (h ++ wbytes ws), (hn + words * 8).
  unfold iv_load. rewrite <- app_assoc, HD3. cbn [obind].
  destruct (bit_resize_bits g (mkiv (iv_size t) (iv_data t) (iv_width v)) (iv_size v) G At Ct) as [r [R [S [W [K [L [_ _]]]]]]].
  rewrite R. cbn [obind]. cbn [iv_width] in W. rewrite cap_div, S. fold words.
  pose proof (load_loop_ok B' (Datatypes.S words) ws (iv_data r) 0 rest HB' ltac:(rewrite Lws; unfold words; lia) Wws ltac:(lia)) as LL.
  cbn [Nat.add firstn app] in LL. rewrite Lws in LL. rewrite LL. cbn [obind].
  eexists. split; [reflexivity|]. split. { rewrite app_length, wbytes_length. lia. }
  split; [reflexivity|]. cbn [iv_size iv_data iv_width].
  assert (NW : forall i, i < words -> nth i (ws ++ skipn words (iv_data r)) 0%N = nth i (iv_data v) 0%N).
  { intros i Hi. rewrite app_nth1 by lia. unfold ws. rewrite <- (firstn_skipn words (iv_data v)) at 2. rewrite app_nth1; auto. fold ws. lia. }
  split.
  { split; cbn [iv_data iv_size iv_width]; [|split; [lia|rewrite app_length, skipn_length; unfold words in *; lia]].
    unfold words_ok. apply Forall_app. split; auto. unfold words_ok in K. rewrite <- (firstn_skipn words (iv_data r)) in K.
    apply Forall_app in K. apply K. }
  split; auto. split; auto. unfold iv_bits. cbn [iv_data iv_size]. apply map_ext_in. intros p Hp. apply in_seq in Hp.
  unfold mbit. rewrite NW; auto. unfold words. lia.
Qed.

(** ** bit_compress *)
Lemma max_loop_ok : forall v, iv_ok v -> forall todo i mx, i + todo = iv_len v ->
  exists r, max_loop v i todo mx = Some r /\ (mx <= r)%N /\ (forall j, i <= j < iv_len v -> (nth j (elems v) 0 <= r)%N) /\
    (r = mx \/ exists j, i <= j < iv_len v /\ r = nth j (elems v) 0%N).
Proof.
  intros v O. induction todo; intros i mx E; cbn [max_loop].
  - exists mx. split; auto. split; [lia|]. split; auto. intros. lia.
  - rewrite iv_get_elems by (auto; lia). cbn [obind]. set (x := nth i (elems v) 0%N).
    set (mx' := if (mx <? x)%N then x else mx). assert (M : (mx <= mx')%N /\ (x <= mx')%N /\ (mx' = mx \/ mx' = x)).
    { unfold mx'. destruct (N.ltb_spec mx x); lia. }
    destruct (IHtodo (S i) mx' ltac:(lia)) as [r [R [R1 [R2 R3]]]]. exists r. split; auto. split; [lia|]. split.
    + intros j Hj. destruct (Nat.eq_dec j i); [subst; lia|]. apply R2. lia.
    + destruct R3 as [R3|[j [J1 J2]]].
      * destruct M as [_ [_ [M|M]]]; [left; lia|]. right. exists i. split; [lia|]. exact (eq_trans R3 M).
      * right. exists j. split; [lia|auto].
Qed.

Lemma compress_loop_ok : forall n ow nw m0, 1 <= nw <= ow -> ow <= 64 -> n * ow <= 64 * length m0 ->
  (forall j, j < n -> (field m0 (j * ow) ow < 2 ^ N.of_nat nw)%N) ->
  forall todo i m rw ro ww wo, i + todo = n -> 64 * rw + ro = i * ow -> ro < 64 -> 64 * ww + wo = i * nw -> wo < 64 ->
  words_ok m -> length m = length m0 -> (forall p, i * nw <= p -> mbit m p = mbit m0 p) ->
  (forall j, j < i -> field m (j * nw) nw = field m0 (j * ow) ow) ->
  exists m', compress_loop todo m rw ro ww wo ow nw = Some m' /\ words_ok m' /\ length m' = length m0 /\
    forall j, j < n -> field m' (j * nw) nw = field m0 (j * ow) ow.
Proof.
  intros n ow nw m0 H1 H2 H3 HV. induction todo; intros i m rw ro ww wo E R1 R2 W1 W2 M L P F.
  - exists m. cbn. repeat split; auto. intros. apply F. lia.
  - cbn [compress_loop].
    assert (Bi : i * ow + ow <= n * ow) by nia. assert (Bn : i * nw <= i * ow) by nia. assert (Bn2 : i * nw + nw <= i * ow + ow) by nia.
    destruct (read_int_and_move_correct m rw ro ow M) as [rw' [ro' [RR [RP RO]]]]. { unfold fits. lia. }
    rewrite RR. cbn [obind].
    destruct (write_int_and_move_correct m ww (field m (64 * rw + ro) ow) wo nw M) as [m1 [ww' [wo' [WW [WS [WP WO]]]]]]. { unfold fits. lia. }
    rewrite WW. cbn [obind].
    assert (Fi : field m (64 * rw + ro) ow = field m0 (i * ow) ow).
    { rewrite R1. apply field_ext. intros. apply P. lia. }
    pose proof WS as [WL [WM WB]].
    apply (IHtodo (S i)); auto; try lia.
    + intros p Hp. rewrite WB. rewrite W1. replace (p <? i * nw + nw) with false by lia. rewrite andb_false_r. apply P. lia.
    + intros j Hj. destruct (Nat.eq_dec j i) as [->|Nj].
      * rewrite <- W1. rewrite (mem_set_read_same _ _ _ _ _ WS). rewrite Fi. apply N.mod_small. apply HV. lia.
      * rewrite (mem_set_read_other _ _ _ _ _ _ _ WS). apply F; lia. left. rewrite W1. nia.
Qed.

Lemma bit_compress_ok : forall g v, fresh_ok g -> iv_ok v -> exists v', iv_bit_compress g 0 v = Some v' /\ iv_ok v' /\
  iv_len v' = iv_len v /\ elems v' = elems v /\
  (forall x, In x (elems v) -> (x < 2 ^ N.of_nat (iv_width v'))%N) /\
  (forall w, 1 <= w -> (forall x, In x (elems v) -> (x < 2 ^ N.of_nat w)%N) -> iv_width v' <= w).
Proof.
  intros g v G O. pose proof O as [A [B C]]. unfold iv_bit_compress.
  destruct (max_loop_ok v O (iv_len v) 0 0 ltac:(lia)) as [mx [R [R1 [R2 R3]]]]. rewrite R. cbn [obind].
  assert (MXW : (mx < 2 ^ N.of_nat (iv_width v))%N).
  { destruct R3 as [->|[j [J1 ->]]]; [apply N.neq_0_lt_0, N.pow_nonzero; lia|]. apply elems_lt. lia. }
  assert (MW : is_word mx).
  { unfold is_word. eapply N.lt_le_trans; [exact MXW|]. rewrite W64_pow. apply N.pow_le_mono_r; lia. }
  rewrite hi_correct by auto. set (nw := N.to_nat (N.log2 mx) + 1).
  assert (NW1 : (mx < 2 ^ N.of_nat nw)%N).
  { destruct (N.eq_dec mx 0) as [->|NZ]; [reflexivity|]. pose proof (N.log2_spec mx ltac:(lia)) as [_ H].
    eapply N.lt_le_trans; [exact H|]. apply N.pow_le_mono_r; lia. }
  assert (NW2 : forall w, 1 <= w -> (mx < 2 ^ N.of_nat w)%N -> nw <= w).
  { intros w Hw H. destruct (N.eq_dec mx 0) as [->|NZ]; [unfold nw; cbn; lia|].
    apply N.log2_lt_pow2 in H; [|lia]. unfold nw. lia. }
  assert (ALL : forall x, In x (elems v) -> (x <= mx)%N).
  { intros x Hx. destruct (In_nth _ _ 0%N Hx) as [i [Hi Ei]]. rewrite elems_length in Hi. rewrite <- Ei. apply R2. lia. }
  assert (LEAST : forall w, 1 <= w -> (forall x, In x (elems v) -> (x < 2 ^ N.of_nat w)%N) -> nw <= w).
  { intros w Hw H. apply NW2; auto. destruct R3 as [->|[j [J1 ->]]]; [apply N.neq_0_lt_0, N.pow_nonzero; lia|].
    apply H. apply nth_In. rewrite elems_length. lia. }
  assert (NWO : nw <= iv_width v) by (apply NW2; auto; lia).
  destruct (Nat.ltb_spec nw (iv_width v)) as [Lt|Ge].
  - assert (BD : iv_len v * iv_width v <= iv_size v).
    { unfold iv_len. rewrite Nat.mul_comm. apply Nat.mul_div_le. lia. }
    destruct (compress_loop_ok (iv_len v) (iv_width v) nw (iv_data v)) with (todo := iv_len v) (i := 0) (m := iv_data v) (rw := 0) (ro := 0) (ww := 0) (wo := 0)
      as [m' [E [E1 [E2 E3]]]]; auto; try lia.
    { intros j Hj. rewrite <- nth_elems by auto. eapply N.le_lt_trans; [|exact NW1]. apply R2. lia. }
    rewrite E. cbn [obind].
    set (v1 := mkiv (iv_size v) m' (iv_width v)). change (iv_len v1) with (iv_len v).
    destruct (bit_resize_bits g v1 (iv_len v * nw) G) as [v2 [Q1 [Q2 [Q3 [Q4 [Q5 [_ Q6]]]]]]]; auto. { cbn. lia. }
    rewrite Q1. cbn [obind]. eexists. split; [reflexivity|]. unfold iv_set_width. cbn [iv_size iv_data iv_width].
    rewrite set_width_ok by (auto; lia). 
    assert (LN : iv_len (mkiv (iv_size v2) (iv_data v2) nw) = iv_len v).
    { unfold iv_len at 1. cbn. rewrite Q2. apply Nat.div_mul. lia. }
    assert (O2 : iv_ok (mkiv (iv_size v2) (iv_data v2) nw)) by (split; auto; split; cbn; lia).
    split; auto. split; auto. split; [|split; auto].
    2: { intros x Hx. eapply N.le_lt_trans; [|exact NW1]. auto. }
    apply list_nth_ext with 0%N. { rewrite !elems_length. auto. }
    intros i Hi. rewrite elems_length, LN in Hi. rewrite !nth_elems by lia. cbn [iv_data iv_width]. rewrite <- E3 by auto.
    apply field_ext. intros k Hk. apply Q6; cbn; nia.
  - exists v. assert (nw = iv_width v) by lia. split; auto. split; auto. split; auto. split; auto. split.
    + intros x Hx. eapply N.le_lt_trans; [|exact MXW]. auto.
    + rewrite <- H. auto.
Qed.

(** ** expand_width *)
Lemma expand_loop_ok : forall m0 n ow nw, 1 <= ow -> ow <= nw -> nw <= 64 ->
  forall todo v, todo <= n -> words_ok (iv_data v) -> n * nw <= 64 * length (iv_data v) ->
  (forall p, p < todo * ow -> mbit (iv_data v) p = mbit m0 p) ->
  (forall j, todo <= j < n -> field (iv_data v) (j * nw) nw = field m0 (j * ow) ow) ->
  exists v', expand_loop todo v ow nw = Some v' /\ words_ok (iv_data v') /\ length (iv_data v') = length (iv_data v) /\
    iv_size v' = iv_size v /\ iv_width v' = iv_width v /\
    forall j, j < n -> field (iv_data v') (j * nw) nw = field m0 (j * ow) ow.
Proof.
  intros m0 n ow nw H1 H2 H3. induction todo; intros v T W L P F.
  - exists v. cbn. repeat split; auto. intros. apply F. lia.
  - cbn [expand_loop].
    assert (X1 : todo * ow + ow <= todo * nw + nw) by nia. assert (X2 : todo * nw + nw <= n * nw) by nia. assert (X3 : todo * ow <= todo * nw) by nia.
    unfold iv_get_int. rewrite read_at by (auto; lia). cbn [obind].
    unfold iv_set_int. destruct (write_at (iv_data v) (todo * nw) nw (field (iv_data v) (todo * ow) ow) W) as [m' [E S]]; try lia.
    rewrite E. cbn [obind]. pose proof S as [SL [SW SB]].
    destruct (IHtodo (mkiv (iv_size v) m' (iv_width v))) as [v' [Q1 [Q2 [Q3 [Q4 [Q5 Q6]]]]]]; cbn [iv_data iv_size iv_width]; auto; try lia.
    + intros p Hp. rewrite SB. replace (todo * nw <=? p) with false by lia. cbn [andb]. apply P. lia.
    + intros j Hj. destruct (Nat.eq_dec j todo) as [->|Nj].
      * rewrite (mem_set_read_same _ _ _ _ _ S).
        assert (FE : field (iv_data v) (todo * ow) ow = field m0 (todo * ow) ow) by (apply field_ext; intros; apply P; lia).
        rewrite FE. apply N.mod_small. eapply N.lt_le_trans; [apply field_lt|]. apply N.pow_le_mono_r; lia.
      * rewrite (mem_set_read_other _ _ _ _ _ _ _ S). apply F; lia. right. nia.
    + exists v'. repeat split; auto. cbn [iv_data] in Q3. congruence.
Qed.

Lemma expand_width_ok : forall g v nw, fresh_ok g -> iv_ok v -> nw <= 64 -> exists v', iv_expand_width g 0 v nw = Some v' /\ iv_ok v' /\
  iv_width v' = Nat.max (iv_width v) nw /\ iv_len v' = iv_len v /\ elems v' = elems v.
Proof.
  intros g v nw G O HN. pose proof O as [A [B C]]. unfold iv_expand_width.
  destruct (Nat.ltb_spec (iv_width v) nw) as [L|L].
  2: { exists v. split; auto. split; auto. split; [lia|]. auto. }
  assert (BD : iv_len v * iv_width v <= iv_size v).
  { unfold iv_len. rewrite Nat.mul_comm. apply Nat.mul_div_le. lia. }
  destruct (Nat.ltb_spec 0 (iv_len v)) as [P|P].
  - destruct (bit_resize_bits g v (iv_len v * nw) G A C) as [v1 [Q1 [Q2 [Q3 [Q4 [Q5 [_ Q6]]]]]]].
    rewrite Q1. cbn [obind].
    destruct (expand_loop_ok (iv_data v) (iv_len v) (iv_width v) nw) with (todo := iv_len v) (v := v1)
      as [v2 [R1 [R2 [R3 [R4 [R5 R6]]]]]]; auto; try lia.
    { intros p Hp. apply Q6; nia. }
    rewrite R1. cbn [obind]. eexists. split; [reflexivity|]. unfold iv_set_width. rewrite set_width_ok by (auto; lia).
    assert (LN : iv_len (mkiv (iv_size v2) (iv_data v2) nw) = iv_len v).
    { unfold iv_len at 1. cbn. rewrite R4, Q2. apply Nat.div_mul. lia. }
    split. { split; cbn; auto. split; [lia|]. rewrite R3. lia. }
    split; [cbn; lia|]. split; auto.
    apply list_nth_ext with 0%N. { rewrite !elems_length. auto. }
    intros i Hi. rewrite elems_length, LN in Hi. rewrite !nth_elems by lia. cbn [iv_data iv_width]. apply R6. auto.
  - cbn [obind]. eexists. split; [reflexivity|]. unfold iv_set_width. rewrite set_width_ok by (auto; lia).
    assert (L0 : iv_len v = 0) by lia. unfold iv_len in L0. apply Nat.div_small_iff in L0; [|lia].
    assert (LN : iv_len (mkiv (iv_size v) (iv_data v) nw) = iv_len v).
    { unfold iv_len. cbn. rewrite !Nat.div_small by lia. auto. }
    split. { split; cbn; auto. split; [lia|]. auto. }
    split; [cbn; lia|]. split; auto. unfold elems. rewrite LN. replace (iv_len v) with 0 by lia. auto.
Qed.

(** ** mod *)
Lemma mod_loop_ok : forall m, m <> 0%N -> forall todo i v, iv_ok v -> i + todo = iv_len v ->
  exists v', mod_loop v m i todo = Some v' /\ iv_ok v' /\ iv_size v' = iv_size v /\ iv_width v' = iv_width v /\
    forall j, j < iv_len v -> nth j (elems v') 0%N = if i <=? j then (nth j (elems v) 0 mod m)%N else nth j (elems v) 0%N.
Proof.
  intros m M. induction todo; intros i v O E; cbn [mod_loop].
  - exists v. split; auto. split; auto. split; auto. split; auto. intros. replace (i <=? j) with false by lia. auto.
  - rewrite ref_get_ok by (auto; lia). cbn [obind]. destruct (N.eqb_spec m 0); [contradiction|].
    destruct (ref_set_ok v i (nth i (elems v) 0 mod m)%N O ltac:(lia)) as [v1 [Q1 [Q2 [Q3 [Q4 [_ Q6]]]]]]. rewrite Q1. cbn [obind].
    assert (LN : iv_len v1 = iv_len v) by (unfold iv_len; congruence).
    destruct (IHtodo (S i) v1 Q2 ltac:(lia)) as [v' [R1 [R2 [R3 [R4 R5]]]]]. exists v'. split; auto. split; auto.
    split; [congruence|]. split; [congruence|]. intros j Hj. rewrite R5 by lia. rewrite Q6, nth_upd, elems_length.
    destruct (Nat.eqb_spec j i) as [->|Nj]; cbn [andb].
    + replace (i <? iv_len v) with true by lia. replace (S i <=? i) with false by lia. replace (i <=? i) with true by lia.
      apply N.mod_small. eapply N.le_lt_trans; [apply N.mod_le; auto|]. apply elems_lt. lia.
    + replace (i <=? j) with (S i <=? j) by lia. auto.
Qed.
Lemma mod_ok : forall v m, iv_ok v -> m <> 0%N -> exists v', iv_mod v m = Some v' /\ iv_ok v' /\ iv_width v' = iv_width v /\
  elems v' = map (fun x => (x mod m)%N) (elems v).
Proof.
  intros v m O M. destruct (mod_loop_ok m M (iv_len v) 0 v O ltac:(lia)) as [v' [R1 [R2 [R3 [R4 R5]]]]]. exists v'. split; auto. split; auto. split; auto.
  apply list_nth_ext with 0%N. { rewrite map_length, !elems_length. unfold iv_len. congruence. }
  intros j Hj. rewrite elems_length in Hj. assert (j < iv_len v) by (unfold iv_len in *; congruence).
  rewrite R5 by auto. cbn [Nat.leb]. symmetry.
  etransitivity; [apply (nth_indep _ _ ((fun x => (x mod m)%N) 0%N)); rewrite map_length, elems_length; auto|].
  apply (map_nth (fun x => (x mod m)%N)).
Qed.

(** ** counting *)
Lemma cnt_loop_ok : forall f (h : nat -> bool) (Cf : nat -> N) m n,
  (forall w, w < n -> f (nth w m 0%N) (Cf w) = (N.of_nat (rank_of (fun k => h (64 * w + k)) 64), Cf (S w))) -> n <= length m ->
  forall todo p oc acc, p + todo = n -> acc = N.of_nat (rank_of h (64 * p)) ->
  cnt_loop f todo p m (Cf p) oc acc = Some (N.of_nat (rank_of h (64 * n)), Cf n, if todo =? 0 then oc else Cf (n - 1)).
Proof.
  intros f h Cf m n H L. induction todo; intros p oc acc E Ha; cbn [cnt_loop].
  - replace p with n by lia. subst acc. replace p with n by lia. auto.
  - rewrite ld_some by lia. cbn [obind]. rewrite H by lia.
    rewrite IHtodo; [|lia|].
    + f_equal. f_equal. destruct (Nat.eqb_spec todo 0); cbn [Nat.eqb]; auto. f_equal. lia.
    + subst acc. replace (64 * S p) with (64 * p + 64) by lia. rewrite rank_of_add. lia.
Qed.

Lemma cnt_rank : forall x (h : nat -> bool), is_word x -> (forall k, k < 64 -> tb x k = h k) -> cnt x = N.of_nat (rank_of h 64).
Proof. intros. rewrite cnt_correct by auto. rewrite popcount_rank. f_equal. apply rank_of_ext. auto. Qed.

Lemma rank_of_ext_fun : forall f g n, (forall j, f j = g j) -> rank_of f n = rank_of g n.
Proof. intros. apply rank_of_ext. auto. Qed.

Lemma rank_of_tail : forall g s t, rank_of (fun k => (s <=? k) && g k) (s + t) + rank_of g s = rank_of g (s + t).
Proof.
  intros. rewrite !rank_of_add. rewrite (rank_of_ext (fun k => (s <=? k) && g k) (fun _ => false)).
  2: { intros j Hj. replace (s <=? j) with false by lia. auto. }
  rewrite rank_of_const_false. rewrite (rank_of_ext (fun j => (s <=? s + j) && g (s + j)) (fun j => g (s + j))).
  2: { intros j Hj. replace (s <=? s + j) with true by lia. auto. }
  lia.
Qed.

(** subtracting the bits at or behind [s] in the last word *)
Lemma tail_count : forall x (h : nat -> bool) w s, is_word x -> (forall k, k < 64 -> tb x k = h (64 * w + k)) -> s < 64 ->
  (N.of_nat (rank_of h (64 * (w + 1))) - cnt (N.land x (wnot (lo_set s))) = N.of_nat (rank_of h (64 * w + s)))%N.
Proof.
  intros x h w s X H Hs. rewrite (cnt_rank _ (fun k => (s <=? k) && h (64 * w + k))).
  2: { auto with word. }
  2: { intros k Hk. rewrite tb_land, tb_wnot, tb_lo_set, H by auto. replace (k <? 64) with true by lia.
       rewrite andb_comm. f_equal. rewrite xorb_true_r. lia. }
  replace (64 * (w + 1)) with (64 * w + 64) by lia. rewrite rank_of_add. rewrite (rank_of_add h (64 * w) s).
  pose proof (rank_of_tail (fun k => h (64 * w + k)) s (64 - s)) as R. replace (s + (64 - s)) with 64 in R by lia. lia.
Qed.

Lemma count_true_iv_bits : forall v, count_true (iv_bits v) = rank_of (mbit (iv_data v)) (iv_size v).
Proof. intros. unfold iv_bits. apply count_true_map. Qed.

Lemma cnt_one_bits_ok : forall v, iv_ok v -> iv_cnt_one_bits v = Some (N.of_nat (count_true (iv_bits v))).
Proof.
  intros v [A [B C]]. rewrite count_true_iv_bits. unfold iv_cnt_one_bits, iv_empty. destruct (Nat.eqb_spec (iv_size v) 0) as [Z|Z].
  { rewrite Z. auto. }
  rewrite cap_div. set (n := (iv_size v + 63) / 64).
  rewrite (cnt_loop_ok (fun x c => (cnt x, c)) (mbit (iv_data v)) (fun _ => 0%N) (iv_data v) n) with (p := 0); auto; try (unfold n; lia).
  2: { intros w Hw. f_equal. apply cnt_rank. { apply words_ok_nth. auto. } intros. rewrite mbit_wo; auto. }
  cbn [obind]. destruct (Nat.eqb_spec (iv_size v mod 64) 0) as [E|E]; cbn [negb].
  - do 3 f_equal. unfold n. lia.
  - rewrite ld_some by (unfold n; lia). cbn [obind]. f_equal.
    replace (64 * n) with (64 * (n - 1 + 1)) by (unfold n; lia). rewrite (tail_count _ (mbit (iv_data v)) (n - 1)).
    + do 2 f_equal. unfold n. lia.
    + apply words_ok_nth. auto. + intros. rewrite mbit_wo; auto. + lia.
Qed.

Definition pat_at (p1 p2 c0 : bool) (f : nat -> bool) (k : nat) : bool := eqb (prevbit c0 f k) p1 && eqb (f k) p2.
Definition carry_of (c0 : bool) (m : mem) (w : nat) : bool := match w with 0 => c0 | S w' => tb (nth w' m 0%N) 63 end.

Lemma cnt_pat_ok : forall f mp p1 p2 c0,
  (forall x (c : bool), is_word x -> f x (b2n c) = (N.of_nat (count_pat2 p1 p2 c (bits_of_N 64 x)), b2n (tb x 63))) ->
  (forall x (c : bool) k, is_word x -> k < 64 -> tb (mp x (b2n c)) k = eqb (prevbit c (tb x) k) p1 && eqb (tb x k) p2) ->
  (forall x (c : bool), is_word x -> is_word (mp x (b2n c))) ->
  forall v, iv_ok v -> iv_cnt_pat f mp (b2n c0) v = Some (N.of_nat (count_pat2 p1 p2 c0 (iv_bits v))).
Proof.
  intros f mp p1 p2 c0 Hf Hm Hw v [A [B C]]. unfold iv_cnt_pat, iv_empty. destruct (Nat.eqb_spec (iv_size v) 0) as [Z|Z].
  { unfold iv_bits. rewrite Z. auto. }
  rewrite cap_div. set (n := (iv_size v + 63) / 64).
  set (h := pat_at p1 p2 c0 (mbit (iv_data v))).
  assert (PB : forall w k, k < 64 -> prevbit (carry_of c0 (iv_data v) w) (tb (nth w (iv_data v) 0%N)) k = prevbit c0 (mbit (iv_data v)) (64 * w + k)).
  { intros w [|k] Hk.
    - destruct w; auto. replace (64 * S w + 0) with (S (64 * w + 63)) by lia. cbn [prevbit carry_of]. rewrite mbit_wo by lia. auto.
    - replace (64 * w + S k) with (S (64 * w + k)) by lia. cbn [prevbit]. rewrite mbit_wo by lia. auto. }
  rewrite (cnt_loop_ok f h (fun w => b2n (carry_of c0 (iv_data v) w)) (iv_data v) n) with (p := 0); auto; try (unfold n; lia).
  2: { intros w Hw'. rewrite Hf by (apply words_ok_nth; auto). f_equal. f_equal. unfold bits_of_N. rewrite count_pat2_rank.
       apply rank_of_ext. intros j Hj. unfold h, pat_at. rewrite PB by auto. rewrite mbit_wo by auto. auto. }
  replace (n =? 0) with false by (unfold n; lia). cbn [obind].
  unfold iv_bits. rewrite count_pat2_rank. change (fun k => eqb (prevbit c0 (mbit (iv_data v)) k) p1 && eqb (mbit (iv_data v) k) p2) with h.
  destruct (Nat.eqb_spec (iv_size v mod 64) 0) as [E|E]; cbn [negb].
  - do 3 f_equal. unfold n. lia.
  - rewrite ld_some by (unfold n; lia). cbn [obind]. f_equal.
    replace (64 * n) with (64 * (n - 1 + 1)) by (unfold n; lia). rewrite (tail_count _ h (n - 1)).
    + do 2 f_equal. unfold n. lia.
    + apply Hw. apply words_ok_nth. auto.
    + intros k Hk. rewrite Hm by (auto; apply words_ok_nth; auto). unfold h, pat_at. rewrite PB by auto. rewrite mbit_wo by auto. auto.
    + lia.
Qed.

Lemma cnt_onezero_ok : forall v, iv_ok v -> iv_cnt_onezero_bits v = Some (N.of_nat (count_pat2 true false false (iv_bits v))).
Proof.
  intros. unfold iv_cnt_onezero_bits. apply (cnt_pat_ok cnt10c map10 true false false); auto.
  - intros. apply cnt10c_correct. auto. - intros. apply map10_bits; auto. - intros. apply is_word_map10. auto.
Qed.
Lemma cnt_zeroone_ok : forall v, iv_ok v -> iv_cnt_zeroone_bits v = Some (N.of_nat (count_pat2 false true true (iv_bits v))).
Proof.
  intros. unfold iv_cnt_zeroone_bits. apply (cnt_pat_ok cnt01c map01 false true true); auto.
  - intros. apply cnt01c_correct. auto. - intros. apply map01_bits; auto. - intros. apply is_word_map01. auto.
Qed.

(** ** next_bit and prev_bit *)
Lemma word_zero_bits : forall m w, words_ok m -> nth w m 0%N = 0%N -> forall k, 64 * w <= k < 64 * (w + 1) -> mbit m k = false.
Proof. intros m w M E k Hk. replace k with (64 * w + (k - 64 * w)) by lia. rewrite mbit_wo by lia. rewrite E. apply tb_0. Qed.

Lemma next_loop_ok : forall fuel v pos, iv_ok v -> (iv_size v + 63) / 64 <= pos + fuel - 1 -> 1 <= fuel ->
  exists r, next_loop fuel v pos = Some r /\
    (first_one_from (mbit (iv_data v)) (64 * pos) r /\ r < 64 * ((iv_size v + 63) / 64) \/
     r = iv_size v /\ forall k, 64 * pos <= k < iv_size v -> mbit (iv_data v) k = false).
Proof.
  induction fuel; intros v pos O F F1; pose proof O as [A [B C]]; [lia|]. cbn [next_loop].
  destruct (Nat.ltb_spec (pos * 64) (iv_size v)) as [L|L].
  2: { eexists. split; [reflexivity|]. right. split; auto. intros. lia. }
  rewrite ld_some by lia. cbn [obind]. destruct (N.eqb_spec (nth pos (iv_data v) 0%N) 0) as [E|E]; cbn [negb].
  - destruct (IHfuel v (S pos) O) as [r [R [[R1 R2]|[R1 R2]]]]; try lia.
    + exists r. split; auto. left. split; [|auto]. destruct R1 as [R3 [R4 R5]]. split; [lia|]. split; auto. intros k Hk.
      destruct (Nat.lt_ge_cases k (64 * S pos)). { apply (word_zero_bits _ pos A E). lia. } apply R5. lia.
    + exists r. split; auto. right. split; auto. intros k Hk.
      destruct (Nat.lt_ge_cases k (64 * S pos)). { apply (word_zero_bits _ pos A E). lia. } apply R2. lia.
  - eexists. split; [reflexivity|]. left. pose proof (words_ok_nth _ pos A) as WX.
    rewrite lo_correct by auto. rewrite Nat2N.id. pose proof (lsb_lt64 _ WX). destruct (lsb_is_lsb _ E) as [X1 X2].
    split; [|lia]. replace (pos * 64) with (64 * pos) by lia. split; [lia|]. split.
    + rewrite mbit_wo by auto. auto.
    + intros k Hk. replace k with (64 * pos + (k - 64 * pos)) by lia. rewrite mbit_wo by lia. apply X2. lia.
Qed.


Lemma iv_bit_mbit : forall v k, k < iv_size v -> iv_bit v k = mbit (iv_data v) k.
Proof. intros. unfold iv_bit, iv_bits. rewrite nth_map_seq by auto. auto. Qed.

Lemma next_bit_raw : forall v idx, iv_ok v -> idx < iv_size v -> exists r, iv_next_bit v idx = Some r /\
    (first_one_from (mbit (iv_data v)) idx r /\ r < 64 * ((iv_size v + 63) / 64) \/
     r = iv_size v /\ forall k, idx <= k < iv_size v -> mbit (iv_data v) k = false).
Proof.
  intros v idx O L. pose proof O as [A [B C]]. unfold iv_next_bit. rewrite ld_some by lia. cbn [obind].
  set (W := idx / 64). set (o := idx mod 64). assert (EI : idx = 64 * W + o) by (unfold W, o; lia). assert (Ho : o < 64) by (unfold o; lia).
  clearbody W o. pose proof (words_ok_nth _ W A) as WX.
  destruct (N.eqb_spec (shr (nth W (iv_data v) 0%N) o) 0) as [E|E]; cbn [negb].
  - destruct (next_loop_ok (S (iv_size v)) v (S W) O ltac:(lia) ltac:(lia)) as [r [R K]]. exists r. split; auto.
    assert (ZB : forall k, idx <= k < 64 * S W -> mbit (iv_data v) k = false).
    { intros k Hk. replace k with (64 * W + (k - 64 * W)) by lia. rewrite mbit_wo by lia.
      replace (k - 64 * W) with (k - idx + o) by lia. rewrite <- tb_shr, E. apply tb_0. }
    destruct K as [[[K1 [K2 K3]] K4]|[K1 K2]].
    + left. split; auto. split; [lia|]. split; auto. intros k Hk. destruct (Nat.lt_ge_cases k (64 * S W)); [apply ZB; lia|apply K3; lia].
    + right. split; auto. intros k Hk. destruct (Nat.lt_ge_cases k (64 * S W)); [apply ZB; lia|apply K2; lia].
  - destruct (shr_nonzero_first _ W o A Ho E) as [F1 F2]. rewrite lo_correct by (apply is_word_shr; auto). rewrite Nat2N.id.
    eexists. split; [reflexivity|]. left. split; [|lia]. rewrite <- EI in F1. auto.
Qed.

Lemma next_bit_ok : forall v idx, iv_ok v -> tail_clean v -> idx < iv_size v -> exists r, iv_next_bit v idx = Some r /\
  next_spec (iv_bit v) (iv_size v) idx r.
Proof.
  intros v idx O T L. destruct (next_bit_raw v idx O L) as [r [R K]]. exists r. split; auto.
  destruct K as [[[K1 [K2 K3]] K4]|[K1 K2]].
  - assert (r < iv_size v). { apply Nat.nle_gt. intro. rewrite T in K2 by lia. discriminate. }
    left. split; auto. split; auto. split. { rewrite iv_bit_mbit; auto. }
    intros. rewrite iv_bit_mbit by lia. auto.
  - right. split; auto. intros. rewrite iv_bit_mbit by lia. auto.
Qed.
(** whatever the tail bits are: when a set bit exists at or behind idx, it is found *)
Lemma next_bit_found : forall v idx p, iv_ok v -> p < iv_size v -> first_one_from (iv_bit v) idx p -> iv_next_bit v idx = Some p.
Proof.
  intros v idx p O L [F1 [F2 F3]]. destruct (next_bit_raw v idx O ltac:(lia)) as [r [R K]]. rewrite R. f_equal.
  assert (FF : first_one_from (mbit (iv_data v)) idx p).
  { split; auto. split. { rewrite <- iv_bit_mbit; auto. } intros. rewrite <- iv_bit_mbit by lia. auto. }
  destruct K as [[K _]|[K1 K2]]; [eapply first_one_unique; eauto|].
  destruct FF as [_ [FF _]]. rewrite K2 in FF by lia. discriminate.
Qed.

Lemma prev_loop_ok : forall v, iv_ok v -> (N.of_nat (iv_size v) <= W64 - 64)%N -> forall pos, pos * 64 < iv_size v -> exists r, prev_loop v pos = Some r /\
  (last_one_upto (mbit (iv_data v)) (64 * pos + 63) r \/ r = iv_size v /\ forall k, k <= 64 * pos + 63 -> mbit (iv_data v) k = false).
Proof.
  intros v O S. pose proof O as [A [B C]]. induction pos; intros L.
  - cbn [prev_loop]. replace (0 * 64 <? iv_size v) with true by lia. rewrite ld_some by lia. cbn [obind].
    destruct (N.eqb_spec (nth 0 (iv_data v) 0%N) 0) as [E|E]; cbn [negb].
    + unfold prev_wrap. destruct (N.ltb_spec (W64 - 64) (N.of_nat (iv_size v))); [lia|]. eexists. split; [reflexivity|].
      right. split; auto. intros. apply (word_zero_bits _ 0 A E). lia.
    + eexists. split; [reflexivity|]. left. pose proof (words_ok_nth _ 0 A) as WX.
      pose proof (hi_lt64 _ WX). destruct (hi_msb _ WX E) as [X1 X2]. set (h := N.to_nat (hi (nth 0 (iv_data v) 0%N))) in *.
      split; [lia|]. split. { rewrite <- (mbit_wo (iv_data v) 0) in X1 by lia. auto. }
      intros k Hk. replace k with (64 * 0 + k) by lia. rewrite mbit_wo by lia. apply X2. lia.
  - cbn [prev_loop]. replace (Datatypes.S pos * 64 <? iv_size v) with true by lia. rewrite ld_some by lia. cbn [obind].
    destruct (N.eqb_spec (nth (Datatypes.S pos) (iv_data v) 0%N) 0) as [E|E]; cbn [negb].
    + destruct (IHpos ltac:(lia)) as [r [R K]]. exists r. split; auto.
      assert (ZB := word_zero_bits _ _ A E).
      destruct K as [[K1 [K2 K3]]|[K1 K2]].
      * left. split; [lia|]. split; auto. intros k Hk. destruct (Nat.le_gt_cases k (64 * pos + 63)); [apply K3; lia|apply ZB; lia].
      * right. split; auto. intros k Hk. destruct (Nat.le_gt_cases k (64 * pos + 63)); [apply K2; lia|apply ZB; lia].
    + eexists. split; [reflexivity|]. left. pose proof (words_ok_nth _ (Datatypes.S pos) A) as WX.
      pose proof (hi_lt64 _ WX). destruct (hi_msb _ WX E) as [X1 X2]. set (h := N.to_nat (hi (nth (Datatypes.S pos) (iv_data v) 0%N))) in *.
      assert (h < 64) by lia. replace (Datatypes.S pos * 64 + h) with (64 * Datatypes.S pos + h) by lia.
      split; [lia|]. split. { rewrite mbit_wo by lia. auto. }
      intros k Hk. replace k with (64 * Datatypes.S pos + (k - 64 * Datatypes.S pos)) by lia. rewrite mbit_wo by lia. apply X2. lia.
Qed.

Lemma prev_bit_ok : forall v idx, iv_ok v -> (N.of_nat (iv_size v) <= W64 - 64)%N -> idx < iv_size v -> exists r, iv_prev_bit v idx = Some r /\
  prev_spec (iv_bit v) (iv_size v) idx r.
Proof.
  intros v idx O S L. pose proof O as [A [B C]].
  assert (RAW : exists r, iv_prev_bit v idx = Some r /\ (last_one_upto (mbit (iv_data v)) idx r \/ r = iv_size v /\ forall k, k <= idx -> mbit (iv_data v) k = false)).
  { unfold iv_prev_bit. rewrite ld_some by lia. cbn [obind].
    remember (idx / 64) as W eqn:EW. remember (idx mod 64) as o eqn:Eo. assert (EI : idx = 64 * W + o) by lia. assert (Ho : o < 64) by lia.
    clear EW Eo. pose proof (words_ok_nth _ W A) as WX.
    destruct (N.eqb_spec (shl (nth W (iv_data v) 0%N) (63 - o)) 0) as [E|E]; cbn [negb].
    - assert (ZB : forall k, 64 * W <= k <= idx -> mbit (iv_data v) k = false).
      { intros k Hk. replace k with (64 * W + (k - 64 * W)) by lia. rewrite mbit_wo by lia.
        assert (Q : tb (shl (nth W (iv_data v) 0%N) (63 - o)) (k - 64 * W + (63 - o)) = false) by (rewrite E; apply tb_0).
        rewrite tb_shl in Q. replace (k - 64 * W + (63 - o) <? 64) with true in Q by lia. replace (63 - o <=? k - 64 * W + (63 - o)) with true in Q by lia.
        cbn [andb] in Q. rewrite <- Q. f_equal. lia. }
      destruct W.
      + unfold prev_wrap. destruct (N.ltb_spec (W64 - 64) (N.of_nat (iv_size v))); [lia|]. eexists. split; [reflexivity|].
        right. split; auto. intros. apply ZB. lia.
      + destruct (prev_loop_ok v O S W ltac:(lia)) as [r [R K]]. exists r. split; auto.
        destruct K as [[K1 [K2 K3]]|[K1 K2]].
        * left. split; [lia|]. split; auto. intros k Hk. destruct (Nat.le_gt_cases k (64 * W + 63)); [apply K3; lia|apply ZB; lia].
        * right. split; auto. intros k Hk. destruct (Nat.le_gt_cases k (64 * W + 63)); [apply K2; lia|apply ZB; lia].
    - pose proof (is_word_shl (nth W (iv_data v) 0%N) (63 - o)) as WS. pose proof (hi_lt64 _ WS). destruct (hi_msb _ WS E) as [X1 X2].
      set (h := N.to_nat (hi (shl (nth W (iv_data v) 0%N) (63 - o)))) in *. assert (Hh : h < 64) by lia.
      assert (Q : forall j, tb (shl (nth W (iv_data v) 0%N) (63 - o)) j = (j <? 64) && ((63 - o <=? j) && tb (nth W (iv_data v) 0%N) (j - (63 - o)))) by (intros; apply tb_shl).
      rewrite Q in X1. destruct (Nat.leb_spec (63 - o) h) as [G|G]; [|rewrite andb_false_r in X1; discriminate].
      replace (h <? 64) with true in X1 by lia. cbn [andb] in X1.
      eexists. split; [reflexivity|]. left. split; [lia|]. split.
      + replace (h + W * 64 - (63 - o)) with (64 * W + (h - (63 - o))) by lia. rewrite mbit_wo by lia. auto.
      + intros k Hk. replace k with (64 * W + (k - 64 * W)) by lia. rewrite mbit_wo by lia.
        assert (Z := X2 (k - 64 * W + (63 - o)) ltac:(lia)). rewrite Q in Z.
        replace (k - 64 * W + (63 - o) <? 64) with true in Z by lia. replace (63 - o <=? k - 64 * W + (63 - o)) with true in Z by lia.
        cbn [andb] in Z. rewrite <- Z. f_equal. lia. }
  destruct RAW as [r [R K]]. exists r. split; auto. destruct K as [[K1 [K2 K3]]|[K1 K2]].
  - left. split; auto. split. { rewrite iv_bit_mbit by lia. auto. } intros. rewrite iv_bit_mbit by lia. auto.
  - right. split; auto. intros. rewrite iv_bit_mbit by lia. auto.
Qed.
