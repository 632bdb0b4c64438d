(** * int_vector_buffer: opening, closing and whole histories *)
From Coq Require Import NArith ZArith List Bool Arith Lia.
From Verif Require Import Base Bits SpecBits IntVector SpecIntVector IntVectorProofs IntVectorProofs2 IntVectorProofs3 IntVectorProofs4 IvBuffer SpecIvb IvBufferProofs IvBufferProofs2.
Import ListNotations.

Section Close.
Variables (sr : N -> nat -> option N) (g : nat -> N) (tw w : nat).
Hypothesis G : fresh_ok g.
Hypothesis TW : tw = 0 /\ 1 <= w <= 64 \/ 1 <= tw <= 64 /\ w = tw.
Hypothesis SR : sr_ok sr w.
Definition capv (n : nat) : nat := 8 * ((n * w + 63) / 64).
Lemma capv_ok : forall n, (n * w + 7) / 8 <= capv n. Proof. intro n. unfold capv. remember (n * w) as x. clear. lia. Qed.
Lemma capv_mono : forall n n', n <= n' -> capv n <= capv n'.
Proof. intros n n' H. unfold capv. assert (n * w <= n' * w) by (apply Nat.mul_le_mono_r; auto). remember (n * w) as x. remember (n' * w) as y. clear - H0. lia. Qed.
Definition hdr : nat := if tw =? 0 then 9 else 8.
Notation invv := (inv w hdr capv).

Lemma hdr_len : forall n, length (fst (write_header tw n w)) = hdr.
Proof. intro n. unfold write_header, hdr. destruct (tw =? 0); cbn [fst]; rewrite ?app_length, !le_bytes_length; auto. Qed.
Lemma hdr_bytes : forall n, Forall is_byte (fst (write_header tw n w)).
Proof. intro n. unfold write_header. destruct (tw =? 0); cbn [fst]; [apply Forall_app; split|]; apply le_bytes_byte. Qed.

(** a vector with given bits *)
Lemma vec_reads : forall ws l, words_ok ws -> length l * w <= 64 * length ws -> (forall i, (nth i l 0 < 2 ^ N.of_nat w)%N) ->
  (forall p, p < length l * w -> mbit ws p = lbit w l p) -> iv_ok (mkiv (length l * w) ws w) /\ reads (mkiv (length l * w) ws w) l.
Proof.
  intros ws l OK L LT B. assert (HW : 1 <= w <= 64) by lia.
  assert (O : iv_ok (mkiv (length l * w) ws w)) by (split; [auto|]; cbn; lia). split; auto.
  assert (LEN : iv_len (mkiv (length l * w) ws w) = length l) by (unfold iv_len; cbn; apply Nat.div_mul; lia).
  replace l with (elems (mkiv (length l * w) ws w)) at 2; [apply reads_elems; auto|].
  apply list_nth_ext with 0%N. { rewrite elems_length; auto. }
  rewrite elems_length, LEN. apply (elems_bits _ (length l) (fun i => nth i l 0%N)); auto.
  cbn [iv_width iv_data]. intros i k I K. rewrite B, lbit_at; auto. assert ((i + 1) * w <= length l * w) by (apply Nat.mul_le_mono_r; lia). nia.
Qed.

Lemma close_ok : forall B l b, 0 < B -> invv l b -> exists F v, b_close tw b = Some F /\ iv_ok v /\ iv_width v = w /\ iv_size v = length l * w /\ reads v l /\
  iv_serialize B tw v false = Some (F, length F).
Proof.
  intros B l b HB I. assert (HW : 1 <= w <= 64) by lia. unfold b_close.
  destruct (write_block_ok tw w hdr TW capv capv_ok capv_mono l b I) as (b1 & E1 & I1 & D1 & _). rewrite E1. cbn [obind]. destruct I1 as [I_buf0 I_beg0 I_off0 I_size0 I_lt0 I_el0 I_byte0 I_file0 I_len0 I_dirty0 I_cap0].
  assert (H0 : 0 < hdr) by (unfold hdr; destruct (tw =? 0); lia). rewrite I_off0. replace (0 <? hdr) with true by (symmetry; apply Nat.ltb_lt; auto).
  unfold b_width. destruct I_buf0 as [_ WB _ _ _]. rewrite WB, I_size0. clear WB.
  remember (length l * w) as sz eqn:SZ.
  remember (fst (write_header tw sz w)) as H eqn:EH. assert (HL : length H = hdr) by (subst H; apply hdr_len). assert (HBY : Forall is_byte H) by (subst H; apply hdr_bytes).
  destruct (f_put_spec (b_file b1) 0 H I_byte0 HBY) as (F1B & F1L & F1bit). { intro E. rewrite E in HL. cbn in HL. lia. }
  remember (f_put (b_file b1) 0 H) as F1 eqn:EF1.
  remember (if ((sz + 7) / 8) mod 8 =? 0 then F1 else f_put F1 (hdr + (sz + 7) / 8) (repeat 0%N (8 - ((sz + 7) / 8) mod 8))) as F2 eqn:EF2.
  assert (LB : length l = 0 \/ hdr + (sz + 7) / 8 <= length (b_file b1)) by (destruct I_len0 as [X|[X|[X _]]]; auto; congruence).
  assert (F2P : Forall is_byte F2 /\ length F2 = hdr + 8 * ((sz + 63) / 64) /\ (forall p, p < 8 * hdr -> bbit F2 p = bbit H p) /\ forall p, bbit F2 (8 * hdr + p) = lbit w l p).
  { assert (LF1 : length F1 = Nat.max (length (b_file b1)) hdr) by lia.
    assert (BF1 : forall p, bbit F1 (8 * hdr + p) = lbit w l p).
    { intro p. rewrite F1bit. replace (8 * hdr + p <? 8 * (0 + length H)) with false by (symmetry; apply Nat.ltb_ge; lia). rewrite andb_false_r. apply I_file0. auto. }
    assert (BH1 : forall p, p < 8 * hdr -> bbit F1 p = bbit H p).
    { intros p P. rewrite F1bit. replace (p <? 8 * (0 + length H)) with true by (symmetry; apply Nat.ltb_lt; lia). replace (8 * 0 <=? p) with true by (symmetry; apply Nat.leb_le; lia). cbn [andb]. f_equal. lia. }
    unfold capv in I_cap0. rewrite <- SZ in *.
    assert (Z0 : length l = 0 -> sz = 0) by (intro Z; rewrite SZ, Z; auto).
    destruct (Nat.eqb_spec (((sz + 7) / 8) mod 8) 0) as [Z|Z].
    - subst F2. split; auto. split; auto. clear - LF1 I_cap0 LB Z0 Z. destruct LB as [LB|LB]; [specialize (Z0 LB)|]; lia.
    - destruct (f_put_spec F1 (hdr + (sz + 7) / 8) (repeat 0%N (8 - ((sz + 7) / 8) mod 8)) F1B) as (A1 & A2 & A3).
      { apply Forall_forall. intros x X. apply repeat_spec in X. subst x. reflexivity. } { destruct (8 - ((sz + 7) / 8) mod 8) eqn:E; [clear - E; lia | discriminate]. }
      rewrite <- EF2 in *. rewrite repeat_length in *. split; auto. split.
      { rewrite A2, LF1. clear - I_cap0 LB Z0 Z. destruct LB as [LB|LB]; [specialize (Z0 LB)|]; lia. }
      split.
      { intros p P. rewrite A3. replace (8 * (hdr + (sz + 7) / 8) <=? p) with false by (symmetry; apply Nat.leb_gt; clear - P; lia). cbn [andb]. auto. }
      { intros p. rewrite A3. destruct ((8 * (hdr + (sz + 7) / 8) <=? 8 * hdr + p) && _) eqn:C; auto.
        apply andb_true_iff in C. destruct C as [C _]. apply Nat.leb_le in C. rewrite lbit_out; [| lia | rewrite <- SZ; clear - C; lia].
        unfold bbit. match goal with |- tb (nth ?i ?r 0%N) _ = false => destruct (nth_in_or_default i r 0%N) as [IN|E]; [apply repeat_spec in IN; rewrite IN|rewrite E]; apply tb_0 end. } }
  destruct F2P as (F2B & F2L & F2H & F2D).
  remember (skipn hdr F2) as D eqn:ED.
  assert (DL : length D = 8 * ((sz + 63) / 64)) by (subst D; rewrite skipn_length; lia).
  assert (DB : Forall is_byte D) by (subst D; apply Forall_skipn'; auto).
  assert (DW : words_ok (to_words D)) by (apply to_words_ok; auto).
  assert (WL : length (to_words D) = (sz + 63) / 64) by (rewrite to_words_length, DL; clear; lia).
  assert (D8 : length D mod 8 = 0) by (rewrite DL; clear; lia).
  assert (FE : F2 = H ++ D).
  { subst D. rewrite <- (firstn_skipn hdr F2) at 1. f_equal. apply byte_list_ext; auto. { apply Forall_firstn'; auto. } { rewrite firstn_length; lia. }
    intro p. rewrite bbit_firstn. destruct (Nat.ltb_spec p (8 * hdr)); cbn [andb]; auto. symmetry. apply bbit_out. lia. }
  assert (DE : D = mem_bytes (to_words D)).
  { apply byte_list_ext; auto using mem_bytes_byte. { rewrite mem_bytes_length, WL. auto. } intro p. rewrite bbit_mem_bytes, mbit_to_words; auto. }
  destruct (vec_reads (to_words D) l DW) as (OV & RV); auto. { rewrite <- SZ, WL. clear. lia. }
  { intros p P. rewrite mbit_to_words by auto. subst D. rewrite bbit_skipn. apply F2D. }
  rewrite <- SZ in OV, RV. exists F2, (mkiv sz (to_words D) w). split; auto. split; auto. split; auto. split; auto. split; auto.
  unfold iv_serialize. rewrite andb_false_r. cbn [iv_size iv_width].
  assert (WD : iv_write_data B (mkiv sz (to_words D) w) = Some (D, (sz + 63) / 64 * 8)).
  { unfold iv_write_data. rewrite cap_div. cbn [iv_size iv_data]. rewrite write_data_loop_ok; try lia. cbn [skipn Nat.add]. rewrite Nat.sub_0_r. rewrite firstn_all2 by lia.
    change (wbytes (to_words D)) with (mem_bytes (to_words D)). rewrite <- DE. reflexivity. }
  rewrite WD. destruct (write_header tw sz w) as [h hn] eqn:EW. cbn [obind]. cbn [fst] in EH. subst h. rewrite FE.
  assert (HN : hn = hdr). { unfold write_header in EW. unfold hdr. destruct (tw =? 0); injection EW as _ <-; auto. }
  rewrite app_length, HL, DL, HN. f_equal. f_equal. lia.
Qed.

Lemma create_ok : forall n, exists b, b_create sr g tw false w n = Some b /\ invv [] b.
Proof.
  intro n. unfold b_create. match goal with |- exists b, b_set_bs sr g tw ?b0 n = Some b /\ _ => destruct (set_bs_core sr g tw w hdr G TW SR capv capv_ok capv_mono [] b0 n) as (b & E & I & _) end; auto.
  - intros [|]; cbn; apply N.neq_0_lt_0, N.pow_nonzero; discriminate.
  - cbn [b_buf]. unfold iv_set_width. cbn. apply set_width_ok; lia.
  - constructor.
  - intro p. cbn [b_file]. rewrite bbit_nil, lbit_nil. auto.
  - cbn. lia.
  - exists b. auto.
Qed.
(** an existing file: the serialization of a vector whose unused bits are 0 *)
Lemma open_ok : forall B v l w0 n F len, 0 < B -> iv_ok v -> iv_width v = w -> whole v -> reads v l -> tail_clean v -> (N.of_nat (iv_size v) < W64)%N ->
  iv_serialize B tw v false = Some (F, len) -> (1 <= w0 <= 64) -> exists b, b_open sr g tw false F w0 n = Some b /\ invv l b.
Proof.
  intros B v l w0 n F len HB OV WV WH RV TC SV SE W0. assert (HW : 1 <= w <= 64) by lia. pose proof OV as (A1 & A2 & A3).
  assert (SZ : iv_size v = length l * w). { destruct RV as [L _]. unfold whole in WH. rewrite WV, L in WH. auto. }
  assert (EL : l = elems v) by (apply reads_unique; auto).
  assert (WD : iv_write_data B v = Some (mem_bytes (firstn ((iv_size v + 63) / 64) (iv_data v)), (iv_size v + 63) / 64 * 8)).
  { unfold iv_write_data. rewrite cap_div. rewrite write_data_loop_ok; try lia. cbn [skipn Nat.add]. rewrite Nat.sub_0_r. reflexivity. }
  unfold iv_serialize in SE. rewrite andb_false_r, WV, WD in SE. destruct (write_header tw (iv_size v) w) as [h hn] eqn:EW. cbn [obind] in SE. injection SE as SE _.
  assert (HL : length h = hdr). { pose proof (hdr_len (iv_size v)) as X. rewrite EW in X. auto. }
  assert (HBY : Forall is_byte h). { pose proof (hdr_bytes (iv_size v)) as X. rewrite EW in X. auto. }
  remember (firstn ((iv_size v + 63) / 64) (iv_data v)) as ws eqn:EWS.
  assert (WL : length ws = (iv_size v + 63) / 64) by (subst ws; rewrite firstn_length; lia).
  assert (BITS : forall p, bbit F (8 * hdr + p) = lbit w l p).
  { intro p. subst F. rewrite bbit_app, HL. replace (8 * hdr + p <? 8 * hdr) with false by (symmetry; apply Nat.ltb_ge; lia).
    replace (8 * hdr + p - 8 * hdr) with p by lia. rewrite bbit_mem_bytes.
    assert (MW : p < 64 * length ws -> mbit ws p = mbit (iv_data v) p).
    { intro P. unfold mbit. subst ws. rewrite <- (firstn_skipn ((iv_size v + 63) / 64) (iv_data v)) at 2. rewrite app_nth1; auto. apply Nat.div_lt_upper_bound; lia. }
    destruct (le_lt_dec (length l * w) p) as [P|P].
    - rewrite lbit_out by lia. destruct (le_lt_dec (64 * length ws) p) as [Q|Q]; [apply mbit_out; auto|]. rewrite MW by auto. apply TC. lia.
    - rewrite MW by lia. destruct (divmod_w w p ltac:(lia)) as (i & k & EP & K). rewrite EP, lbit_at by auto. rewrite EL.
      assert (I : i < iv_len v). { rewrite <- elems_length, <- EL. apply Nat.mul_lt_mono_pos_r with w; lia. }
      rewrite nth_elems by auto. rewrite tb_field, WV. replace (k <? w) with true by (symmetry; apply Nat.ltb_lt; auto). reflexivity. }
  assert (RH : exists x, read_header tw 0 F = Some (iv_size v, (if tw =? 0 then w else 0), x)).
  { unfold read_header, write_header in *. subst F. apply (f_equal fst) in EW; destruct (Nat.eqb_spec tw 0) as [T|T]; cbn [fst] in EW; subst h.
    - rewrite <- !app_assoc. rewrite take_bytes_app by apply le_bytes_length. cbn [obind]. rewrite take_bytes_app by apply le_bytes_length. cbn [obind].
      rewrite le_val_word by exact SV. rewrite le_val_bytes. change (256 ^ N.of_nat 1)%N with 256%N. rewrite N.mod_small by lia. rewrite !Nat2N.id. eauto.
    - rewrite take_bytes_app by apply le_bytes_length. cbn [obind]. rewrite le_val_word by exact SV. rewrite Nat2N.id. eauto. }
  destruct RH as [x RH]. unfold b_open. rewrite RH. cbn [obind].
  assert (WW : iv_set_width tw (iv_set_width tw (mkiv 0 [] tw) w0) (if tw =? 0 then w else 0) = mkiv 0 [] w).
  { unfold iv_set_width, set_width. cbn [iv_size iv_data iv_width]. destruct (Nat.eqb_spec tw 0) as [T|T]; f_equal; [|lia].
    replace (0 <? w) with true by (symmetry; apply Nat.ltb_lt; lia). replace (w <=? 64) with true by (symmetry; apply Nat.leb_le; lia). reflexivity. }
  rewrite WW. cbn [iv_width].
  assert (DIV : iv_size v / w = length l) by (rewrite SZ; apply Nat.div_mul; lia). rewrite DIV.
  match goal with |- exists b, b_set_bs sr g tw ?b0 n = Some b /\ _ => destruct (set_bs_core sr g tw w hdr G TW SR capv capv_ok capv_mono l b0 n) as (b & E & I & _) end; auto; cbn [b_file].
  - intro i. rewrite EL. destruct (le_lt_dec (iv_len v) i). { rewrite nth_overflow by (rewrite elems_length; auto). apply N.neq_0_lt_0, N.pow_nonzero; discriminate. }
    rewrite <- WV. apply elems_lt; auto.
  - subst F. apply Forall_app. split; auto. apply mem_bytes_byte.
  - left. subst F. rewrite app_length, HL, mem_bytes_length, WL, <- SZ. clear. lia.
  - subst F. rewrite app_length, HL, mem_bytes_length, WL. unfold capv. rewrite <- SZ. lia.
  - exists b. auto.
Qed.
End Close.

(** ** plain files: no header *)
Section Plain.
Variables (sr : N -> nat -> option N) (g : nat -> N) (tw w : nat).
Hypothesis G : fresh_ok g.
Hypothesis TW : tw = 0 /\ 1 <= w <= 64 \/ 1 <= tw <= 64 /\ w = tw.
Hypothesis SR : sr_ok sr w.
Hypothesis W8 : w mod 8 = 0.
Definition capp (n : nat) : nat := (n * w + 7) / 8.
Lemma capp_ok : forall n, (n * w + 7) / 8 <= capp n. Proof. intro n. unfold capp. apply Nat.le_refl. Qed.
Lemma capp_mono : forall n n', n <= n' -> capp n <= capp n'.
Proof. intros n n' H. unfold capp. assert (n * w <= n' * w) by (apply Nat.mul_le_mono_r; auto). remember (n * w) as x. remember (n' * w) as y. clear - H0. lia. Qed.
Notation invp := (inv w 0 capp).
Lemma nw8 : forall n, (n * w + 7) / 8 = n * (w / 8).
Proof. intro n. replace (n * w) with (8 * (n * (w / 8))) by nia. remember (n * (w / 8)) as x. clear. lia. Qed.
Lemma plain_length : forall l, length (plain_bytes w l) = length l * (w / 8).
Proof. induction l as [|x l IH]; auto. unfold plain_bytes in *. cbn [flat_map length]. rewrite app_length, le_bytes_length, IH. lia. Qed.
Lemma plain_byte : forall l, Forall is_byte (plain_bytes w l).
Proof. induction l as [|x l IH]; [constructor|]. unfold plain_bytes in *. cbn [flat_map]. apply Forall_app. split; auto. apply le_bytes_byte. Qed.
Lemma bbit_plain : forall l p, bbit (plain_bytes w l) p = lbit w l p.
Proof.
  assert (HW : 1 <= w) by lia.
  induction l as [|x l IH]; intro p. { cbn. rewrite bbit_nil, lbit_nil. auto. }
  unfold plain_bytes in *. cbn [flat_map]. rewrite bbit_app, le_bytes_length, bbit_le_bytes, IH. replace (8 * (w / 8)) with w by lia.
  unfold lbit. destruct (Nat.ltb_spec p w) as [P|P]; cbn [andb].
  - rewrite Nat.div_small, Nat.mod_small by auto. reflexivity.
  - replace p with ((p - w) + 1 * w) at 3 4 by lia. rewrite Nat.div_add, Nat.mod_add by lia. rewrite Nat.add_1_r. reflexivity.
Qed.
Lemma close_plain : forall l b, invp l b -> b_close tw b = Some (plain_bytes w l).
Proof.
  intros l b I. unfold b_close. destruct (write_block_ok tw w 0 TW capp capp_ok capp_mono l b I) as (b1 & E1 & I1 & D1 & _). rewrite E1. cbn [obind].
  destruct I1 as [I_buf0 I_beg0 I_off0 I_size0 I_lt0 I_el0 I_byte0 I_file0 I_len0 I_dirty0 I_cap0]. rewrite I_off0. replace (0 <? 0) with false by reflexivity. f_equal.
  assert (L : length (b_file b1) = length l * (w / 8)).
  { unfold capp in I_cap0. rewrite nw8 in *. destruct I_len0 as [X|[X|[X _]]]; [lia| |congruence]. rewrite X in *. lia. }
  apply byte_list_ext; auto using plain_byte. { rewrite plain_length; auto. }
  intro p. rewrite bbit_plain. apply (I_file0 p). auto.
Qed.
Lemma create_plain : forall n, exists b, b_create sr g tw true w n = Some b /\ invp [] b.
Proof.
  intro n. unfold b_create. match goal with |- exists b, b_set_bs sr g tw ?b0 n = Some b /\ _ => destruct (set_bs_core sr g tw w 0 G TW SR capp capp_ok capp_mono [] b0 n) as (b & E & I & _) end; auto.
  - intros [|]; cbn; apply N.neq_0_lt_0, N.pow_nonzero; discriminate.
  - cbn [b_buf]. unfold iv_set_width. cbn. apply set_width_ok; lia.
  - constructor.
  - intro p. cbn [b_file]. rewrite bbit_nil, lbit_nil. auto.
  - exists b. auto.
Qed.
Lemma open_plain : forall l n, (forall i, (nth i l 0 < 2 ^ N.of_nat w)%N) -> exists b, b_open sr g tw true (plain_bytes w l) w n = Some b /\ invp l b.
Proof.
  intros l n LT. unfold b_open. cbn [obind].
  assert (WW : iv_set_width tw (mkiv 0 [] tw) w = mkiv 0 [] w). { unfold iv_set_width. cbn. f_equal. apply set_width_ok; lia. }
  rewrite WW. cbn [iv_width]. rewrite plain_length. replace (length l * (w / 8) * 8) with (length l * w) by nia. rewrite Nat.div_mul by lia.
  match goal with |- exists b, b_set_bs sr g tw ?b0 n = Some b /\ _ => destruct (set_bs_core sr g tw w 0 G TW SR capp capp_ok capp_mono l b0 n) as (b & E & I & _) end; auto; cbn [b_file].
  - apply plain_byte.
  - intro p. rewrite bbit_plain. auto.
  - left. rewrite plain_length, nw8. lia.
  - rewrite plain_length. unfold capp. rewrite nw8. lia.
  - exists b. auto.
Qed.
End Plain.

(** ** whole histories *)
Definition tw_ok (tw w : nat) : Prop := tw = 0 /\ 1 <= w <= 64 \/ 1 <= tw <= 64 /\ w = tw.
Theorem ivb_history : forall sr g tw w B n ops, fresh_ok g -> tw_ok tw w -> sr_ok sr w -> 0 < B -> l_ok w [] ops ->
  exists b b' F v, b_create sr g tw false w n = Some b /\ b_run sr g tw b ops = Some (b', snd (l_run w [] ops)) /\
    b_size b' = length (fst (l_run w [] ops)) /\ b_close tw b' = Some F /\
    iv_ok v /\ iv_width v = w /\ iv_size v = length (fst (l_run w [] ops)) * w /\ reads v (fst (l_run w [] ops)) /\ iv_serialize B tw v false = Some (F, length F).
Proof.
  intros sr g tw w B n ops G TW SR HB OK. destruct (create_ok sr g tw w G TW SR n) as (b & E & I).
  destruct (run_ok sr g tw w (hdr tw) G TW SR (capv w) (capv_ok w) (capv_mono w) ops [] b I OK) as (b' & E' & I').
  destruct (close_ok tw w TW B _ b' HB I') as (F & v & EC & V1 & V2 & V3 & V4 & V5). exists b, b', F, v. repeat (split; auto). apply I'.
Qed.
Theorem ivb_history_open : forall sr g tw w w0 B n ops v0 l0 F0 len, fresh_ok g -> tw_ok tw w -> sr_ok sr w -> 0 < B -> 1 <= w0 <= 64 ->
  iv_ok v0 -> iv_width v0 = w -> whole v0 -> tail_clean v0 -> reads v0 l0 -> (N.of_nat (iv_size v0) < W64)%N -> iv_serialize B tw v0 false = Some (F0, len) ->
  l_ok w l0 ops ->
  exists b b' F v, b_open sr g tw false F0 w0 n = Some b /\ b_run sr g tw b ops = Some (b', snd (l_run w l0 ops)) /\
    b_size b' = length (fst (l_run w l0 ops)) /\ b_close tw b' = Some F /\
    iv_ok v /\ iv_width v = w /\ iv_size v = length (fst (l_run w l0 ops)) * w /\ reads v (fst (l_run w l0 ops)) /\ iv_serialize B tw v false = Some (F, length F).
Proof.
  intros sr g tw w w0 B n ops v0 l0 F0 len G TW SR HB W0 O0 WV WH TC RV SV SE OK. destruct (open_ok sr g tw w G TW SR B v0 l0 w0 n F0 len) as (b & E & I); auto.
  destruct (run_ok sr g tw w (hdr tw) G TW SR (capv w) (capv_ok w) (capv_mono w) ops l0 b I OK) as (b' & E' & I').
  destruct (close_ok tw w TW B _ b' HB I') as (F & v & EC & V1 & V2 & V3 & V4 & V5). exists b, b', F, v. repeat (split; auto). apply I'.
Qed.
Theorem ivb_plain : forall sr g tw w n ops, fresh_ok g -> tw_ok tw w -> sr_ok sr w -> w mod 8 = 0 -> l_ok w [] ops ->
  exists b b', b_create sr g tw true w n = Some b /\ b_run sr g tw b ops = Some (b', snd (l_run w [] ops)) /\
    b_size b' = length (fst (l_run w [] ops)) /\ b_close tw b' = Some (plain_bytes w (fst (l_run w [] ops))).
Proof.
  intros sr g tw w n ops G TW SR W8 OK. destruct (create_plain sr g tw w G TW SR W8 n) as (b & E & I).
  destruct (run_ok sr g tw w 0 G TW SR (capp w) (capp_ok w) (capp_mono w) ops [] b I OK) as (b' & E' & I').
  exists b, b'. repeat (split; auto). { apply I'. } apply close_plain; auto.
Qed.
Theorem ivb_plain_open : forall sr g tw w n ops l0, fresh_ok g -> tw_ok tw w -> sr_ok sr w -> w mod 8 = 0 -> Forall (fun x => (x < 2 ^ N.of_nat w)%N) l0 -> l_ok w l0 ops ->
  exists b b', b_open sr g tw true (plain_bytes w l0) w n = Some b /\ b_run sr g tw b ops = Some (b', snd (l_run w l0 ops)) /\
    b_size b' = length (fst (l_run w l0 ops)) /\ b_close tw b' = Some (plain_bytes w (fst (l_run w l0 ops))).
Proof.
  intros sr g tw w n ops l0 G TW SR W8 LT OK. destruct (open_plain sr g tw w G TW SR W8 l0 n) as (b & E & I).
  { intro i. destruct (nth_in_or_default i l0 0%N) as [IN|D]. { rewrite Forall_forall in LT. auto. } rewrite D. apply N.neq_0_lt_0, N.pow_nonzero; discriminate. }
  destruct (run_ok sr g tw w 0 G TW SR (capp w) (capp_ok w) (capp_mono w) ops l0 b I OK) as (b' & E' & I').
  exists b, b'. repeat (split; auto). { apply I'. } apply close_plain; auto.
Qed.
