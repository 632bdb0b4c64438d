(** * Bytes, files and words *)
From Coq Require Import NArith ZArith List Bool Arith Lia.
From Verif Require Import Base Bits SpecBits IntVector SpecIntVector IntVectorProofs IntVectorProofs2 IntVectorProofs3 IvBuffer SpecIvb.
Import ListNotations.

Definition is_byte (x : N) : Prop := (x < 256)%N.
Definition bbit (l : list N) (p : nat) : bool := tb (nth (p / 8) l 0%N) (p mod 8).

Lemma tb_byte_high : forall x k, is_byte x -> 8 <= k -> tb x k = false.
Proof. intros x k B H. apply (tb_high x 8); auto. Qed.
Lemma bbit_cons : forall b t p, bbit (b :: t) p = if p <? 8 then tb b p else bbit t (p - 8).
Proof.
  intros. unfold bbit. destruct (Nat.ltb_spec p 8).
  - rewrite Nat.div_small, Nat.mod_small by auto. reflexivity.
  - replace (p / 8) with (S ((p - 8) / 8)) by lia. replace (p mod 8) with ((p - 8) mod 8) by lia. reflexivity.
Qed.
Lemma bbit_nil : forall p, bbit [] p = false. Proof. intros. unfold bbit. destruct (p / 8); apply tb_0. Qed.
Lemma tb_byte_add : forall b t p, is_byte b -> tb (b + 256 * t)%N p = if p <? 8 then tb b p else tb t (p - 8).
Proof.
  intros b t p B. unfold tb.
  assert (E : (b + 256 * t = N.lor b (N.shiftl t 8))%N).
  { rewrite <- N.lxor_lor, <- N.add_nocarry_lxor; [rewrite N.shiftl_mul_pow2; change (2 ^ 8)%N with 256%N; lia| |];
    (apply N.bits_inj; intro k; rewrite N.land_spec, N.bits_0; destruct (N.lt_ge_cases k 8);
     [rewrite N.shiftl_spec_low by auto; apply andb_false_r |
      replace (N.testbit b k) with false; auto; symmetry; pose proof (tb_byte_high b (N.to_nat k) B ltac:(lia)) as T; unfold tb in T; rewrite N2Nat.id in T; auto]). }
  rewrite E, N.lor_spec. destruct (Nat.ltb_spec p 8).
  - rewrite N.shiftl_spec_low by lia. apply orb_false_r.
  - pose proof (tb_byte_high b p B ltac:(lia)) as T. unfold tb in T. rewrite T. cbn [orb]. rewrite N.shiftl_spec_high by lia. f_equal. lia.
Qed.
Lemma tb_le_val : forall l p, Forall is_byte l -> tb (le_val l) p = bbit l p.
Proof.
  induction l as [|b t IH]; intros p F. { cbn [le_val]. rewrite bbit_nil. apply tb_0. }
  inversion F; subst. cbn [le_val]. rewrite tb_byte_add, bbit_cons by auto. destruct (p <? 8); auto.
Qed.
Lemma le_bytes_byte : forall n x, Forall is_byte (le_bytes n x).
Proof. induction n; intros; cbn [le_bytes]; constructor; auto. apply N.mod_lt. discriminate. Qed.
Lemma bbit_le_bytes : forall n x p, bbit (le_bytes n x) p = (p <? 8 * n) && tb x p.
Proof.
  induction n as [|n IH]; intros x p; cbn [le_bytes]. { rewrite bbit_nil. destruct (Nat.ltb_spec p (8 * 0)); auto. lia. }
  rewrite bbit_cons, IH. unfold tb.
  destruct (Nat.ltb_spec p 8).
  - replace (p <? 8 * S n) with true by (symmetry; apply Nat.ltb_lt; lia). change 256%N with (2 ^ 8)%N. rewrite N.mod_pow2_bits_low by lia. reflexivity.
  - replace (p - 8 <? 8 * n) with (p <? 8 * S n) by (destruct (Nat.ltb_spec p (8 * S n)); destruct (Nat.ltb_spec (p - 8) (8 * n)); auto; lia). f_equal.
    change 256%N with (2 ^ 8)%N. rewrite N.div_pow2_bits. f_equal. lia.
Qed.
Lemma bbit_app : forall a b p, bbit (a ++ b) p = if p <? 8 * length a then bbit a p else bbit b (p - 8 * length a).
Proof.
  intros a b p. unfold bbit. destruct (Nat.ltb_spec p (8 * length a)).
  - rewrite app_nth1; auto. apply Nat.div_lt_upper_bound; lia.
  - rewrite app_nth2 by (apply Nat.div_le_lower_bound; lia). f_equal; [f_equal|]; lia.
Qed.
Lemma mem_bytes_length : forall m, length (mem_bytes m) = 8 * length m. Proof. apply wbytes_length. Qed.
Lemma mem_bytes_byte : forall m, Forall is_byte (mem_bytes m).
Proof. induction m as [|x m IH]; cbn [mem_bytes flat_map]; auto. apply Forall_app. split; auto. apply le_bytes_byte. Qed.
Lemma bbit_mem_bytes : forall m p, bbit (mem_bytes m) p = mbit m p.
Proof.
  induction m as [|x m IH]; intro p. { cbn. rewrite bbit_nil, mbit_out; auto. cbn; lia. }
  cbn [mem_bytes flat_map]. rewrite bbit_app, le_bytes_length. rewrite bbit_le_bytes. fold (mem_bytes m). rewrite IH. unfold mbit.
  destruct (Nat.ltb_spec p (8 * 8)); cbn [andb].
  - rewrite Nat.div_small, Nat.mod_small by lia. reflexivity.
  - replace (p / 64) with (S ((p - 8 * 8) / 64)) by lia. replace (p mod 64) with ((p - 8 * 8) mod 64) by lia. reflexivity.
Qed.
Lemma bbit_out : forall l p, 8 * length l <= p -> bbit l p = false.
Proof. intros. unfold bbit. rewrite nth_overflow; [apply tb_0|]. apply Nat.div_le_lower_bound; lia. Qed.
Lemma Forall_firstn' : forall A (P : A -> Prop) n l, Forall P l -> Forall P (firstn n l).
Proof. intros A P n l F. rewrite <- (firstn_skipn n l) in F. apply Forall_app in F. apply F. Qed.
Lemma Forall_skipn' : forall A (P : A -> Prop) n l, Forall P l -> Forall P (skipn n l).
Proof. intros A P n l F. rewrite <- (firstn_skipn n l) in F. apply Forall_app in F. apply F. Qed.
Lemma bbit_firstn : forall n l p, bbit (firstn n l) p = (p <? 8 * n) && bbit l p.
Proof.
  intros n l p. destruct (Nat.ltb_spec p (8 * n)); cbn [andb].
  - destruct (le_lt_dec (8 * length l) p). { rewrite !bbit_out; auto. rewrite firstn_length. lia. }
    unfold bbit. rewrite <- (firstn_skipn n l) at 2. rewrite app_nth1; auto. rewrite firstn_length. apply Nat.div_lt_upper_bound; lia.
  - apply bbit_out. rewrite firstn_length. lia.
Qed.
Lemma bbit_skipn : forall n l p, bbit (skipn n l) p = bbit l (8 * n + p).
Proof.
  intros n l p. destruct (le_lt_dec (length l) n).
  - rewrite skipn_all2 by auto. rewrite bbit_nil, bbit_out; auto. lia.
  - rewrite <- (firstn_skipn n l) at 2. rewrite bbit_app, firstn_length. replace (8 * Nat.min n (length l)) with (8 * n) by lia.
    destruct (Nat.ltb_spec (8 * n + p) (8 * n)); [lia|]. f_equal. lia.
Qed.
Lemma to_words_length : forall l, length (to_words l) = length l / 8.
Proof. intros. unfold to_words. rewrite map_length, seq_length. auto. Qed.
Lemma to_words_ok : forall l, Forall is_byte l -> words_ok (to_words l).
Proof.
  intros l F. unfold to_words, words_ok. apply Forall_forall. intros x H. apply in_map_iff in H. destruct H as (i & <- & _).
  unfold is_word. rewrite W64_pow. change 64%N with (N.of_nat 64). apply tb_lt_pow2. intros k K. rewrite tb_le_val by (apply Forall_firstn', Forall_skipn'; auto).
  apply bbit_out. rewrite firstn_length. lia.
Qed.
Lemma mbit_to_words : forall l p, Forall is_byte l -> length l mod 8 = 0 -> mbit (to_words l) p = bbit l p.
Proof.
  intros l p F M. destruct (le_lt_dec (8 * length l) p). { rewrite bbit_out, mbit_out; auto. rewrite to_words_length. lia. }
  unfold mbit, to_words. rewrite nth_map_seq by lia. rewrite tb_le_val by (apply Forall_firstn', Forall_skipn'; auto).
  rewrite bbit_firstn, bbit_skipn. replace (p mod 64 <? 8 * 8) with true by (symmetry; apply Nat.ltb_lt; lia). cbn [andb]. f_equal. lia.
Qed.
Lemma byte_list_ext : forall a b, Forall is_byte a -> Forall is_byte b -> length a = length b -> (forall p, bbit a p = bbit b p) -> a = b.
Proof.
  intros a b FA FB L E. apply list_nth_ext with 0%N; auto. intros i Hi. apply tb_ext. intro k.
  rewrite Forall_forall in FA, FB. destruct (le_lt_dec 8 k).
  - rewrite !tb_byte_high; auto; [apply FB, nth_In; lia | apply FA, nth_In; lia].
  - specialize (E (8 * i + k)). unfold bbit in E. replace ((8 * i + k) / 8) with i in E by lia. replace ((8 * i + k) mod 8) with k in E by lia. auto.
Qed.

(** ** file operations *)
Lemma f_put_spec : forall F pos bs, Forall is_byte F -> Forall is_byte bs -> bs <> [] ->
  Forall is_byte (f_put F pos bs) /\ length (f_put F pos bs) = Nat.max (length F) (pos + length bs) /\
  forall p, bbit (f_put F pos bs) p = if (8 * pos <=? p) && (p <? 8 * (pos + length bs)) then bbit bs (p - 8 * pos) else bbit F p.
Proof.
  intros F pos bs HF HB NE. unfold f_put. destruct bs as [|b0 bt] eqn:EB; [contradiction|]. rewrite <- EB in *. clear EB.
  assert (LP : length (firstn pos (F ++ repeat 0%N (pos - length F))) = pos).
  { rewrite firstn_length, app_length, repeat_length. lia. }
  split; [|split].
  - apply Forall_app. split; [|apply Forall_app; split; auto; apply Forall_skipn'; auto].
    apply Forall_firstn', Forall_app. split; auto. apply Forall_forall. intros x H. apply repeat_spec in H. subst. reflexivity.
  - rewrite !app_length, LP, skipn_length. lia.
  - intro p. rewrite bbit_app, LP, bbit_app. destruct (Nat.leb_spec (8 * pos) p) as [G|G]; cbn [andb].
    + replace (p <? 8 * pos) with false by (symmetry; apply Nat.ltb_ge; lia).
      destruct (Nat.ltb_spec p (8 * (pos + length bs))).
      * replace (p - 8 * pos <? 8 * length bs) with true by (symmetry; apply Nat.ltb_lt; lia). auto.
      * replace (p - 8 * pos <? 8 * length bs) with false by (symmetry; apply Nat.ltb_ge; lia). rewrite bbit_skipn. f_equal. lia.
    + replace (p <? 8 * pos) with true by (symmetry; apply Nat.ltb_lt; lia). rewrite bbit_firstn. replace (p <? 8 * pos) with true by (symmetry; apply Nat.ltb_lt; lia).
      cbn [andb]. rewrite bbit_app. destruct (Nat.ltb_spec p (8 * length F)); auto. rewrite (bbit_out F) by lia.
      unfold bbit. destruct (nth_in_or_default ((p - 8 * length F) / 8) (repeat 0%N (pos - length F)) 0%N) as [I|E]; [apply repeat_spec in I; rewrite I|rewrite E]; apply tb_0.
Qed.
Lemma f_write_spec : forall F pos m nb, Forall is_byte F -> 0 < nb -> nb <= 8 * length m -> exists F', f_write F pos m nb = Some F' /\
  Forall is_byte F' /\ length F' = Nat.max (length F) (pos + nb) /\
  forall p, bbit F' p = if (8 * pos <=? p) && (p <? 8 * (pos + nb)) then mbit m (p - 8 * pos) else bbit F p.
Proof.
  intros F pos m nb HF N0 HN. unfold f_write. replace (nb <=? 8 * length m) with true by (symmetry; apply Nat.leb_le; auto).
  eexists. split; [reflexivity|].
  assert (L : length (firstn nb (mem_bytes m)) = nb) by (rewrite firstn_length, mem_bytes_length; lia).
  destruct (f_put_spec F pos (firstn nb (mem_bytes m)) HF) as (A & B & C).
  { apply Forall_firstn', mem_bytes_byte. } { intro E. rewrite E in L. cbn in L. lia. }
  rewrite L in *. split; auto. split; auto. intro p. rewrite C. destruct ((8 * pos <=? p) && (p <? 8 * (pos + nb))) eqn:E; auto.
  rewrite bbit_firstn, bbit_mem_bytes. replace (p - 8 * pos <? 8 * nb) with true; auto. symmetry. apply Nat.ltb_lt. lia.
Qed.
Lemma f_read_spec : forall F pos m nb, Forall is_byte F -> words_ok m -> nb <= 8 * length m -> exists m', f_read F pos m nb = Some m' /\
  words_ok m' /\ length m' = length m /\
  forall p, p < 8 * nb -> 8 * pos + p < 8 * length F -> mbit m' p = bbit F (8 * pos + p).
Proof.
  intros F pos m nb HF HM HN. unfold f_read. replace (nb <=? 8 * length m) with true by (symmetry; apply Nat.leb_le; auto).
  eexists. split; [reflexivity|]. remember (firstn nb (skipn pos F)) as got eqn:EG.
  assert (LG : length got <= 8 * length m) by (subst got; rewrite firstn_length; lia).
  assert (LL : length (got ++ skipn (length got) (mem_bytes m)) = 8 * length m) by (rewrite app_length, skipn_length, mem_bytes_length; lia).
  assert (FF : Forall is_byte (got ++ skipn (length got) (mem_bytes m))).
  { apply Forall_app. split; [subst got; apply Forall_firstn', Forall_skipn'; auto | apply Forall_skipn', mem_bytes_byte]. }
  split; [apply to_words_ok; auto|]. split. { rewrite to_words_length, LL. lia. }
  intros p P1 P2. rewrite mbit_to_words; auto; [|rewrite LL; lia]. rewrite bbit_app.
  assert (LT : p < 8 * length got). { subst got. rewrite firstn_length, skipn_length. lia. }
  replace (p <? 8 * length got) with true by (symmetry; apply Nat.ltb_lt; auto). subst got. rewrite bbit_firstn, bbit_skipn.
  replace (p <? 8 * nb) with true by (symmetry; apply Nat.ltb_lt; auto). reflexivity.
Qed.

(** ** bits of a list of w-bit integers *)
Definition lbit (w : nat) (l : list N) (p : nat) : bool := tb (nth (p / w) l 0%N) (p mod w).
Lemma lbit_out : forall w l p, 0 < w -> length l * w <= p -> lbit w l p = false.
Proof. intros. unfold lbit. rewrite nth_overflow; [apply tb_0|]. apply Nat.div_le_lower_bound; lia. Qed.
Lemma lbit_at : forall w l i k, k < w -> lbit w l (i * w + k) = tb (nth i l 0%N) k.
Proof. intros. unfold lbit. rewrite Nat.div_add_l by lia. rewrite Nat.div_small by auto. rewrite (Nat.add_comm (i * w)), Nat.mod_add by lia. rewrite Nat.mod_small by auto. rewrite Nat.add_0_r. auto. Qed.
Lemma divmod_w : forall w p, 0 < w -> exists i k, p = i * w + k /\ k < w.
Proof. intros. exists (p / w), (p mod w). split; [rewrite Nat.mul_comm; apply Nat.div_mod; lia | apply Nat.mod_upper_bound; lia]. Qed.
(** a vector shows the elements f exactly if its bits are the bits of f *)
Lemma elems_bits : forall v n (f : nat -> N), iv_ok v -> iv_len v = n -> (forall i, i < n -> (f i < 2 ^ N.of_nat (iv_width v))%N) ->
  ((forall i, i < n -> nth i (elems v) 0%N = f i) <->
   (forall i k, i < n -> k < iv_width v -> mbit (iv_data v) (i * iv_width v + k) = tb (f i) k)).
Proof.
  intros v n f O L B. split.
  - intros H i k Hi Hk. rewrite <- H by auto. rewrite nth_elems by lia. rewrite tb_field. replace (k <? iv_width v) with true by (symmetry; apply Nat.ltb_lt; auto). auto.
  - intros H i Hi. rewrite nth_elems by lia. apply tb_ext. intro k. rewrite tb_field. destruct (Nat.ltb_spec k (iv_width v)) as [K|K]; cbn [andb].
    + auto. + symmetry. apply (tb_high _ (iv_width v)); auto.
Qed.
