(** * The sampling strategies *)
From Coq Require Import List Arith Bool Lia Permutation.
From Verif Require Import Base SpecBits RankSelect AbsVec FnArr WtBase WtProofs SpecCsa Alphabet AlphabetProofs AlphabetProofs2 Csa CsaSample CsaProofs CsaProofs2.
Import ListNotations.

Lemma w_select_some : forall s i c p, is_select (is_sym s c) i p -> p < length s -> w_select s i c = Some p.
Proof.
  intros s i c p H L. unfold w_select. pose proof (is_select_pos _ _ _ H). pose proof (is_select_le_rank _ _ _ _ H L).
  destruct (Nat.eqb_spec i 0); [lia|]. destruct H as [A B]. rewrite nth_error_nth' with (d := 0) by (unfold rank_of in *; lia). f_equal.
  destruct (nth_positions (is_sym s c) (length s) (i - 1) 0) as [[P1 P2] P3]; [unfold rank_of in *; lia|].
  apply (is_select_unique (is_sym s c) i); split; auto; lia.
Qed.
Lemma rank_none : forall f k, (forall j, j < k -> f j = false) -> rank_of f k = 0.
Proof. intros f k H. rewrite (rank_of_all_false f 0 k); [apply rank_of_0|lia|]. intros. apply H. lia. Qed.
(** multiples of d below n *)
Lemma mult_count : forall d m, 0 < d -> rank_of (fun p => p mod d =? 0) m = (m + d - 1) / d.
Proof.
  intros d m D. induction m. { cbn [Nat.add]. rewrite rank_of_0, Nat.div_small; lia. }
  rewrite rank_of_S, IHm. pose proof (Nat.div_mod m d ltac:(lia)) as E. pose proof (Nat.mod_upper_bound m d ltac:(lia)) as U. set (q := m / d) in *. set (r := m mod d) in *.
  destruct (Nat.eqb_spec r 0) as [Z|Z]; cbn [b2nat].
  - replace (m + d - 1) with (d - 1 + q * d) by lia. replace (S m + d - 1) with (0 + (q + 1) * d) by lia. rewrite !Nat.div_add by lia. rewrite (Nat.div_small (d - 1) d), (Nat.div_small 0 d) by lia. lia.
  - replace (m + d - 1) with (r - 1 + (q + 1) * d) by lia. replace (S m + d - 1) with (r + (q + 1) * d) by lia. rewrite !Nat.div_add by lia. rewrite !Nat.div_small by lia. lia.
Qed.
Lemma ceil_lt : forall d m k, 0 < d -> (k < (m + d - 1) / d <-> k * d < m).
Proof.
  intros d m k D. split.
  - intros H. assert (S k <= (m + d - 1) / d) by lia. assert (d * S k <= m + d - 1). { eapply Nat.le_trans; [apply Nat.mul_le_mono_l; eauto|]. apply Nat.mul_div_le. lia. } lia.
  - intros H. assert (S k <= (m + d - 1) / d); [|lia]. apply Nat.div_le_lower_bound; lia.
Qed.
Lemma mod0_div : forall a d, 0 < d -> a mod d = 0 -> a / d * d = a.
Proof. intros a d D H. pose proof (Nat.div_mod a d ltac:(lia)). lia. Qed.
Lemma fits_lt : forall m x, x <= m -> x < 2 ^ (Nat.log2 m + 1).
Proof. intros m x L. destruct m. { replace x with 0 by lia. cbn. lia. } rewrite Nat.add_1_r. pose proof (Nat.log2_spec (S m) ltac:(lia)). lia. Qed.
Lemma wset_len : forall w v i x v', wset w v i x = Some v' -> length v' = length v.
Proof. intros. unfold wset, aset in H. destruct (x <? 2 ^ w); [|discriminate]. destruct (i <? length v); [|discriminate]. injection H as <-. apply upd_length. Qed.
Lemma wset_ok : forall w v i x, x < 2 ^ w -> i < length v -> exists v', wset w v i x = Some v' /\ length v' = length v /\ nth_error v' i = Some x /\ forall j, j <> i -> nth_error v' j = nth_error v j.
Proof.
  intros w v i x X I. unfold wset. replace (x <? 2 ^ w) with true by (symmetry; apply Nat.ltb_lt; auto). rewrite aset_some by auto. eexists. split; [reflexivity|].
  split; [apply upd_length|]. split; [apply nth_error_upd_eq; auto|]. intros. apply nth_error_upd_neq. auto.
Qed.
Lemma sa_split : forall T sa, is_sa T sa -> forall i, i <= n T -> skipn i sa = map (row sa) (seq i (n T - i)).
Proof.
  intros T sa SA i L. rewrite <- (row_map T sa SA) at 1. replace (n T) with (i + (n T - i)) at 1 by lia. rewrite seq_app, map_app, skipn_app, map_length, seq_length, Nat.sub_diag.
  rewrite skipn_all2 by (rewrite map_length, seq_length; lia). auto.
Qed.

(** what the CSAs need of the samplings *)
Definition smp_ok (T sa : list nat) (sm : smp) : Prop :=
  (forall i, i < n T -> exists b, sm_is sm i = Some b /\ (b = true -> sm_at sm i = Some (row sa i))) /\
  exists i, i < n T /\ sm_is sm i = Some true.
Definition qeq_ok (T : list nat) (im : ismp) : Prop :=
  forall i, i < n T -> exists p, p < n T /\ im_qeq im i = Some (isa T p, p).
Definition leq_ok (T : list nat) (im : ismp) : Prop :=
  forall i, i < n T -> exists p, p <= i /\ im_leq im i = Some (isa T p, p).

Section Smp.
Variables (T sa : list nat) (d : nat).
Hypothesis TOK : text_ok T.
Hypothesis SA : is_sa T sa.
Hypothesis D : 0 < d.
Let m := (n T + d - 1) / d.
Lemma sal : length sa = n T. Proof. apply sa_len; auto. Qed.

(** *** suffix order *)
Lemma sao_loop_ok : forall k i cm cs v, i + k = n T -> cm + cs * d = i + d -> 1 <= cm <= d -> length v = m ->
  (forall j, j < cs -> nth_error v j = Some (row sa (j * d))) ->
  exists v', sao_loop (Nat.log2 (n T) + 1) d (map (row sa) (seq i k)) cm cs v = Some v' /\ forall j, j * d < n T -> nth_error v' j = Some (row sa (j * d)).
Proof.
  induction k; intros i cm cs v IK E B LV H; cbn [seq map sao_loop].
  - exists v. split; auto. intros j J. apply H. destruct (Nat.lt_ge_cases j cs) as [|G]; auto. exfalso. pose proof (Nat.mul_le_mono_r _ _ d G). lia.
  - destruct (Nat.eqb_spec d cm) as [EC|EC].
    + assert (CS : cs < m) by (apply ceil_lt; auto; lia).
      destruct (wset_ok (Nat.log2 (n T) + 1) v cs (row sa i)) as (v' & W1 & W2 & W3 & W4); [|lia|].
      { apply fits_lt. pose proof (row_lt T sa SA i ltac:(lia)). lia. }
      rewrite W1. cbn [obind]. apply IHk; auto; try lia. intros j J. destruct (Nat.eq_dec j cs) as [-> | N]. { rewrite W3. f_equal. f_equal. lia. } rewrite W4 by auto. apply H. lia.
    + apply IHk; auto; lia.
Qed.
Theorem sao_ok : exists v, sao_make d sa = Some v /\ smp_ok T sa (sao_smp d v).
Proof.
  unfold sao_make. rewrite sal. 
  destruct (sao_loop_ok (n T) 0 d 0 (repeat 0 m)) as (v & E & H); try lia. { apply repeat_length. }
  rewrite (row_map T sa SA) in E. exists v. split; auto. split.
  - intros i I. cbn [sao_smp sm_is sm_at]. eexists. split; [reflexivity|]. intros Z. apply Nat.eqb_eq in Z. pose proof (mod0_div i d D Z) as X. rewrite H by lia. f_equal. f_equal. auto.
  - exists 0. split. { apply n_pos; auto. } cbn [sao_smp sm_is]. rewrite Nat.mod_0_l by lia. auto.
Qed.

(** *** text order *)
Let f j := row sa j mod d =? 0.
Lemma f_total : rank_of f (n T) = m.
Proof. unfold f, m. rewrite <- (mult_count d) by auto. apply (rank_perm (fun p => p mod d =? 0) (row sa)). apply row_perm; auto. Qed.
Lemma f_lt : forall i, i < n T -> f i = true -> rank_of f i < m.
Proof. intros i I F. rewrite <- f_total. pose proof (rank_of_mono f (S i) (n T) ltac:(lia)) as H. rewrite rank_of_S, F in H. cbn in H. lia. Qed.
Lemma txo_loop_ok : forall k i v, i + k = n T -> length v = m ->
  (forall j, j < i -> f j = true -> nth_error v (rank_of f j) = Some (row sa j / d)) ->
  exists v', txo_loop (Nat.log2 (n T / d) + 1) d (map (row sa) (seq i k)) i (rank_of f i) (farr (n T) (fun j => (j <? i) && f j)) v = Some (farr (n T) f, v') /\ length v' = m /\
    (forall j, j < n T -> f j = true -> nth_error v' (rank_of f j) = Some (row sa j / d)).
Proof.
  induction k; intros i v IK LV H; cbn [seq map txo_loop].
  - exists v. split. { f_equal. f_equal. apply farr_ext. intros j J. replace (j <? i) with true; auto. symmetry. apply Nat.ltb_lt. lia. } split; auto. intros j J. apply H. lia.
  - fold (f i). destruct (f i) eqn:F.
    + rewrite farr_aset by lia. cbn [obind].
      destruct (wset_ok (Nat.log2 (n T / d) + 1) v (rank_of f i) (row sa i / d)) as (v' & W1 & W2 & W3 & W4).
      { apply fits_lt. apply Nat.div_le_mono; [lia|]. pose proof (row_lt T sa SA i ltac:(lia)). lia. } { rewrite LV. apply f_lt; auto. lia. }
      rewrite W1. cbn [obind].
      rewrite (farr_ext _ (n T) _ (fun j => (j <? S i) && f j)).
      2: { intros j J. destruct (Nat.eqb_spec j i) as [-> | N]. { rewrite F. replace (i <? S i) with true; auto. symmetry. apply Nat.ltb_lt. lia. } f_equal. destruct (Nat.ltb_spec j i), (Nat.ltb_spec j (S i)); auto; lia. }
      replace (i + 1) with (S i) by lia. replace (rank_of f i + 1) with (rank_of f (S i)) by (rewrite rank_of_S, F; auto). apply IHk; try lia.
      intros j J FJ. destruct (Nat.eq_dec j i) as [-> | N]; auto. rewrite W4. { apply H; auto. lia. }
      pose proof (rank_of_mono f (S j) i ltac:(lia)) as R. rewrite rank_of_S, FJ in R. cbn in R. lia.
    + rewrite (farr_ext _ (n T) _ (fun j => (j <? S i) && f j)).
      2: { intros j J. destruct (Nat.eq_dec j i) as [-> | N]. { rewrite F, !andb_false_r. auto. } f_equal. destruct (Nat.ltb_spec j i), (Nat.ltb_spec j (S i)); auto; lia. }
      replace (i + 1) with (S i) by lia. replace (rank_of f i) with (rank_of f (S i)) by (rewrite rank_of_S, F; cbn; lia). apply IHk; try lia.
      intros j J FJ. destruct (Nat.eq_dec j i) as [-> | N]; [congruence|]. apply H; auto. lia.
Qed.
Lemma txo_facts : exists v, txo_make d sa = Some (farr (n T) f, v) /\ length v = m /\ (forall j, j < n T -> f j = true -> nth_error v (rank_of f j) = Some (row sa j / d)).
Proof.
  unfold txo_make. rewrite sal.  destruct (txo_loop_ok (n T) 0 (repeat 0 m)) as (v & E & H); try lia. { apply repeat_length. }
  rewrite (row_map T sa SA) in E. exists v. split; auto. rewrite <- E. rewrite farr_repeat. f_equal. 
Qed.
Lemma mark_bit : forall (g : nat -> bool) j, j < n T -> t_bit (farr (n T) g) j = g j.
Proof. intros. unfold t_bit. apply farr_nth. auto. Qed.
Lemma mark_rank : forall (g : nat -> bool) j, j <= n T -> t_rank (farr (n T) g) j = Some (rank_of g j).
Proof. intros. rewrite t_rank_some by (rewrite farr_length; auto). f_equal. apply rank_of_ext. intros. apply mark_bit. lia. Qed.
Lemma mark_sel : forall (g : nat -> bool) j, j < n T -> g j = true -> t_sel1 (farr (n T) g) (rank_of g j + 1) = Some j.
Proof.
  intros. apply t_sel1_some; [|rewrite farr_length; auto]. split. { rewrite mark_bit; auto. } f_equal. apply rank_of_ext. intros. apply mark_bit. lia.
Qed.
Theorem txo_ok : exists mk v, txo_make d sa = Some (mk, v) /\ smp_ok T sa (txo_smp d mk v) /\
  leq_ok T (txi_ismp d mk v) /\ qeq_ok T (txi_ismp d mk v).
Proof.
  destruct txo_facts as (v & E & L & H). exists (farr (n T) f), v. split; auto. split; [split|].
  - intros i I. cbn [txo_smp sm_is sm_at]. exists (f i). split. { rewrite t_get_some by (rewrite farr_length; auto). rewrite mark_bit; auto. }
    intros F. rewrite mark_rank by lia. cbn [obind]. rewrite H by auto. cbn [obind]. f_equal. apply mod0_div; auto. apply Nat.eqb_eq. auto.
  - pose proof (n_pos T TOK) as NP. destruct (row_ex T sa SA 0 NP) as (j & J & Z). exists j. split; auto. cbn [txo_smp sm_is]. rewrite t_get_some by (rewrite farr_length; auto). rewrite mark_bit by auto. f_equal. unfold f. rewrite Z, Nat.mod_0_l by lia. auto.
  - assert (Q : forall ci, ci * d < n T -> (let* k := w_select v 1 ci in let* x := t_sel1 (farr (n T) f) (k + 1) in Some (x, ci * d)) = Some (isa T (ci * d), ci * d)).
    { intros ci C. pose proof (isa_lt T sa SA _ C) as IL. pose proof (row_isa T sa SA _ C) as RI. set (j := isa T (ci * d)) in *.
      assert (FJ : f j = true) by (unfold f; rewrite RI; apply Nat.eqb_eq, Nat.mod_mul; lia).
      assert (X : forall i, i < n T -> f i = true -> (is_sym v ci (rank_of f i) = true <-> i = j)).
      { intros i I F. unfold is_sym. rewrite H by auto. rewrite Nat.eqb_eq. split.
        - intros E'. apply (row_inj T sa SA); auto. rewrite RI. rewrite <- E'. symmetry. apply mod0_div; auto. apply Nat.eqb_eq. auto.
        - intros ->. rewrite RI. apply Nat.div_mul. lia. }
      rewrite (w_select_some v 1 ci (rank_of f j)).
      - cbn [obind]. rewrite mark_sel by auto. reflexivity.
      - split. { apply X; auto. } rewrite rank_none; auto. intros k K. destruct (is_sym v ci k) eqn:Y; auto. exfalso.
        pose proof (rank_of_mono f j (n T) ltac:(lia)). destruct (nth_positions f (n T) k 0) as [[P1 P2] P3]; [unfold rank_of in *; lia|].
        set (i := nth k (positions f (n T)) 0) in *. replace k with (rank_of f i) in Y by lia. apply X in Y; auto. rewrite Y in P2. lia.
      - rewrite L. apply f_lt; auto. }
    split.
    + intros i I. exists (i / d * d). split. { rewrite Nat.mul_comm. apply Nat.mul_div_le. lia. } cbn [txi_ismp im_leq]. apply Q. eapply Nat.le_lt_trans; [|apply I]. rewrite Nat.mul_comm. apply Nat.mul_div_le. lia.
    + intros i I. cbn [txi_ismp im_qeq]. rewrite L. assert (MP : 0 < m) by (apply ceil_lt; auto; lia). destruct (Nat.eqb_spec m 0) as [|MN]; [lia|].
      set (ci := (i / d + 1) mod m). assert (C : ci * d < n T) by (apply ceil_lt; auto; apply Nat.mod_upper_bound; auto). exists (ci * d). split; auto.
Qed.

(** *** ISA samples *)
Lemma iss_loop_ok : forall k i v, i + k = n T -> length v = m -> (forall j, j < i -> f j = true -> nth_error v (row sa j / d) = Some j) ->
  exists v', iss_loop (Nat.log2 (n T) + 1) d (map (row sa) (seq i k)) i v = Some v' /\ length v' = m /\ forall j, j < n T -> f j = true -> nth_error v' (row sa j / d) = Some j.
Proof.
  induction k; intros i v IK LV H; cbn [seq map iss_loop].
  - exists v. split; auto. split; auto. intros. apply H; auto. lia.
  - fold (f i). replace (i + 1) with (S i) by lia. destruct (f i) eqn:F.
    + assert (MD : row sa i / d * d = row sa i) by (apply mod0_div; auto; apply Nat.eqb_eq; auto). pose proof (row_lt T sa SA i ltac:(lia)) as RL.
      destruct (wset_ok (Nat.log2 (n T) + 1) v (row sa i / d) i) as (v' & W1 & W2 & W3 & W4). { apply fits_lt. lia. } { rewrite LV. apply ceil_lt; auto. lia. }
      rewrite W1. cbn [obind]. apply IHk; try lia. intros j J FJ. destruct (Nat.eq_dec j i) as [-> | N]; auto. rewrite W4. { apply H; auto. lia. }
      intros EQ. apply N. apply (row_inj T sa SA); try lia. rewrite <- MD, <- EQ. symmetry. apply mod0_div; auto. apply Nat.eqb_eq. auto.
    + apply IHk; auto; try lia. intros j J FJ. destruct (Nat.eq_dec j i) as [-> | N]; [congruence|]. apply H; auto. lia.
Qed.
Theorem iss_ok : exists v, iss_make d sa = Some v /\ leq_ok T (iss_ismp d v) /\ qeq_ok T (iss_ismp d v).
Proof.
  unfold iss_make. rewrite sal. pose proof (n_pos T TOK) as NP. replace (1 <=? n T) with true by (symmetry; apply Nat.leb_le; lia).
  assert (ME : (n T - 1) / d + 1 = m). { unfold m. replace (n T + d - 1) with (n T - 1 + 1 * d) by lia. rewrite Nat.div_add by lia. auto. }
  rewrite ME.  destruct (iss_loop_ok (n T) 0 (repeat 0 m)) as (v & E & L & H); try lia. { apply repeat_length. }
  rewrite (row_map T sa SA) in E. exists v. split; auto.
  assert (Q : forall ci, ci * d < n T -> nth_error v ci = Some (isa T (ci * d))).
  { intros ci C. pose proof (isa_lt T sa SA _ C) as IL. pose proof (row_isa T sa SA _ C) as RI. rewrite <- (H (isa T (ci * d))); auto.
    - f_equal. rewrite RI. symmetry. apply Nat.div_mul. lia.
    - unfold f. rewrite RI. apply Nat.eqb_eq, Nat.mod_mul. lia. }
  split.
  - intros i I. assert (B : i / d * d <= i) by (rewrite Nat.mul_comm; apply Nat.mul_div_le; lia). exists (i / d * d). split; auto. cbn [iss_ismp im_leq]. rewrite Q by lia. auto.
  - intros i I. cbn [iss_ismp im_qeq]. rewrite L. assert (MP : 0 < m) by (apply ceil_lt; auto; lia). destruct (Nat.eqb_spec m 0) as [|MN]; [lia|].
    set (ci := (i / d + 1) mod m). assert (C : ci * d < n T) by (apply ceil_lt; auto; apply Nat.mod_upper_bound; auto). exists (ci * d). split; auto. rewrite Q by auto. auto.
Qed.

(** *** fuzzy sampling: any choice of one text position per block *)
Variable is : list nat.
Hypothesis IS : is = farr (n T) (isa T).
Lemma is_at : forall p, p < n T -> nth_error is p = Some (isa T p).
Proof. intros. rewrite IS. apply farr_nth_error. auto. Qed.
Lemma fz_scan_ok : forall k lo mpv j pm pc, lo <= pm < n T -> pm < j -> (pc = n T \/ (lo <= pc < n T /\ pc < j)) -> lo <= j ->
  exists pm' pc', fz_scan k is (n T) mpv j pm pc = Some (pm', pc') /\ (lo <= pm' < n T /\ pm' < j + k) /\ (pc' = n T \/ (lo <= pc' < n T /\ pc' < j + k)).
Proof.
  induction k; intros lo mpv j pm pc A A' B J; cbn [fz_scan]. { exists pm, pc. rewrite Nat.add_0_r. auto. }
  destruct (Nat.ltb_spec j (n T)) as [L|L]. 2: { exists pm, pc. split; auto. split; [lia|]. destruct B as [-> | B]; [left; auto|right; lia]. }
  rewrite !is_at by lia. cbn [obind].
  assert (Q : exists pc', (if mpv <=? isa T j then if pc =? n T then Some j else let* z := nth_error is pc in Some (if isa T j <? z then j else pc) else Some pc) = Some pc' /\ (pc' = n T \/ (lo <= pc' < n T /\ pc' < S j))).
  { destruct (mpv <=? isa T j). 2: { exists pc. split; auto. destruct B as [-> | B]; [left; auto|right; lia]. }
    destruct (Nat.eqb_spec pc (n T)) as [PN|PN]. { exists j. split; [reflexivity|]. right. lia. } destruct B as [B|B]; [lia|]. rewrite is_at by lia. cbn [obind]. eexists. split; [reflexivity|]. right. destruct (isa T j <? isa T pc); lia. }
  destruct Q as (pc' & -> & Q). cbn [obind]. destruct (IHk lo mpv (j + 1) (if isa T j <? isa T pm then j else pm) pc') as (a & b & E & E1 & E2).
  - destruct (isa T j <? isa T pm); lia.
  - destruct (isa T j <? isa T pm); lia.
  - destruct Q as [-> | Q]; [left; auto|right; lia].
  - lia.
  - exists a, b. split; auto. split; [lia|]. destruct E2 as [-> | E2]; [left; auto|right; lia].
Qed.

Definition blk (b p : nat) := b * d <= p < b * d + d /\ p < n T.
Definition in_pos (pos : nat -> nat) (k p : nat) : bool := existsb (fun b => pos b =? p) (seq 0 k).
Lemma in_pos_iff : forall pos k p, in_pos pos k p = true <-> exists b, b < k /\ pos b = p.
Proof.
  intros. unfold in_pos. rewrite existsb_exists. split.
  - intros (b & I & E). apply in_seq in I. apply Nat.eqb_eq in E. exists b. split; auto. lia.
  - intros (b & I & E). exists b. split; [apply in_seq; lia|]. apply Nat.eqb_eq. auto.
Qed.
Lemma in_pos_S : forall pos k p, in_pos pos (S k) p = in_pos pos k p || (pos k =? p).
Proof. intros. unfold in_pos. rewrite seq_S, existsb_app. cbn [existsb Nat.add]. rewrite orb_false_r. auto. Qed.
Lemma in_pos_ext : forall pos pos' k p, (forall b, b < k -> pos b = pos' b) -> in_pos pos k p = in_pos pos' k p.
Proof. intros pos pos' k p H. induction k; auto. rewrite !in_pos_S, IHk, H by (auto; intros; apply H; lia). auto. Qed.
Lemma fz_loop_ok : forall f' b mpv pos ip, n T + d <= f' * d + b * d -> b <= m -> (forall c, c < b -> blk c (pos c)) -> length ip = m ->
  (forall c, c < b -> nth_error ip c = Some (isa T (pos c))) ->
  exists pos' ip', fz_loop f' (Nat.log2 (n T) + 1) d is (n T) (b * d) mpv b (farr (n T) (in_pos pos b)) (farr (n T) (fun j => in_pos pos b (row sa j))) ip
     = Some (farr (n T) (in_pos pos' m), farr (n T) (fun j => in_pos pos' m (row sa j)), ip') /\ length ip' = m /\
     (forall c, c < m -> blk c (pos' c)) /\ (forall c, c < m -> nth_error ip' c = Some (isa T (pos' c))).
Proof.
  induction f'; intros b mpv pos ip F BM PB LI IP; cbn [fz_loop].
  - exfalso. destruct (Nat.eq_dec b m) as [-> | N]. 
    + cbn [Nat.mul Nat.add] in F. 
      assert (X : m * d <= n T + d - 1) by (unfold m; rewrite Nat.mul_comm; apply Nat.mul_div_le; lia). lia.
    + assert (b < m) by lia. apply ceil_lt in H; auto. lia.
  - destruct (Nat.ltb_spec (b * d) (n T)) as [L|L].
    2: { assert (b = m). { destruct (Nat.eq_dec b m); auto. exfalso. assert (b < m) by lia. apply ceil_lt in H; auto. lia. } subst b. exists pos, ip. auto. }
    assert (BM' : b < m) by (apply ceil_lt; auto). rewrite is_at by auto. cbn [obind].
    destruct (fz_scan_ok (d - 1) (b * d) mpv (b * d + 1) (b * d) (if mpv <=? isa T (b * d) then b * d else n T)) as (pm & pc & E & E1 & E2); try lia.
    { destruct (mpv <=? isa T (b * d)); [right; lia|left; auto]. }
    rewrite E. cbn [obind]. set (p := if pc =? n T then pm else pc).
    assert (PB' : blk b p). { unfold blk, p. destruct (Nat.eqb_spec pc (n T)); lia. }
    assert (PL : p < n T) by (apply PB'). rewrite is_at by auto. cbn [obind]. rewrite farr_aset by auto. cbn [obind].
    pose proof (isa_lt T sa SA p PL) as IL.
    destruct (wset_ok (Nat.log2 (n T) + 1) ip b (isa T p)) as (ip1 & W1 & W2 & W3 & W4). { apply fits_lt. lia. } { lia. }
    rewrite W1. cbn [obind]. rewrite farr_aset by auto. cbn [obind].
    set (pos1 := fun c => if c =? b then p else pos c).
    assert (P1 : forall c, c < b -> pos1 c = pos c) by (intros c C; unfold pos1; replace (c =? b) with false; auto; symmetry; apply Nat.eqb_neq; lia).
    assert (PB1 : pos1 b = p) by (unfold pos1; rewrite Nat.eqb_refl; auto).
    destruct (IHf' (S b) (isa T p) pos1 ip1) as (pos' & ip' & R & R').
    + cbn [Nat.mul] in F |- *. lia.
    + lia.
    + intros c C. destruct (Nat.eq_dec c b) as [-> | N]. { rewrite PB1. auto. } rewrite P1 by lia. apply PB. lia.
    + lia.
    + intros c C. destruct (Nat.eq_dec c b) as [-> | N]. { rewrite PB1. auto. } rewrite P1 by lia. rewrite W4 by auto. apply IP. lia.
    + exists pos', ip'. split; auto. rewrite <- R. replace (b * d + d) with (S b * d) by (cbn [Nat.mul]; lia). replace (b + 1) with (S b) by lia.
      rewrite (farr_ext _ (n T) (fun j => if j =? p then true else in_pos pos b j) (in_pos pos1 (S b))).
      rewrite (farr_ext _ (n T) (fun j => if j =? isa T p then true else in_pos pos b (row sa j)) (fun j => in_pos pos1 (S b) (row sa j))); auto.
      * intros j J. rewrite in_pos_S, PB1, (in_pos_ext pos1 pos b) by auto. destruct (Nat.eqb_spec j (isa T p)) as [-> | N].
        { rewrite row_isa, Nat.eqb_refl by auto. symmetry. apply orb_true_r. } replace (p =? row sa j) with false; [symmetry; apply orb_false_r|]. symmetry. apply Nat.eqb_neq. intros ->. apply N. symmetry. apply isa_row; auto.
      * intros j J. rewrite in_pos_S, PB1, (in_pos_ext pos1 pos b) by auto. rewrite (Nat.eqb_sym p j). destruct (j =? p); [symmetry; apply orb_true_r|symmetry; apply orb_false_r].
Qed.
Lemma fz_ranks_ok : forall g ip, (forall x, In x ip -> x <= n T) -> fz_ranks (farr (n T) g) ip = Some (map (rank_of g) ip).
Proof. induction ip; intros H; auto. cbn [fz_ranks map]. rewrite mark_rank by (apply H; left; auto). cbn [obind]. rewrite IHip by (intros; apply H; right; auto). auto. Qed.

Lemma fz_facts : exists pos z, fz_make d is = Some z /\ (forall c, c < m -> blk c (pos c)) /\
  fz_misa z = farr (n T) (in_pos pos m) /\ fz_msa z = farr (n T) (fun j => in_pos pos m (row sa j)) /\
  length (fz_ip z) = m /\ forall c, c < m -> nth_error (fz_ip z) c = Some (rank_of (fun j => in_pos pos m (row sa j)) (isa T (pos c))).
Proof.
  unfold fz_make. assert (LI : length is = n T) by (rewrite IS; apply farr_length). rewrite LI.
  destruct (fz_loop_ok (S (n T)) 0 0 (fun _ => 0) (repeat 0 m)) as (pos & ip & E & E1 & E2 & E3); try lia.
  { cbn [Nat.mul]. pose proof (Nat.mul_le_mono_l 1 d (n T) ltac:(lia)). lia. } { apply repeat_length. }
  exists pos. cbn [Nat.mul] in E. rewrite !farr_repeat.
  change (farr (n T) (in_pos (fun _ => 0) 0)) with (farr (n T) (fun _ => false)) in E. change (farr (n T) (fun j => in_pos (fun _ => 0) 0 (row sa j))) with (farr (n T) (fun _ => false)) in E.
  fold m. rewrite farr_repeat in E. change (0 * d) with 0 in E. rewrite E. cbn [obind]. rewrite fz_ranks_ok.
  2: { intros x X. apply In_nth_error in X. destruct X as (c & X). assert (c < m) by (rewrite <- E1; apply nth_error_Some; congruence). rewrite E3 in X by auto. injection X as <-. pose proof (isa_lt T sa SA (pos c) (proj2 (E2 c H))). lia. }
  cbn [obind]. eexists. split; [reflexivity|]. cbn [fz_misa fz_msa fz_ip]. split; auto. split; auto. split; auto. split. { rewrite map_length. auto. }
  intros c C. erewrite map_nth_error; eauto.
Qed.
Lemma blk_rank : forall pos, (forall c, c < m -> blk c (pos c)) -> forall c, c < m -> rank_of (in_pos pos m) (pos c) = c.
Proof.
  intros pos H. assert (INC : forall a b, a < b < m -> pos a < pos b).
  { intros a b AB. pose proof (H a ltac:(lia)) as [A _]. pose proof (H b ltac:(lia)) as [B _]. pose proof (Nat.mul_le_mono_r (S a) b d ltac:(lia)). cbn [Nat.mul] in *. lia. }
  assert (G : forall c y, c < m -> y <= pos c -> (forall b, b < c -> pos b < y) -> rank_of (in_pos pos m) y = c).
  { induction c; intros y C Y B.
    - apply rank_none. intros p P. apply not_true_is_false. intros X. apply in_pos_iff in X. destruct X as (b & Bm & E). destruct b; [lia|]. pose proof (INC 0 (S b) ltac:(lia)). lia.
    - pose proof (IHc (pos c) ltac:(lia) ltac:(lia) (fun b Hb => INC b c ltac:(lia))) as R. pose proof (B c ltac:(lia)) as B'.
      replace y with (S (pos c) + (y - S (pos c))) by lia. rewrite rank_of_add, rank_of_S, R. replace (in_pos pos m (pos c)) with true by (symmetry; apply in_pos_iff; exists c; split; auto; lia). cbn [b2nat].
      rewrite rank_none; [lia|]. intros p P. apply not_true_is_false. intros X. apply in_pos_iff in X. destruct X as (b & Bm & E).
      destruct (Nat.lt_trichotomy b c) as [Q|[Q|Q]]. { pose proof (INC b c ltac:(lia)). lia. } { subst. lia. }
      destruct (Nat.eq_dec b (S c)) as [-> | N]. { lia. } pose proof (INC (S c) b ltac:(lia)). lia. }
  intros c C. apply G; auto.
Qed.
Theorem fz_ok : exists z, fz_make d is = Some z /\ smp_ok T sa (fz_smp z) /\ qeq_ok T (fz_ismp d z).
Proof.
  destruct fz_facts as (pos & z & E & B & E1 & E2 & E3 & E4). exists z. split; auto.
  set (g := fun j => in_pos pos m (row sa j)) in *. pose proof (n_pos T TOK) as NP. assert (MP : 0 < m) by (apply ceil_lt; auto; lia).
  assert (GI : forall c, c < m -> g (isa T (pos c)) = true /\ isa T (pos c) < n T /\ pos c < n T).
  { intros c C. pose proof (B c C) as [_ L]. split; [|split; auto; apply (isa_lt T sa SA); auto]. unfold g. rewrite row_isa by auto. apply in_pos_iff. exists c. auto. }
  assert (SI : forall c, c < m -> t_sel1 (fz_misa z) (c + 1) = Some (pos c)).
  { intros c C. rewrite E1. rewrite <- (blk_rank pos B c C) at 1. apply mark_sel. { apply GI; auto. } apply in_pos_iff. exists c. auto. }
  assert (SO : forall c, c < m -> fz_out z c (pos c) = Some (isa T (pos c), pos c)).
  { intros c C. unfold fz_out. rewrite E4 by auto. cbn [obind]. rewrite E2. destruct (GI c C) as (G1 & G2 & _). rewrite mark_sel by auto. auto. }
  split; [split|].
  - intros i I. cbn [fz_smp sm_is sm_at]. exists (g i). rewrite E2. split. { rewrite t_get_some by (rewrite farr_length; auto). rewrite mark_bit; auto. }
    intros G. rewrite mark_rank by lia. cbn [obind]. pose proof G as G'. unfold g in G'. apply in_pos_iff in G'. destruct G' as (c & C & PC).
    assert (IE : isa T (pos c) = i) by (rewrite PC; apply isa_row; auto).
    rewrite (w_select_some (fz_ip z) 1 (rank_of g i) c).
    + cbn [obind]. rewrite SI by auto. rewrite PC. auto.
    + split. { unfold is_sym. rewrite E4 by auto. fold g. rewrite IE. apply Nat.eqb_refl. }
      rewrite rank_none; auto. intros b Bc. unfold is_sym. rewrite E4 by lia. apply Nat.eqb_neq. intros X. fold g in X. destruct (GI b ltac:(lia)) as (G1 & G2 & G3).
      assert (isa T (pos b) = i). { apply (is_select_unique g (rank_of g i + 1)); split; auto. }
      assert (pos b = pos c). { rewrite PC, <- H, row_isa; auto. }
      pose proof (blk_rank pos B b ltac:(lia)) as R1. pose proof (blk_rank pos B c C) as R2. rewrite H0 in R1. lia.
    + lia.
  - exists (isa T (pos 0)). destruct (GI 0 MP) as (G1 & G2 & _). split; auto. cbn [fz_smp sm_is]. rewrite E2, t_get_some by (rewrite farr_length; auto). rewrite mark_bit; auto. f_equal. auto.
  - intros i I. cbn [fz_ismp im_qeq]. set (ci := i / d). assert (C : ci < m). { apply ceil_lt; auto. unfold ci. pose proof (Nat.mul_div_le i d ltac:(lia)). lia. }
    rewrite SI by auto. cbn [obind]. destruct (pos ci <? i).
    + rewrite E3. rewrite csub_le by lia. cbn [obind]. set (ci' := if ci <? m - 1 then ci + 1 else 0).
      assert (C' : ci' < m) by (unfold ci'; destruct (Nat.ltb_spec ci (m - 1)); lia). rewrite SI by auto. cbn [obind]. exists (pos ci'). split; auto. apply GI; auto.
    + exists (pos ci). split; auto. apply GI; auto.
Qed.
End Smp.
