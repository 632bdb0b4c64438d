(** * k2_tree: the level order of the tree and the queries *)
From Coq Require Import List Arith Bool Lia NArith.
From Verif Require Import Base SpecBits RankSelect AbsVec WtBase WtProofs SpecK2 K2Tree.
Import ListNotations.

Definition cntT (l : list bool) : nat := length (filter (fun b => b) l).
Lemma cntT_app : forall a b, cntT (a ++ b) = cntT a + cntT b.
Proof. intros. unfold cntT. rewrite filter_app, app_length. auto. Qed.
Lemma rank_cntT : forall V i, i <= length V -> rank_of (t_bit V) i = cntT (firstn i V).
Proof.
  intros V i. induction i as [|i IH]; intros I; [apply rank_of_0|]. rewrite rank_of_S, IH by lia. assert (E : firstn (S i) V = firstn i V ++ [t_bit V i]).
  { unfold t_bit. rewrite <- (firstn_skipn i V) at 1. rewrite firstn_app. rewrite firstn_firstn. replace (Nat.min (S i) i) with i by lia. f_equal. rewrite firstn_length. replace (S i - Nat.min i (length V)) with 1 by lia. destruct (skipn i V) as [|b l] eqn:Q. { apply (f_equal (@length bool)) in Q. rewrite skipn_length in Q. cbn in Q. lia. } cbn [firstn]. f_equal. rewrite <- (firstn_skipn i V). rewrite app_nth2; rewrite firstn_length; [|lia]. replace (i - Nat.min i (length V)) with 0 by lia. rewrite Q. auto. }
  rewrite E, cntT_app. unfold cntT at 2. cbn [filter]. destruct (t_bit V i); auto.
Qed.
Lemma filter_at : forall {A} (f : A -> bool) L i l, nth_error L i = Some l -> f l = true -> nth_error (filter f L) (length (filter f (firstn i L))) = Some l.
Proof. induction L as [|a L IH]; intros [|i] l E F; cbn in E; try discriminate. { injection E as ->. cbn [filter firstn]. rewrite F. auto. } cbn [filter firstn]. destruct (f a); cbn [length nth_error]; auto. Qed.
Lemma filter_map_len : forall {A} (f : A -> bool) l, length (filter (fun b => b) (map f l)) = length (filter f l).
Proof. induction l as [|a l IH]; auto. cbn [map filter]. destruct (f a); cbn [length]; auto. Qed.
Lemma fm_nth : forall {A B} (f : A -> list B) w l m it x, (forall a, length (f a) = w) -> nth_error l m = Some x -> it < w -> nth_error (flat_map f l) (w * m + it) = nth_error (f x) it.
Proof.
  intros A B f w l. induction l as [|a l IH]; intros m it x W E I; [destruct m; discriminate|]. cbn [flat_map]. destruct m as [|m]; cbn in E.
  - injection E as ->. rewrite Nat.mul_0_r. cbn [Nat.add]. apply nth_error_app1. rewrite W. auto.
  - rewrite nth_error_app2; rewrite W; [|lia]. replace (w * S m + it - w) with (w * m + it) by lia. apply IH; auto.
Qed.
Lemma fm_len : forall {A B} (f : A -> list B) w l, (forall a, length (f a) = w) -> length (flat_map f l) = w * length l.
Proof. intros A B f w l W. induction l as [|a l IH]; cbn [flat_map length]; [lia|]. rewrite app_length, W, IH. lia. Qed.
Lemma seq_blocks : forall n k a, flat_map (fun j => seq (a + n * j) n) (seq 0 k) = seq a (n * k).
Proof.
  intros n k a. assert (H : forall b, flat_map (fun j => seq (a + n * j) n) (seq b k) = seq (a + n * b) (n * k)). { induction k as [|k IH]; intros b; cbn [seq flat_map]. { rewrite Nat.mul_0_r. auto. } rewrite IH. replace (n * S k) with (n + n * k) by lia. rewrite seq_app. f_equal. f_equal. lia. }
  rewrite H. f_equal. lia.
Qed.

Section K.
Variable P : nat -> nat -> bool.
Variable k : nat.
Hypothesis K : 1 < k.
Definition ne (d : nat) (rc : nat * nat) : bool := existsb (fun x => existsb (P x) (seq (snd rc) (k ^ d))) (seq (fst rc) (k ^ d)).
Definition chd (d : nat) (rc : nat * nat) (it : nat) : nat * nat := (fst rc + it / k * k ^ d, snd rc + it mod k * k ^ d).
Definition chs (d : nat) (rc : nat * nat) : list (nat * nat) := map (chd d rc) (seq 0 (k * k)).
Definition allch d cs := flat_map (chs d) cs.
Definition bits d cs := map (ne d) (allch d cs).
Definition next d cs := filter (ne d) (allch d cs).
Fixpoint tbits d cs := match d with 0 => [] | S d' => bits d cs ++ tbits d' (next d cs) end.
Fixpoint lbits d cs := match d with 0 => bits 0 cs | S d' => lbits d' (next d cs) end.

Lemma ne_iff : forall d r c, ne d (r, c) = true <-> exists x y, r <= x < r + k ^ d /\ c <= y < c + k ^ d /\ P x y = true.
Proof.
  intros d r c. unfold ne. cbn [fst snd]. rewrite existsb_exists. split.
  - intros (x & X & E). apply existsb_exists in E. destruct E as (y & Y & E). apply in_seq in X, Y. exists x, y. auto.
  - intros (x & y & X & Y & E). exists x. split. { apply in_seq. lia. } apply existsb_exists. exists y. split; auto. apply in_seq. lia.
Qed.
Lemma ne_false : forall d r c x y, ne d (r, c) = false -> x < k ^ d -> y < k ^ d -> P (r + x) (c + y) = false.
Proof. intros d r c x y E X Y. destruct (P (r + x) (c + y)) eqn:Q; auto. assert (ne d (r, c) = true). { apply ne_iff. exists (r + x), (c + y). repeat split; auto; lia. } congruence. Qed.
Lemma ne0 : forall r c, ne 0 (r, c) = P r c.
Proof. intros. unfold ne. cbn. rewrite !orb_false_r. auto. Qed.
Lemma kpos : forall d, 0 < k ^ d. Proof. intros. pose proof (Nat.pow_nonzero k d). lia. Qed.
Lemma chs_len : forall d rc, length (chs d rc) = k * k.
Proof. intros. unfold chs. rewrite map_length, seq_length. auto. Qed.
Lemma bits_len : forall d cs, length (bits d cs) = k * k * length cs.
Proof. intros. unfold bits, allch. rewrite map_length. apply fm_len. apply chs_len. Qed.
Lemma chs_nth : forall d rc it, it < k * k -> nth_error (chs d rc) it = Some (chd d rc it).
Proof. intros d rc it I. unfold chs. rewrite nth_error_map. rewrite (nth_error_nth' _ 0) by (rewrite seq_length; auto). rewrite seq_nth by auto. auto. Qed.
Lemma allch_nth : forall d cs m rc it, nth_error cs m = Some rc -> it < k * k -> nth_error (allch d cs) (k * k * m + it) = Some (chd d rc it).
Proof. intros. unfold allch. rewrite (fm_nth _ (k * k) cs m it rc); auto. { apply chs_nth. auto. } apply chs_len. Qed.
Lemma bits_nth : forall d cs m rc it, nth_error cs m = Some rc -> it < k * k -> nth_error (bits d cs) (k * k * m + it) = Some (ne d (chd d rc it)).
Proof. intros. unfold bits. rewrite nth_error_map, (allch_nth d cs m rc) by auto. auto. Qed.
Lemma next_nth : forall d cs m rc it, nth_error cs m = Some rc -> it < k * k -> ne d (chd d rc it) = true -> nth_error (next d cs) (cntT (firstn (k * k * m + it) (bits d cs))) = Some (chd d rc it).
Proof. intros d cs m rc it M I N. unfold next, bits, cntT. rewrite firstn_map, filter_map_len. apply filter_at; auto. apply allch_nth; auto. Qed.
Lemma next_len : forall d cs, length (next d cs) = cntT (bits d cs).
Proof. intros. unfold next, bits, cntT. rewrite filter_map_len. auto. Qed.

Section Q.
Variable t : k2.
Hypothesis KK : kk t = k.
(* the tree below the nodes [cs] of one level, [a] nodes before *)
Definition at_lvl d pre a cs := kt t = pre ++ tbits d cs /\ kl t = lbits d cs /\ length pre = k * k * a /\ cntT pre + 1 = a + length cs.
Lemma lvl_next : forall d pre a cs, at_lvl (S d) pre a cs -> at_lvl d (pre ++ bits (S d) cs) (a + length cs) (next (S d) cs).
Proof. intros d pre a cs (A & B & C & D). split. { rewrite A. cbn [tbits]. rewrite app_assoc. auto. } split; auto. split. { rewrite app_length, bits_len, C. lia. } rewrite cntT_app, next_len. lia. Qed.
Lemma idx_lt : forall m it cs (rc : nat * nat), nth_error cs m = Some rc -> it < k * k -> k * k * m + it < k * k * length cs.
Proof. intros m it cs rc M I. assert (m < length cs) by (apply nth_error_Some; congruence). nia. Qed.
Lemma leaf_get : forall pre a cs m rc it, at_lvl 0 pre a cs -> nth_error cs m = Some rc -> it < k * k -> length (kt t) <= k * k * (a + m) + it /\ t_get (kl t) (k * k * (a + m) + it - length (kt t)) = Some (P (fst (chd 0 rc it)) (snd (chd 0 rc it))).
Proof.
  intros pre a cs m rc it (A & B & C & D) M I. cbn [tbits] in A. rewrite app_nil_r in A. rewrite A, C. split; [nia|]. replace (k * k * (a + m) + it - k * k * a) with (k * k * m + it) by nia.
  rewrite B. cbn [lbits]. unfold t_get. rewrite (bits_nth 0 cs m rc) by auto. destruct (chd 0 rc it). rewrite ne0. auto.
Qed.
Lemma inner_get : forall d pre a cs m rc it, at_lvl (S d) pre a cs -> nth_error cs m = Some rc -> it < k * k -> k * k * (a + m) + it < length (kt t) /\ t_get (kt t) (k * k * (a + m) + it) = Some (ne (S d) (chd (S d) rc it)) /\
  (ne (S d) (chd (S d) rc it) = true -> exists m', nth_error (next (S d) cs) m' = Some (chd (S d) rc it) /\ kt_rank t (k * k * (a + m) + it + 1) = Some (a + length cs + m')).
Proof.
  intros d pre a cs m rc it (A & B & C & D) M I. cbn [tbits] in A. pose proof (idx_lt m it cs rc M I) as X. pose proof (bits_len (S d) cs) as BL. assert (LT : k * k * (a + m) + it < length (kt t)). { rewrite A, !app_length, C, BL. nia. } split; auto.
  assert (G : nth_error (kt t) (k * k * (a + m) + it) = Some (ne (S d) (chd (S d) rc it))). { rewrite A, nth_error_app2 by nia. rewrite nth_error_app1 by (rewrite BL, C; nia). replace (k * k * (a + m) + it - length pre) with (k * k * m + it) by (rewrite C; nia). apply bits_nth; auto. }
  split. { exact G. } intros N. eexists. split. { apply (next_nth (S d) cs m rc it); auto. } unfold kt_rank. rewrite t_rank_some by lia. f_equal. rewrite Nat.add_1_r, rank_of_S. unfold t_bit at 2. rewrite (nth_error_nth _ _ _ G), N. rewrite rank_cntT by lia.
  rewrite A. rewrite firstn_app. rewrite firstn_all2 by nia. rewrite cntT_app. replace (k * k * (a + m) + it - length pre) with (k * k * m + it) by (rewrite C; nia). rewrite firstn_app. replace (k * k * m + it - length (bits (S d) cs)) with 0 by (rewrite BL; lia). cbn [firstn]. rewrite app_nil_r. cbn. lia.
Qed.
Lemma dig : forall d i, i < k ^ S d -> i / k ^ d < k.
Proof. intros d i I. apply Nat.div_lt_upper_bound. { pose proof (kpos d). lia. } cbn [Nat.pow] in I. lia. Qed.
Lemma chd_dig : forall d rc row col, row < k -> col < k -> chd d rc (k * row + col) = (fst rc + row * k ^ d, snd rc + col * k ^ d) /\ k * row + col < k * k.
Proof. intros d rc row col R C. unfold chd. rewrite (Nat.mul_comm k row), Nat.div_add_l, Nat.div_small by lia. rewrite (Nat.add_comm (row * k) col), Nat.mod_add, Nat.mod_small by lia. split; [f_equal; lia|nia]. Qed.
Lemma pow_div : forall d, k ^ S d / k = k ^ d.
Proof. intros. cbn [Nat.pow]. rewrite Nat.mul_comm. apply Nat.div_mul. lia. Qed.
Lemma divc_pow : forall i d, divc i (k ^ d) = Some (i / k ^ d).
Proof. intros. unfold divc. pose proof (kpos d). destruct (Nat.eqb_spec (k ^ d) 0); [lia|auto]. Qed.

Lemma adj_ok : forall d fuel pre a cs m rc it i j, d <= fuel -> at_lvl d pre a cs -> nth_error cs m = Some rc -> it < k * k -> i < k ^ d -> j < k ^ d ->
  adj_loop fuel t (k ^ d / k) i j (k * k * (a + m) + it) = Some (P (fst (chd d rc it) + i) (snd (chd d rc it) + j)).
Proof.
  induction d as [|d IH]; intros fuel pre a cs m rc it i j F L M I Hi Hj.
  - destruct (leaf_get _ _ _ _ _ _ L M I) as [A B]. destruct fuel; cbn [adj_loop]; destruct (Nat.ltb_spec (k * k * (a + m) + it) (length (kt t))); try lia; rewrite B; cbn in Hi, Hj; do 2 f_equal; lia.
  - destruct fuel as [|fuel]; [lia|]. cbn [adj_loop]. destruct (inner_get _ _ _ _ _ _ _ L M I) as (A & B & C). destruct (Nat.ltb_spec (k * k * (a + m) + it) (length (kt t))); [|lia]. rewrite B. cbn [obind]. destruct (ne (S d) (chd (S d) rc it)) eqn:N; cbn [negb].
    + destruct (C eq_refl) as (m' & M' & R). rewrite pow_div, !divc_pow. cbn [obind]. rewrite R. cbn [obind]. rewrite KK. pose proof (dig d i Hi) as DI. pose proof (dig d j Hj) as DJ. pose proof (kpos d) as KP.
      destruct (chd_dig d (chd (S d) rc it) (i / k ^ d) (j / k ^ d) DI DJ) as [X Y]. replace ((a + length cs + m') * (k * k) + k * (i / k ^ d) + j / k ^ d) with (k * k * (a + length cs + m') + (k * (i / k ^ d) + j / k ^ d)) by lia.
      rewrite (IH fuel _ _ _ m' (chd (S d) rc it) _ _ _ ltac:(lia) (lvl_next _ _ _ _ L) M' Y); try (apply Nat.mod_upper_bound; lia). rewrite X. cbn [fst snd]. pose proof (Nat.div_mod i (k ^ d) ltac:(lia)). pose proof (Nat.div_mod j (k ^ d) ltac:(lia)). do 2 f_equal; lia.
    + f_equal. symmetry. destruct (chd (S d) rc it) as [r c]. apply (ne_false (S d)); auto.
Qed.
Lemma cat_opt_some : forall {A} (f : nat -> option (list A)) g js, (forall j, In j js -> f j = Some (g j)) -> cat_opt f js = Some (flat_map g js).
Proof. intros A f g js. induction js as [|j js IH]; intros H; auto. cbn [cat_opt flat_map]. rewrite H by (left; auto). cbn [obind]. rewrite IH by (intros; apply H; right; auto). auto. Qed.
Lemma filter_flat : forall {A B} (f : B -> bool) (g : A -> list B) l, filter f (flat_map g l) = flat_map (fun a => filter f (g a)) l.
Proof. intros. induction l as [|a l IH]; auto. cbn [flat_map]. rewrite filter_app, IH. auto. Qed.
Lemma filter_none : forall {A} (f : A -> bool) l, (forall a, In a l -> f a = false) -> filter f l = [].
Proof. induction l as [|a l IH]; intros H; auto. cbn [filter]. rewrite H by (left; auto). apply IH. intros. apply H. right. auto. Qed.
Lemma neigh_ok : forall d fuel pre a cs m rc it row, d <= fuel -> at_lvl d pre a cs -> nth_error cs m = Some rc -> it < k * k -> row < k ^ d ->
  neigh_rec fuel t (k ^ d / k) row (snd (chd d rc it)) (k * k * (a + m) + it) = Some (filter (fun y => P (fst (chd d rc it) + row) y) (seq (snd (chd d rc it)) (k ^ d))).
Proof.
  induction d as [|d IH]; intros fuel pre a cs m rc it row F L M I Hr.
  - destruct (leaf_get _ _ _ _ _ _ L M I) as [A B]. assert (X : (let* b := t_get (kl t) (k * k * (a + m) + it - length (kt t)) in Some (if b then [snd (chd 0 rc it)] else [])) = Some (filter (fun y => P (fst (chd 0 rc it) + row) y) (seq (snd (chd 0 rc it)) (k ^ 0)))).
    { rewrite B. cbn [obind]. cbn in Hr. replace row with 0 by lia. cbn [Nat.pow seq filter]. rewrite Nat.add_0_r. auto. } destruct fuel; cbn [neigh_rec]; destruct (Nat.leb_spec (length (kt t)) (k * k * (a + m) + it)); try lia; exact X.
  - destruct fuel as [|fuel]; [lia|]. cbn [neigh_rec]. destruct (inner_get _ _ _ _ _ _ _ L M I) as (A & B & C). destruct (Nat.leb_spec (length (kt t)) (k * k * (a + m) + it)); [lia|]. rewrite B. cbn [obind]. set (rc' := chd (S d) rc it) in *. destruct (ne (S d) rc') eqn:N.
    + destruct (C eq_refl) as (m' & M' & R). rewrite R. cbn [obind]. rewrite pow_div, !divc_pow. cbn [obind]. rewrite KK. pose proof (dig d row Hr) as DR. pose proof (kpos d) as KP.
      rewrite (cat_opt_some _ (fun j => filter (fun y => P (fst rc' + row) y) (seq (snd rc' + k ^ d * j) (k ^ d)))).
      * f_equal. rewrite <- filter_flat. rewrite seq_blocks. cbn [Nat.pow]. f_equal. f_equal. lia.
      * intros j J. apply in_seq in J. destruct (chd_dig d rc' (row / k ^ d) j DR ltac:(lia)) as [X Y]. replace ((a + length cs + m') * (k * k) + k * (row / k ^ d) + j) with (k * k * (a + length cs + m') + (k * (row / k ^ d) + j)) by lia.
        pose proof (IH fuel _ _ _ m' rc' _ (row mod k ^ d) ltac:(lia) (lvl_next _ _ _ _ L) M' Y ltac:(apply Nat.mod_upper_bound; lia)) as Z. rewrite X in Z. cbn [fst snd] in Z. replace (snd rc' + j * k ^ d) with (snd rc' + k ^ d * j) in Z by lia. rewrite Z. f_equal. f_equal.
        pose proof (Nat.div_mod row (k ^ d) ltac:(lia)). replace (fst rc' + row / k ^ d * k ^ d + row mod k ^ d) with (fst rc' + row) by lia. auto.
    + f_equal. symmetry. apply filter_none. intros y Y. apply in_seq in Y. destruct rc' as [r c]. cbn [fst snd] in *. replace y with (c + (y - c)) by lia. apply (ne_false (S d)); auto. lia.
Qed.
Lemma rneigh_ok : forall d fuel pre a cs m rc it col, d <= fuel -> at_lvl d pre a cs -> nth_error cs m = Some rc -> it < k * k -> col < k ^ d ->
  rneigh_rec fuel t (k ^ d / k) (fst (chd d rc it)) col (k * k * (a + m) + it) = Some (filter (fun x => P x (snd (chd d rc it) + col)) (seq (fst (chd d rc it)) (k ^ d))).
Proof.
  induction d as [|d IH]; intros fuel pre a cs m rc it row F L M I Hr.
  - destruct (leaf_get _ _ _ _ _ _ L M I) as [A B]. assert (X : (let* b := t_get (kl t) (k * k * (a + m) + it - length (kt t)) in Some (if b then [fst (chd 0 rc it)] else [])) = Some (filter (fun y => P y (snd (chd 0 rc it) + row)) (seq (fst (chd 0 rc it)) (k ^ 0)))).
    { rewrite B. cbn [obind]. cbn in Hr. replace row with 0 by lia. cbn [Nat.pow seq filter]. rewrite Nat.add_0_r. auto. } destruct fuel; cbn [rneigh_rec]; destruct (Nat.leb_spec (length (kt t)) (k * k * (a + m) + it)); try lia; exact X.
  - destruct fuel as [|fuel]; [lia|]. cbn [rneigh_rec]. destruct (inner_get _ _ _ _ _ _ _ L M I) as (A & B & C). destruct (Nat.leb_spec (length (kt t)) (k * k * (a + m) + it)); [lia|]. rewrite B. cbn [obind]. set (rc' := chd (S d) rc it) in *. destruct (ne (S d) rc') eqn:N.
    + destruct (C eq_refl) as (m' & M' & R). rewrite R. cbn [obind]. rewrite pow_div, !divc_pow. cbn [obind]. rewrite KK. pose proof (dig d row Hr) as DR. pose proof (kpos d) as KP.
      rewrite (cat_opt_some _ (fun j => filter (fun y => P y (snd rc' + row)) (seq (fst rc' + k ^ d * j) (k ^ d)))).
      * f_equal. rewrite <- filter_flat. rewrite seq_blocks. cbn [Nat.pow]. f_equal. f_equal. lia.
      * intros j J. apply in_seq in J. destruct (chd_dig d rc' j (row / k ^ d) ltac:(lia) DR) as [X Y]. replace ((a + length cs + m') * (k * k) + row / k ^ d + j * k) with (k * k * (a + length cs + m') + (k * j + row / k ^ d)) by lia.
        pose proof (IH fuel _ _ _ m' rc' _ (row mod k ^ d) ltac:(lia) (lvl_next _ _ _ _ L) M' Y ltac:(apply Nat.mod_upper_bound; lia)) as Z. rewrite X in Z. cbn [fst snd] in Z. replace (fst rc' + j * k ^ d) with (fst rc' + k ^ d * j) in Z by lia. rewrite Z. f_equal.
        pose proof (Nat.div_mod row (k ^ d) ltac:(lia)). replace (snd rc' + row / k ^ d * k ^ d + row mod k ^ d) with (snd rc' + row) by lia. auto.
    + f_equal. symmetry. apply filter_none. intros y Y. apply in_seq in Y. destruct rc' as [r c]. cbn [fst snd] in *. replace y with (r + (y - r)) by lia. apply (ne_false (S d)); auto. lia.
Qed.
(** range *)
Definition region (r c r1 r2 c1 c2 : nat) (p : nat * nat) : Prop := r + r1 <= fst p <= r + r2 /\ c + c1 <= snd p <= c + c2 /\ P (fst p) (snd p) = true.
Definition run (s : rst) (F : nat) (reg : nat * nat -> Prop) : Prop := forall fuel st res, exists R f', fuel <= f' /\ rng_loop (F + fuel) t (s :: st) res = rng_loop f' t st (res ++ R) /\ NoDup R /\ forall p, In p R <-> reg p.
Lemma run_list : forall {X} (L : list X) (so : X -> rst) (reg : X -> nat * nat -> Prop) F, (forall x, In x L -> run (so x) F (reg x)) -> NoDup L -> (forall x x' p, reg x p -> reg x' p -> x = x') ->
  forall N, length L <= N -> forall fuel st res, exists R f', fuel <= f' /\ rng_loop (N * F + fuel) t (map so L ++ st) res = rng_loop f' t st (res ++ R) /\ NoDup R /\ forall p, In p R <-> exists x, In x L /\ reg x p.
Proof.
  intros X L so reg F. induction L as [|x L IH]; intros H ND U N LN fuel st res; cbn [map app].
  - exists [], (N * F + fuel). rewrite app_nil_r. split; [lia|]. split; auto. split; [constructor|]. intros p. split; [intros []|intros (x & [] & _)].
  - destruct N as [|N]; [cbn in LN; lia|]. destruct (H x (or_introl eq_refl) (N * F + fuel) (map so L ++ st) res) as (R1 & f1 & F1 & E1 & N1 & I1). replace (S N * F + fuel) with (F + (N * F + fuel)) by lia. rewrite E1.
    inversion ND as [|? ? NI ND']; subst. destruct (IH (fun y Y => H y (or_intror Y)) ND' U N ltac:(cbn in LN; lia) (f1 - N * F) st (res ++ R1)) as (R2 & f2 & F2 & E2 & N2 & I2). replace (N * F + (f1 - N * F)) with f1 in E2 by lia. rewrite E2, <- app_assoc. exists (R1 ++ R2), f2. split; [lia|]. split; auto. split.
    + clear - N1 N2 I1 I2 NI U. assert (D : forall p, In p R1 -> ~ In p R2). { intros p A B. apply I1 in A. apply I2 in B. destruct B as (y & Y & B). rewrite (U _ _ _ A B) in NI. auto. }
      clear I1. induction R1 as [|p R1 IH]; auto. inversion N1; subst. cbn [app]. constructor. { rewrite in_app_iff. intros [A|A]; auto. apply (D p); auto. left. auto. } apply IH; auto. intros q Q. apply D. right. auto.
    + intros p. rewrite in_app_iff, I1, I2. split. { intros [A|(y & Y & A)]; [exists x; split; auto; left; auto|exists y; split; auto; right; auto]. } intros (y & [<- | Y] & A); [left; auto|right; exists y; auto].
Qed.
Definition lo (n r1 i : nat) := if i =? r1 / n then r1 mod n else 0.
Definition hi (n r2 i : nat) := if i =? r2 / n then r2 mod n else n - 1.
Lemma lohi : forall n r1 r2 i, 0 < n -> r1 <= r2 -> r1 / n <= i <= r2 / n -> lo n r1 i <= hi n r2 i < n.
Proof.
  intros n r1 r2 i N L I. unfold lo, hi. pose proof (Nat.mod_upper_bound r1 n ltac:(lia)). pose proof (Nat.mod_upper_bound r2 n ltac:(lia)). pose proof (Nat.div_mod r1 n ltac:(lia)). pose proof (Nat.div_mod r2 n ltac:(lia)).
  destruct (Nat.eqb_spec i (r1 / n)) as [E|], (Nat.eqb_spec i (r2 / n)) as [G|]; nia.
Qed.
Lemma rows_split : forall n r r1 r2 x, 0 < n -> r1 <= r2 -> (r + r1 <= x <= r + r2 <-> exists i, r1 / n <= i <= r2 / n /\ r + n * i + lo n r1 i <= x <= r + n * i + hi n r2 i).
Proof.
  intros n r r1 r2 x N L. pose proof (Nat.mod_upper_bound r1 n ltac:(lia)). pose proof (Nat.mod_upper_bound r2 n ltac:(lia)). pose proof (Nat.div_mod r1 n ltac:(lia)) as D1. pose proof (Nat.div_mod r2 n ltac:(lia)) as D2. split.
  - intros X. pose proof (Nat.div_mod (x - r) n ltac:(lia)) as D. pose proof (Nat.mod_upper_bound (x - r) n ltac:(lia)). exists ((x - r) / n). split. { split; apply Nat.div_le_mono; lia. } unfold lo, hi. destruct (Nat.eqb_spec ((x - r) / n) (r1 / n)) as [E|E], (Nat.eqb_spec ((x - r) / n) (r2 / n)) as [G|G]; try rewrite <- E in *; try rewrite <- G in *; lia.
  - intros (i & I & X). unfold lo, hi in X. destruct (Nat.eqb_spec i (r1 / n)) as [E|E], (Nat.eqb_spec i (r2 / n)) as [G|G]; try rewrite <- E in *; try rewrite <- G in *; nia.
Qed.
Lemma row_uniq : forall n r r1 r2 i i' x, 0 < n -> r1 <= r2 -> r1 / n <= i <= r2 / n -> r1 / n <= i' <= r2 / n -> r + n * i + lo n r1 i <= x <= r + n * i + hi n r2 i -> r + n * i' + lo n r1 i' <= x <= r + n * i' + hi n r2 i' -> i = i'.
Proof. intros n r r1 r2 i i' x N L I I' A B. pose proof (lohi n r1 r2 i N L I). pose proof (lohi n r1 r2 i' N L I'). nia. Qed.
Lemma nodup_prod : forall (a b : list nat), NoDup a -> NoDup b -> NoDup (list_prod a b).
Proof.
  intros a b A B. induction a as [|x a IH]; [constructor|]. inversion A; subst. cbn [list_prod]. assert (G : forall l, incl l b -> NoDup l -> NoDup (map (fun y => (x, y)) l ++ list_prod a b)).
  { induction l as [|y l IHl]; intros I N; [apply IH; auto|]. inversion N; subst. cbn [map app]. constructor. { rewrite in_app_iff, in_map_iff, in_prod_iff. intros [(z & Z & ZI)|[Z _]]; [injection Z as ->; auto|auto]. } apply IHl; auto. intros z Z. apply I. right. auto. }
  apply G; auto. apply incl_refl.
Qed.
Lemma rng_push_map : forall y s i1 i2 j1 j2, rng_push k y s i1 i2 j1 j2 = map (fun ij => mkrst (r_n s / k) (if fst ij =? i1 then r_r1 s mod r_n s else 0) (if fst ij =? i2 then r_r2 s mod r_n s else r_n s - 1)
          (if snd ij =? j1 then r_c1 s mod r_n s else 0) (if snd ij =? j2 then r_c2 s mod r_n s else r_n s - 1)
          (r_dr s + r_n s * fst ij) (r_dc s + r_n s * snd ij) (Some (y + k * fst ij + snd ij))) (list_prod (seq i1 (i2 + 1 - i1)) (seq j1 (j2 + 1 - j1))).
Proof.
  intros. unfold rng_push. induction (seq i1 (i2 + 1 - i1)) as [|i l IH]; auto. cbn [flat_map list_prod]. rewrite map_app, map_map, IH. auto.
Qed.
Lemma inner_run : forall d r c z r1 r2 c1 c2 y fuel st res,
  (forall i j lr hr lc hc, i < k -> j < k -> lr <= hr < k ^ d -> lc <= hc < k ^ d -> run (mkrst (k ^ d / k) lr hr lc hc (r + k ^ d * i) (c + k ^ d * j) (Some (y + k * i + j))) (rng_fuel k d) (region (r + k ^ d * i) (c + k ^ d * j) lr hr lc hc)) ->
  r1 <= r2 < k ^ S d -> c1 <= c2 < k ^ S d ->
  exists R f', fuel <= f' /\ rng_loop (k * k * rng_fuel k d + fuel) t (rev (rng_push k y (mkrst (k ^ d) r1 r2 c1 c2 r c z) (r1 / k ^ d) (r2 / k ^ d) (c1 / k ^ d) (c2 / k ^ d)) ++ st) res = rng_loop f' t st (res ++ R) /\ NoDup R /\ forall p, In p R <-> region r c r1 r2 c1 c2 p.
Proof.
  intros d r c z r1 r2 c1 c2 y fuel st res IH HR HC. pose proof (kpos d) as KP. rewrite rng_push_map. cbn [r_n r_r1 r_r2 r_c1 r_c2 r_dr r_dc r_z]. rewrite <- map_rev. set (n := k ^ d) in *. set (L := list_prod (seq (r1 / n) (r2 / n + 1 - r1 / n)) (seq (c1 / n) (c2 / n + 1 - c1 / n))).
  assert (LI : forall ij, In ij L <-> r1 / n <= fst ij <= r2 / n /\ c1 / n <= snd ij <= c2 / n). { intros [i j]. unfold L. rewrite in_prod_iff, !in_seq. cbn [fst snd]. assert (r1 / n <= r2 / n) by (apply Nat.div_le_mono; lia). assert (c1 / n <= c2 / n) by (apply Nat.div_le_mono; lia). lia. }
  assert (DR : r2 / n < k) by (apply dig; lia). assert (DC : c2 / n < k) by (apply dig; lia).
  destruct (run_list (rev L) (fun ij => mkrst (n / k) (lo n r1 (fst ij)) (hi n r2 (fst ij)) (lo n c1 (snd ij)) (hi n c2 (snd ij)) (r + n * fst ij) (c + n * snd ij) (Some (y + k * fst ij + snd ij)))
    (fun ij p => In ij L /\ region (r + n * fst ij) (c + n * snd ij) (lo n r1 (fst ij)) (hi n r2 (fst ij)) (lo n c1 (snd ij)) (hi n c2 (snd ij)) p) (rng_fuel k d)) with (N := k * k) (fuel := fuel) (st := st) (res := res) as (R & f' & A & B & C & D).
  - intros ij IJ. apply in_rev in IJ. pose proof (proj1 (LI ij) IJ) as [X Y]. intros fu sst ress. destruct (IH (fst ij) (snd ij) (lo n r1 (fst ij)) (hi n r2 (fst ij)) (lo n c1 (snd ij)) (hi n c2 (snd ij)) ltac:(lia) ltac:(lia) ltac:(apply lohi; auto; lia) ltac:(apply lohi; auto; lia) fu sst ress) as (R & f' & A & B & C & D). exists R, f'. split; auto. split; auto. split; auto. intros p. rewrite D. tauto.
  - apply NoDup_rev. apply nodup_prod; apply seq_NoDup.
  - intros [i j] [i' j'] p (X & X1 & X2 & _) (Y & Y1 & Y2 & _). apply LI in X, Y. cbn [fst snd] in *. f_equal; [apply (row_uniq n r r1 r2 i i' (fst p)); auto; lia|apply (row_uniq n c c1 c2 j j' (snd p)); auto; lia].
  - rewrite rev_length. unfold L. rewrite prod_length, !seq_length. revert DR DC. generalize (r1 / n) (r2 / n) (c1 / n) (c2 / n). clear. intros. apply Nat.mul_le_mono; lia.
  - exists R, f'. split; auto. split. { exact B. } split; auto. intros p. rewrite D. split.
    + intros (ij & _ & IJ & X1 & X2 & X3). apply LI in IJ. split. { apply (rows_split n r r1 r2); auto; [lia|]. exists (fst ij). lia. } split; auto. apply (rows_split n c c1 c2); auto; [lia|]. exists (snd ij). lia.
    + intros (X1 & X2 & X3). apply (rows_split n r r1 r2) in X1; auto; [|lia]. apply (rows_split n c c1 c2) in X2; auto; [|lia]. destruct X1 as (i & I & X1). destruct X2 as (j & J & X2). assert (IJ : In (i, j) L) by (apply LI; auto). exists (i, j). split. { apply -> in_rev. auto. } split; auto. split; auto.
Qed.
Lemma rng_ok : forall d pre a cs m rc it r1 r2 c1 c2, at_lvl d pre a cs -> nth_error cs m = Some rc -> it < k * k -> r1 <= r2 < k ^ d -> c1 <= c2 < k ^ d ->
  run (mkrst (k ^ d / k) r1 r2 c1 c2 (fst (chd d rc it)) (snd (chd d rc it)) (Some (k * k * (a + m) + it))) (rng_fuel k d) (region (fst (chd d rc it)) (snd (chd d rc it)) r1 r2 c1 c2).
Proof.
  induction d as [|d IH]; intros pre a cs m rc it r1 r2 c1 c2 L M I HR HC fuel st res; cbn [rng_fuel]; cbn [Nat.add rng_loop r_z].
  - destruct (leaf_get _ _ _ _ _ _ L M I) as [A B]. destruct (Nat.leb_spec (length (kt t)) (k * k * (a + m) + it)); [|lia]. rewrite B. cbn [obind r_dr r_dc]. cbn [Nat.pow] in HR, HC. set (rc' := chd 0 rc it) in *. exists (if P (fst rc') (snd rc') then [rc'] else []), fuel. split; auto.
    destruct rc' as [x y]. cbn [fst snd]. unfold region. destruct (P x y) eqn:E.
    + split; auto. split; [repeat constructor; intros []|]. intros [u v]. cbn [fst snd In]. split. { intros [G|[]]. injection G as <- <-. split; [lia|]. split; [lia|auto]. } intros (U & V & _). left. f_equal; lia.
    + rewrite app_nil_r. split; auto. split; [constructor|]. intros [u v]. cbn [fst snd In]. split; [tauto|]. intros (U & V & W). replace u with x in W by lia. replace v with y in W by lia. congruence.
  - destruct (inner_get _ _ _ _ _ _ _ L M I) as (A & B & C). destruct (Nat.leb_spec (length (kt t)) (k * k * (a + m) + it)); [lia|]. rewrite B. cbn [obind]. set (rc' := chd (S d) rc it) in *. destruct (ne (S d) rc') eqn:N.
    + destruct (C eq_refl) as (m' & M' & R). rewrite R. cbn [obind r_r1 r_r2 r_c1 r_c2 r_n]. rewrite pow_div, !divc_pow. cbn [obind]. rewrite KK. apply inner_run; auto. intros i j lr hr lc hc Hi Hj Hr Hc. destruct (chd_dig d rc' i j Hi Hj) as [X Y].
      pose proof (IH _ _ _ m' rc' (k * i + j) lr hr lc hc (lvl_next _ _ _ _ L) M' Y Hr Hc) as Z. rewrite X in Z. cbn [fst snd] in Z. rewrite (Nat.mul_comm i), (Nat.mul_comm j) in Z. replace (k * k * (a + length cs + m') + (k * i + j)) with ((a + length cs + m') * (k * k) + k * i + j) in Z by lia. exact Z.
    + exists [], (k * k * rng_fuel k d + fuel). rewrite app_nil_r. split; [lia|]. split; auto. split; [constructor|]. intros [u v]. split; [intros []|]. intros (U & V & W). destruct rc' as [x y]. cbn [fst snd] in *. pose proof (ne_false (S d) x y (u - x) (v - y) N ltac:(lia) ltac:(lia)) as G. replace (x + (u - x)) with u in G by lia. replace (y + (v - y)) with v in G by lia. congruence.
Qed.
End Q.
End K.
