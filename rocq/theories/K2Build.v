(** * k2_tree: the queries on a represented relation; construction from a matrix *)
From Coq Require Import List Arith Bool Lia NArith.
From Verif Require Import Base SpecBits RankSelect AbsVec FnArr WtBase WtProofs SpecK2 K2Tree K2Proofs.
Import ListNotations.
(* the arithmetic lemmas of K2Proofs without the section variables they do not use *)
Definition P00 : nat -> nat -> bool := fun _ _ => false.
Definition kpos k (K : 1 < k) := K2Proofs.kpos P00 k K.
Definition chd_dig k (K : 1 < k) := K2Proofs.chd_dig P00 k K (mkk2 [] [] k 0) eq_refl.
Definition dig k (K : 1 < k) := K2Proofs.dig P00 k K (mkk2 [] [] k 0) eq_refl.
Definition pow_div k (K : 1 < k) := K2Proofs.pow_div P00 k K (mkk2 [] [] k 0) eq_refl.
Definition divc_pow k (K : 1 < k) := K2Proofs.divc_pow P00 k K (mkk2 [] [] k 0) eq_refl.

Definition rep (P : nat -> nat -> bool) (k h : nat) (t : k2) : Prop :=
  kk t = k /\ kh t = h /\ 1 <= h /\ kt t = tbits P k (h - 1) [(0, 0)] /\ kl t = lbits P k (h - 1) [(0, 0)].
Definition rep0 (P : nat -> nat -> bool) (k h : nat) (t : k2) : Prop :=
  kk t = k /\ kh t = h /\ 1 <= h /\ kt t = [] /\ kl t = [] /\ forall x y, P x y = false.
Section R.
Variables (P : nat -> nat -> bool) (k h : nat) (t : k2).
Hypothesis K : 1 < k.
Hypothesis RP : rep P k h t.
Lemma r_lvl : at_lvl P k t (h - 1) [] 0 [(0, 0)].
Proof. destruct RP as (A & B & C & D & E). repeat split; auto. Qed.
Lemma r_ne : (length (kt t) =? 0) && (length (kl t) =? 0) = false.
Proof.
  destruct RP as (A & B & C & D & E). destruct h as [|[|h']]; [lia| |].
  - replace (length (kl t)) with (k * k). { replace (k * k =? 0) with false by nia. apply andb_false_r. } rewrite E. cbn [Nat.sub lbits]. rewrite bits_len. cbn. lia.
  - replace (length (kt t) =? 0) with false; auto. rewrite D. replace (S (S h') - 1) with (S h') by lia. cbn [tbits]. rewrite app_length, bits_len. cbn [length]. nia.
Qed.
Lemma hS : h = S (h - 1). Proof. destruct RP as (A & B & C & D & E). lia. Qed.
Lemma start : forall row col, row < k -> col < k -> k * row + col = k * k * (0 + 0) + (k * row + col) /\ k * row + col < k * k /\ chd k (h - 1) (0, 0) (k * row + col) = (row * k ^ (h - 1), col * k ^ (h - 1)).
Proof. intros row col R C. destruct (chd_dig k K (h - 1) (0, 0) row col R C) as [X Y]. split; [lia|]. split; auto. Qed.
Theorem rep_adj : forall i j, i < k ^ h -> j < k ^ h -> k2_adj t i j = Some (P i j).
Proof.
  intros i j I J. unfold k2_adj. rewrite r_ne. destruct RP as (A & B & C & D & E). rewrite A, B. rewrite (csub_some _ _ (h - 1)) by lia. cbn [obind]. pose proof (kpos k K (h - 1)) as KP. rewrite !(divc_pow k K). cbn [obind]. rewrite hS in I, J.
  destruct (start (i / k ^ (h - 1)) (j / k ^ (h - 1)) (dig k K _ _ I) (dig k K _ _ J)) as (X & Y & Z). rewrite X. rewrite (adj_ok P k K t A (h - 1) h [] 0 [(0, 0)] 0 (0, 0)) by (try exact r_lvl; auto; try lia; apply Nat.mod_upper_bound; lia). rewrite Z. cbn [fst snd].
  pose proof (Nat.div_mod i (k ^ (h - 1)) ltac:(lia)). pose proof (Nat.div_mod j (k ^ (h - 1)) ltac:(lia)). do 2 f_equal; lia.
Qed.
Lemma n_eq : k ^ h / k = k ^ (h - 1). Proof. rewrite hS at 1. apply pow_div. auto. Qed.
Theorem rep_neigh : forall i, i < k ^ h -> k2_neigh t i = Some (filter (P i) (seq 0 (k ^ h))).
Proof.
  intros i I. unfold k2_neigh. rewrite andb_comm, r_ne. destruct RP as (A & B & C & D & E). rewrite A, B, n_eq. pose proof (kpos k K (h - 1)) as KP. rewrite !(divc_pow k K). cbn [obind]. rewrite hS in I. pose proof (dig k K _ _ I) as DI. pose proof (Nat.div_mod i (k ^ (h - 1)) ltac:(lia)) as DM.
  rewrite (cat_opt_some _ (fun j => filter (P i) (seq (0 + k ^ (h - 1) * j) (k ^ (h - 1))))).
  - rewrite <- filter_flat, seq_blocks. do 3 f_equal. rewrite hS at 2. cbn [Nat.pow]. lia.
  - intros j J. apply in_seq in J. destruct (start (i / k ^ (h - 1)) j DI ltac:(lia)) as (X & Y & Z). rewrite X. pose proof (neigh_ok P k K t A (h - 1) h [] 0 [(0, 0)] 0 (0, 0) _ (i mod k ^ (h - 1)) ltac:(lia) r_lvl eq_refl Y ltac:(apply Nat.mod_upper_bound; lia)) as W. rewrite Z in W. cbn [fst snd] in W. rewrite (Nat.mul_comm (k ^ (h - 1)) j). rewrite W. replace (i / k ^ (h - 1) * k ^ (h - 1) + i mod k ^ (h - 1)) with i by lia. auto.
Qed.
Theorem rep_rneigh : forall i, i < k ^ h -> k2_reverse_neigh t i = Some (filter (fun x => P x i) (seq 0 (k ^ h))).
Proof.
  intros i I. unfold k2_reverse_neigh. rewrite andb_comm, r_ne. destruct RP as (A & B & C & D & E). rewrite A, B, n_eq. pose proof (kpos k K (h - 1)) as KP. rewrite !(divc_pow k K). cbn [obind]. rewrite hS in I. pose proof (dig k K _ _ I) as DI. pose proof (Nat.div_mod i (k ^ (h - 1)) ltac:(lia)) as DM.
  rewrite (cat_opt_some _ (fun j => filter (fun x => P x i) (seq (0 + k ^ (h - 1) * j) (k ^ (h - 1))))).
  - rewrite <- filter_flat, seq_blocks. do 3 f_equal. rewrite hS at 2. cbn [Nat.pow]. lia.
  - intros j J. apply in_seq in J. destruct (start j (i / k ^ (h - 1)) ltac:(lia) DI) as (X & Y & Z). replace (i / k ^ (h - 1) + j * k) with (k * k * (0 + 0) + (k * j + i / k ^ (h - 1))) by lia. pose proof (rneigh_ok P k K t A (h - 1) h [] 0 [(0, 0)] 0 (0, 0) _ (i mod k ^ (h - 1)) ltac:(lia) r_lvl eq_refl Y ltac:(apply Nat.mod_upper_bound; lia)) as W. rewrite Z in W. cbn [fst snd] in W. rewrite (Nat.mul_comm (k ^ (h - 1)) j). rewrite W. replace (i / k ^ (h - 1) * k ^ (h - 1) + i mod k ^ (h - 1)) with i by lia. auto.
Qed.
Theorem rep_range : forall r1 r2 c1 c2, r1 <= r2 < k ^ h -> c1 <= c2 < k ^ h -> exists R, k2_range t r1 r2 c1 c2 = Some R /\ NoDup R /\ forall x y, In (x, y) R <-> r1 <= x <= r2 /\ c1 <= y <= c2 /\ P x y = true.
Proof.
  intros r1 r2 c1 c2 HR HC. unfold k2_range. destruct RP as (A & B & C & D & E). rewrite A, B, n_eq. rewrite hS. cbn [rng_fuel Nat.add rng_loop r_z r_r1 r_r2 r_c1 r_c2 r_n]. rewrite <- hS. rewrite !(divc_pow k K). cbn [obind]. rewrite A. rewrite hS in HR, HC.
  destruct (inner_run P k K t A (h - 1) 0 0 None r1 r2 c1 c2 0 0 [] []) as (R & f & F & G & ND & I); auto.
  - intros i j lr hr lc hc Hi Hj Hr Hc. destruct (start i j Hi Hj) as (X & Y & Z). pose proof (rng_ok P k K t A (h - 1) [] 0 [(0, 0)] 0 (0, 0) _ lr hr lc hc r_lvl eq_refl Y Hr Hc) as W. rewrite Z in W. cbn [fst snd] in W. rewrite <- X in W. cbn [Nat.add]. rewrite (Nat.mul_comm _ i), (Nat.mul_comm _ j). exact W.
  - rewrite Nat.add_0_r in G. exists R. split. { rewrite G. destruct f; auto. } split; auto. intros x y. rewrite I. unfold region. cbn [fst snd Nat.add]. tauto.
Qed.
End R.
Section R0.
Variables (P : nat -> nat -> bool) (k h : nat) (t : k2).
Hypothesis RP : rep0 P k h t.
Lemma r0_adj : forall i j, k2_adj t i j = Some (P i j).
Proof. intros. destruct RP as (A & B & C & D & E & F). unfold k2_adj. rewrite D, E, F. auto. Qed.
Lemma r0_neigh : forall i l, k2_neigh t i = Some (filter (P i) l).
Proof. intros. destruct RP as (A & B & C & D & E & F). unfold k2_neigh. rewrite D, E. cbn. f_equal. symmetry. apply filter_none. auto. Qed.
Lemma r0_rneigh : forall i l, k2_reverse_neigh t i = Some (filter (fun x => P x i) l).
Proof. intros. destruct RP as (A & B & C & D & E & F). unfold k2_reverse_neigh. rewrite D, E. cbn. f_equal. symmetry. apply filter_none. auto. Qed.
End R0.

(** ** From a matrix *)
Section M.
Variables (M : list (list nat)) (k h : nat).
Hypothesis K : 1 < k.
Hypothesis SQ : square M.
Notation P := (matrix_rel M).
Notation ne := (ne P k). Notation bits := (bits P k). Notation next := (next P k). Notation chd := (chd k).
Fixpoint lev (d j : nat) (cs : list (nat * nat)) {struct j} : list bool :=
  match j with 0 => bits d cs | S j' => match d with 0 => [] | S d' => lev d' j' (next d cs) end end.
Lemma bits_app : forall d a b, bits d (a ++ b) = bits d a ++ bits d b.
Proof. intros. unfold K2Proofs.bits, allch. rewrite flat_map_app, map_app. auto. Qed.
Lemma next_app : forall d a b, next d (a ++ b) = next d a ++ next d b.
Proof. intros. unfold K2Proofs.next, allch. rewrite flat_map_app, filter_app. auto. Qed.
Lemma lev_app : forall j d a b, lev d j (a ++ b) = lev d j a ++ lev d j b.
Proof. induction j as [|j IH]; intros d a b; cbn [lev]. { apply bits_app. } destruct d as [|d]; auto. rewrite next_app. apply IH. Qed.
Lemma lev_nil : forall j d, lev d j [] = [].
Proof. induction j as [|j IH]; intros d; cbn [lev]; auto. destruct d; auto. Qed.
Lemma lev_filter : forall d j g l, lev d j (filter g l) = flat_map (fun c => if g c then lev d j [c] else []) l.
Proof. intros d j g l. induction l as [|c l IH]; [apply lev_nil|]. cbn [filter flat_map]. destruct (g c); auto. change (c :: filter g l) with ([c] ++ filter g l). rewrite lev_app, IH. auto. Qed.
Lemma tbits_lev : forall d cs, tbits P k d cs = concat (map (fun j => lev d j cs) (seq 0 d)).
Proof. induction d as [|d IH]; intros cs; auto. cbn [tbits seq map concat]. f_equal. rewrite IH. rewrite <- seq_shift, map_map. auto. Qed.
Lemma lbits_lev : forall d cs, lbits P k d cs = lev d d cs.
Proof. induction d as [|d IH]; intros cs; auto. cbn [lbits lev]. apply IH. Qed.
Lemma ne_split : forall d rc, ne (S d) rc = existsb (fun it => ne d (chd d rc it)) (seq 0 (k * k)).
Proof.
  intros d [r c]. pose proof (kpos k K d) as KP. apply eq_true_iff_eq. rewrite (ne_iff _ _ K), existsb_exists. split.
  - intros (x & y & X & Y & E). pose proof (dig k K d (x - r) ltac:(lia)) as DX. pose proof (dig k K d (y - c) ltac:(lia)) as DY. destruct (chd_dig k K d (r, c) _ _ DX DY) as [A B]. exists (k * ((x - r) / k ^ d) + (y - c) / k ^ d). split. { apply in_seq. cbn [Nat.add]. split; [apply Nat.le_0_l|exact B]. } rewrite A. cbn [fst snd]. apply (ne_iff _ _ K). exists x, y.
    pose proof (Nat.div_mod (x - r) (k ^ d) ltac:(lia)). pose proof (Nat.div_mod (y - c) (k ^ d) ltac:(lia)). pose proof (Nat.mod_upper_bound (x - r) (k ^ d) ltac:(lia)). pose proof (Nat.mod_upper_bound (y - c) (k ^ d) ltac:(lia)). repeat split; auto; nia.
  - intros (it & I & E). apply in_seq in I. unfold K2Proofs.chd in E. cbn [fst snd] in E. apply (ne_iff _ _ K) in E. destruct E as (x & y & X & Y & E). exists x, y. assert (it / k < k) by (apply Nat.div_lt_upper_bound; lia). pose proof (Nat.mod_upper_bound it k ltac:(lia)). cbn [Nat.pow]. revert X Y H H0. generalize (it / k) (it mod k) (k ^ d). clear - E. intros a b m X Y H H0. repeat split; auto; nia.
Qed.
Lemma leaf_ok : forall x y, leaf_bit M x y = Some (P x y).
Proof.
  intros x y. unfold leaf_bit, matrix_rel. destruct (Nat.ltb_spec x (length M)) as [A|A].
  - cbn [andb]. destruct (nth_error M x) as [row|] eqn:E; [|apply nth_error_None in E; lia]. pose proof (SQ row (nth_error_In _ _ E)) as L. destruct (Nat.ltb_spec y (length M)) as [B|B]; cbn [obind].
    + destruct (nth_error row y) as [v|] eqn:F; auto. apply nth_error_None in F. lia.
    + rewrite (proj2 (nth_error_None row y)) by lia. auto.
  - cbn [andb]. rewrite (proj2 (nth_error_None M x)) by lia. auto.
Qed.
Lemma blk_farr : forall m (F : nat -> list (list bool) -> option (bool * list (list bool))) g b its f,
  (forall it f, In it its -> F it (farr m f) = Some (b it, farr m (fun x => f x ++ g it x))) ->
  blk F its (farr m f) = Some (map b its, farr m (fun x => f x ++ flat_map (fun it => g it x) its)).
Proof.
  intros m F g b its. induction its as [|it its IH]; intros f H; cbn [blk map flat_map].
  - f_equal. f_equal. apply farr_ext. intros. rewrite app_nil_r. auto.
  - rewrite H by (left; auto). cbn [obind snd fst]. rewrite IH by (intros; apply H; right; auto). cbn [obind snd fst]. f_equal. f_equal. apply farr_ext. intros. rewrite app_assoc. auto.
Qed.
Definition sub (d l x : nat) (rc : nat * nat) : list bool := if (l <=? x) && ne (S d) rc then lev d (x - l) [rc] else [].
Lemma existsb_map : forall {A} (f : A -> bool) l, existsb (fun x => x) (map f l) = existsb f l.
Proof. induction l as [|a l IH]; auto. cbn. rewrite IH. auto. Qed.
Lemma bits1 : forall d rc, bits d [rc] = map (fun it => ne d (chd d rc it)) (seq 0 (k * k)).
Proof. intros. unfold K2Proofs.bits, allch. cbn [flat_map]. rewrite app_nil_r. unfold chs. rewrite map_map. auto. Qed.
Lemma next1 : forall d rc, next d [rc] = filter (ne d) (map (chd d rc) (seq 0 (k * k))).
Proof. intros. unfold K2Proofs.next, allch. cbn [flat_map]. rewrite app_nil_r. auto. Qed.
Lemma flat_map_map : forall {A B C} (f : A -> B) (g : B -> list C) l, flat_map g (map f l) = flat_map (fun a => g (f a)) l.
Proof. intros. induction l as [|a l IH]; auto. cbn. rewrite IH. auto. Qed.
Lemma flat_map_nil : forall {A B} (g : A -> list B) l, (forall a, In a l -> g a = []) -> flat_map g l = [].
Proof. intros A B g l. induction l as [|a l IH]; intros H; auto. cbn. rewrite H by (left; auto). apply IH. intros. apply H. right. auto. Qed.
Lemma bfm_ok : forall d n l p q f, n = k ^ S d -> l + d = h -> bfm d M k n l p q (farr (h + 1) f) = Some (ne (S d) (p, q), farr (h + 1) (fun x => f x ++ sub d l x (p, q))).
Proof.
  induction d as [|d IH]; intros n l p q f N L; cbn [bfm].
  - rewrite (blk_farr _ _ (fun _ _ => []) (fun it => ne 0 (chd 0 (p, q) it))).
    2: { intros it g I. rewrite leaf_ok. cbn [obind]. unfold K2Proofs.chd. cbn [fst snd Nat.pow]. rewrite !Nat.mul_1_r, ne0. f_equal. f_equal. apply farr_ext. intros. rewrite app_nil_r. auto. }
    cbn [obind]. rewrite existsb_map, <- ne_split. unfold acc_push. rewrite farr_nth_error by lia. cbn [obind]. rewrite farr_aset by lia. unfold sub. destruct (ne 1 (p, q)) eqn:E.
    + cbn [obind]. f_equal. f_equal. apply farr_ext. intros x X. rewrite !flat_map_nil by auto. destruct (Nat.eqb_spec x l) as [-> |Z]. { rewrite app_nil_r, Nat.leb_refl. cbn [andb]. rewrite Nat.sub_diag. cbn [lev]. rewrite bits1. auto. } destruct (Nat.leb_spec l x); auto. cbn [andb]. lia.
    + f_equal. f_equal. apply farr_ext. intros x X. rewrite !flat_map_nil by auto. rewrite andb_false_r. auto.
  - assert (NK : n / k = k ^ S d). { rewrite N. apply pow_div. auto. }
    rewrite (blk_farr _ _ (fun it x => sub d (l + 1) x (chd (S d) (p, q) it)) (fun it => ne (S d) (chd (S d) (p, q) it))).
    2: { intros it g I. rewrite NK. rewrite (IH (k ^ S d)) by (auto; lia). auto. }
    cbn [obind]. rewrite existsb_map, <- ne_split. unfold acc_push. rewrite farr_nth_error by lia. cbn [obind]. rewrite farr_aset by lia. unfold sub. destruct (ne (S (S d)) (p, q)) eqn:E.
    + cbn [obind]. f_equal. f_equal. apply farr_ext. intros x X. destruct (Nat.eqb_spec x l) as [-> |Z].
      * rewrite flat_map_nil by (intros; destruct (Nat.leb_spec (l + 1) l); [lia|auto]). rewrite app_nil_r, Nat.leb_refl. cbn [andb]. rewrite Nat.sub_diag. cbn [lev]. rewrite bits1. auto.
      * destruct (Nat.leb_spec l x) as [Y|Y]; cbn [andb]. 2: { rewrite flat_map_nil; auto. intros. destruct (Nat.leb_spec (l + 1) x); [lia|auto]. } f_equal. replace (x - l) with (S (x - (l + 1))) by lia. cbn [lev]. rewrite next1, lev_filter, flat_map_map. apply flat_map_ext. intros it. destruct (Nat.leb_spec (l + 1) x); [|lia]. auto.
    + f_equal. f_equal. apply farr_ext. intros x X. f_equal. rewrite andb_false_r. apply flat_map_nil. intros it I. replace (ne (S d) (chd (S d) (p, q) it)) with false. { rewrite andb_false_r. auto. } symmetry. rewrite ne_split in E. destruct (ne (S d) (chd (S d) (p, q) it)) eqn:Q; auto. assert (existsb (fun it => ne (S d) (chd (S d) (p, q) it)) (seq 0 (k * k)) = true) by (apply existsb_exists; eauto). congruence.
Qed.
Lemma concat_map_seq : forall (f : nat -> list bool) a n, concat (firstn n (skipn a (farr (a + n + 1) f))) = concat (map f (seq a n)).
Proof.
  intros f a n. f_equal. unfold farr. rewrite skipn_map, firstn_map. f_equal. replace (a + n + 1) with (a + (n + 1)) by lia. rewrite seq_app. rewrite skipn_app, seq_length. rewrite skipn_all2 by (rewrite seq_length; auto). rewrite Nat.sub_diag. cbn [skipn app]. rewrite seq_app, firstn_app, seq_length. rewrite firstn_all2 by (rewrite seq_length; auto). rewrite Nat.sub_diag. cbn. apply app_nil_r.
Qed.
Theorem matrix_rep : 1 <= length M -> length M <= k ^ h -> 1 <= h -> (N.of_nat k ^ N.of_nat h < 2 ^ 31)%N -> exists t, k2_from_matrix k h M = Some t /\ (rep P k h t \/ rep0 P k h t).
Proof.
  intros L1 LK H1 I31. unfold k2_from_matrix. destruct (Nat.ltb_spec (length M) 1); [lia|]. destruct (N.leb_spec (2 ^ 31) (N.of_nat k ^ N.of_nat h)); [lia|]. rewrite (csub_some _ _ (h - 1)) by lia. cbn [obind]. rewrite farr_repeat. rewrite (bfm_ok (h - 1)) by (try lia; f_equal; lia). cbn [obind snd]. rewrite farr_nth_error by lia. cbn [obind]. eexists. split; [reflexivity|].
  replace (firstn (h - 1) (skipn 1 (farr (h + 1) (fun x => [] ++ sub (h - 1) 1 x (0, 0))))) with (firstn (h - 1) (skipn 1 (farr (1 + (h - 1) + 1) (fun x => [] ++ sub (h - 1) 1 x (0, 0))))) by (do 3 f_equal; lia). rewrite concat_map_seq.
  destruct (ne (S (h - 1)) (0, 0)) eqn:E.
  - left. repeat split; auto; cbn [kt kl].
    + rewrite tbits_lev. f_equal. rewrite <- seq_shift, map_map. apply map_ext. intros j. cbn [app]. unfold sub. rewrite E. cbn [andb Nat.leb]. f_equal. lia.
    + rewrite lbits_lev. cbn [app]. unfold sub. rewrite E. destruct (Nat.leb_spec 1 h); [|lia]. auto.
  - right. repeat split; auto; cbn [kt kl].
    + rewrite <- flat_map_concat_map. apply flat_map_nil. intros x X. cbn [app]. unfold sub. rewrite E, andb_false_r. auto.
    + cbn [app]. unfold sub. rewrite E, andb_false_r. auto.
    + intros x y. destruct (P x y) eqn:Q; auto. assert (ne (S (h - 1)) (0, 0) = true); [|congruence]. apply (ne_iff _ _ K). exists x, y. replace (S (h - 1)) with h by lia. unfold matrix_rel in Q. destruct (nth_error M x) as [row|] eqn:F; [|discriminate]. destruct (nth_error row y) as [v|] eqn:G; [|discriminate].
      assert (x < length M) by (apply nth_error_Some; congruence). assert (y < length row) by (apply nth_error_Some; congruence). rewrite (SQ row (nth_error_In _ _ F)) in *. repeat split; try lia. unfold matrix_rel. rewrite F, G. auto.
Qed.
End M.
