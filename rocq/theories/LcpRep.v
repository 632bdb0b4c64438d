(** * LCP representations: _lcp_support_sada, lcp_byte, lcp_wt *)
From Coq Require Import NArith List Arith Bool Lia Permutation.
From Verif Require Import Base SpecBits RankSelect AbsVec FnArr WtBase WtProofs SpecCsa CsaSample CsaProofs CsaProofs6 SpecWt SpecLcp WtPc WtPcAll Lcp LcpProofs.
Import ListNotations.

(** ** Sadakane's unary PLCP *)
Lemma nth_firstn0 : forall (l : list bool) k i, i < k -> nth i (firstn k l) false = nth i l false.
Proof. induction l as [|b l IH]; intros [|k] [|i] H; cbn; auto; try lia. apply IH. lia. Qed.
Lemma rank_inc : forall (f : nat -> bool) (pos : nat -> nat) m, (forall q, S q < m -> pos q < pos (S q)) -> (forall x, f x = true <-> exists q, q < m /\ pos q = x) ->
  forall j, j < m -> rank_of f (pos j) = j.
Proof.
  intros f pos m ST F. assert (MO : forall a b, a < b < m -> pos a < pos b). { intros a b. induction b as [|b IH]; [lia|]. intros H. specialize (ST b ltac:(lia)). destruct (Nat.eq_dec a b) as [-> |]; auto. specialize (IH ltac:(lia)). lia. }
  assert (NB : forall x j, j < m -> x < pos j -> (forall q, q < j -> pos q <> x) -> f x = false). { intros x j J X Q. destruct (f x) eqn:E; auto. apply F in E. destruct E as (q & QM & QX). exfalso. destruct (Nat.lt_trichotomy q j) as [L|[-> |L]]; [apply (Q q); auto|lia|]. specialize (MO j q ltac:(lia)). lia. }
  induction j as [|j IH]; intros J.
  - rewrite (rank_of_all_false f 0) by (try lia; intros x X; apply (NB x 0); auto; try lia; intros; lia). apply rank_of_0.
  - rewrite (rank_of_all_false f (S (pos j))). { rewrite rank_of_S, IH by lia. rewrite (proj2 (F (pos j))) by (exists j; split; auto; lia). cbn. lia. } { apply ST. auto. }
    intros x X. apply (NB x (S j)); auto; try lia. intros q Q. destruct (Nat.eq_dec q j) as [-> |]; [lia|]. specialize (MO q j ltac:(lia)). lia.
Qed.
Section Sada.
Variables T sa : list nat.
Hypothesis TOK : text_ok T.
Hypothesis SA : is_sa T sa.
Notation n := (n T). Notation isa := (isa T). Notation PL := (PL T sa). Notation LC := (LC T sa).
Lemma WW : length T <= 2 ^ length T.
Proof. apply Nat.lt_le_incl, Nat.pow_gt_lin_r. lia. Qed.
Definition pos q := PL q + 2 * q.
Definition bits p (x : nat) := existsb (fun q => pos q =? x) (seq 0 p).
Lemma bits_iff : forall p x, bits p x = true <-> exists q, q < p /\ pos q = x.
Proof. intros. unfold bits. rewrite existsb_exists. split; intros (q & A & B); exists q; rewrite in_seq, ?Nat.eqb_eq in *; split; auto; lia. Qed.
Lemma LC_isa : forall p, p < n -> LC (isa p) = PL p.
Proof. intros p P. unfold LcpProofs.LC. destruct (Nat.eqb_spec (isa p) 0) as [Z|Z]. { unfold LcpProofs.PL. rewrite Z. auto. } rewrite (row_isa T sa SA) by auto. auto. Qed.
Lemma pos_inc : forall q, S q < n -> pos q < pos (S q).
Proof. intros q Q. unfold pos. pose proof (PL_step T sa TOK SA _ WW q ltac:(lia)) as H. replace (q + 1) with (S q) in H by lia. lia. Qed.
Lemma sada_loop_ok : forall k p, p + k = n -> sada_loop (map isa (seq p k)) (farr n LC) (if p =? 0 then 1 else PL (p - 1)) (if p =? 0 then 0 else pos (p - 1) + 1) (farr (2 * n) (bits p)) = Some (farr (2 * n) (bits n), if n =? 0 then 0 else pos (n - 1) + 1).
Proof.
  induction k as [|k IH]; intros p E; cbn [seq map sada_loop]. { replace p with n by lia. auto. }
  pose proof (isa_lt T sa SA p ltac:(lia)). rewrite farr_nth_error by auto. cbn [obind]. rewrite LC_isa by lia. rewrite (csub_some _ _ (pos p)).
  2: { unfold pos. destruct (Nat.eqb_spec p 0) as [-> |Z]; lia. }
  cbn [obind]. pose proof (PL_lt T sa TOK SA _ WW p ltac:(lia)). rewrite farr_aset by (unfold pos; lia). cbn [obind]. rewrite <- (IH (S p)) by lia. replace (S p =? 0) with false by auto. replace (S p - 1) with p by lia. f_equal. apply farr_ext. intros x X.
  apply eq_true_iff_eq. rewrite bits_iff. destruct (Nat.eqb_spec x (pos p)) as [-> |Z]. { split; auto. intros _. exists p. auto. } rewrite bits_iff. split; intros (q & A & B); exists q; (split; [|auto]); [lia|]. destruct (Nat.eq_dec q p) as [-> |]; [congruence|lia].
Qed.
Theorem sada_ok : forall L, is_lcp T sa L -> exists data isal, construct_isa sa = Some isal /\ sada_make isal L = Some data /\ forall i, i < length T -> sada_at (fun i => nth_error sa i) data i = Some (nth i L 0).
Proof.
  intros L IL. rewrite (is_LC T sa SA _ WW L IL). clear L IL. pose proof (n_pos T TOK) as NP. exists (firstn (2 * n - 1) (farr (2 * n) (bits n))), (farr n isa). split. { apply (construct_isa_ok T sa SA). }
  assert (PN : pos (n - 1) + 1 = 2 * n - 1). { pose proof (PL_lt T sa TOK SA _ WW (n - 1) ltac:(lia)). unfold pos. lia. }
  split. { unfold sada_make. rewrite farr_length. rewrite farr_repeat. pose proof (sada_loop_ok n 0 eq_refl) as S. cbn [Nat.eqb] in S. rewrite (farr_ext bool (2 * n) (fun _ => false) (bits 0)) by auto. fold (farr n isa) in S. rewrite S. cbn [obind]. replace (n =? 0) with false by lia. rewrite PN. rewrite farr_length. replace (2 * n - 1 - 2 * n) with 0 by lia. cbn [repeat]. rewrite app_nil_r. auto. }
  intros i I. change (length T) with n in I. unfold sada_at. rewrite (nth_error_nth' sa 0) by (rewrite (sa_len T sa SA); auto). cbn [obind]. change (nth i sa 0) with (row sa i). pose proof (row_lt T sa SA i I) as RL. set (j := row sa i) in *.
  assert (PJ : pos j < 2 * n - 1). { rewrite <- PN. destruct (Nat.eq_dec j (n - 1)) as [E|E]. { rewrite E. lia. } assert (forall a b, a < b < n -> pos a < pos b). { intros a b. induction b as [|b IH]; [lia|]. intros H. pose proof (pos_inc b ltac:(lia)). destruct (Nat.eq_dec a b) as [-> |]; auto. specialize (IH ltac:(lia)). lia. } specialize (H j (n - 1) ltac:(lia)). lia. }
  assert (TB : forall x, x < 2 * n - 1 -> t_bit (firstn (2 * n - 1) (farr (2 * n) (bits n))) x = bits n x). { intros x X. unfold t_bit. rewrite nth_firstn0 by auto. apply farr_nth. lia. }
  rewrite (t_sel1_some _ _ (pos j)). 3: { rewrite firstn_length, farr_length. lia. }
  2: { split. { rewrite TB by auto. apply bits_iff. exists j. auto. } rewrite (rank_of_ext _ (bits n)) by (intros x X; apply TB; lia). rewrite (rank_inc (bits n) pos n); auto. { apply pos_inc. } apply bits_iff. }
  cbn [obind]. rewrite farr_nth by auto. rewrite (csub_some _ _ (PL j)) by (unfold pos; lia). f_equal. rewrite <- LC_isa by auto. unfold j. rewrite (isa_row T sa SA) by auto. auto.
Qed.
End Sada.

(** ** Bytes *)
Definition small (l : nat) := if l <? 255 then l else 255.
Lemma small_loop_ok : forall L i m x, exists m' x', small_loop L i m x = (map small L, m', x') /\ m <= m' /\ (x <= i -> x <= x') /\ forall k l, nth_error L k = Some l -> 255 <= l -> l <= m' /\ i + k <= x'.
Proof.
  induction L as [|l L IH]; intros i m x; cbn [small_loop map]. { exists m, x. split; auto. split; auto. split; auto. intros [|]; discriminate. }
  unfold small at 1. destruct (Nat.ltb_spec l 255) as [A|A].
  - destruct (IH (i + 1) m x) as (m' & x' & -> & M & X & H). rewrite tr_small by (cbn; lia). exists m', x'. split; auto. split; auto. split. { intros. apply X. lia. } intros [|k] y Y B; cbn in Y. { injection Y as ->. lia. } destruct (H k y Y B). split; auto. lia.
  - destruct (IH (i + 1) (Nat.max l m) i) as (m' & x' & -> & M & X & H). exists m', x'. split; auto. split; [lia|]. specialize (X ltac:(lia)). split; [lia|]. intros [|k] y Y B; cbn in Y. { injection Y as ->. lia. } destruct (H k y Y B). split; auto. lia.
Qed.
Lemma big_loop_ok : forall L i wl wi, (forall k l, nth_error L k = Some l -> 255 <= l -> l < 2 ^ wl /\ i + k < 2 ^ wi) ->
  forall k l, nth_error L k = Some l -> 255 <= l -> nth_error (fst (big_loop L i wl wi)) (lower_bound (snd (big_loop L i wl wi)) (i + k)) = Some l.
Proof.
  induction L as [|a L IH]; intros i wl wi H k l K B; [destruct k; discriminate|]. cbn [big_loop]. assert (H' : forall k l, nth_error L k = Some l -> 255 <= l -> l < 2 ^ wl /\ i + 1 + k < 2 ^ wi). { intros k' l' K' B'. destruct (H (S k') l' K' B'). split; auto. lia. }
  specialize (IH (i + 1) wl wi H'). destruct (big_loop L (i + 1) wl wi) as [b x]. cbn [fst snd] in IH. destruct (Nat.leb_spec 255 a) as [A|A]; cbn [fst snd lower_bound].
  - destruct (H 0 a eq_refl A) as [H0 H1]. rewrite Nat.add_0_r in H1. rewrite !tr_small by auto. destruct k as [|k]. { rewrite Nat.add_0_r, Nat.ltb_irrefl. cbn in *. congruence. } replace (i <? i + S k) with true by lia. cbn [nth_error] in *. replace (i + S k) with (i + 1 + k) by lia. auto.
  - destruct k as [|k]. { cbn in K. injection K as ->. lia. } replace (i + S k) with (i + 1 + k) by lia. auto.
Qed.
Lemma log_fit : forall m l, l <= m -> l < 2 ^ (Nat.log2 m + 1).
Proof. intros m l H. destruct (Nat.eq_dec m 0) as [-> |Z]. { cbn. lia. } pose proof (Nat.log2_spec m ltac:(lia)). replace (Nat.log2 m + 1) with (S (Nat.log2 m)) by lia. lia. Qed.
Theorem lb_ok : forall L i l, nth_error L i = Some l -> lb_at (lb_make L) i = Some l.
Proof.
  intros L i l E. unfold lb_make. destruct (small_loop_ok L 0 0 0) as (m & x & -> & _ & _ & H). destruct (big_loop L 0 (Nat.log2 m + 1) (Nat.log2 x + 1)) as [b y] eqn:BL. unfold lb_at. cbn [lb_small lb_big lb_idx].
  rewrite nth_error_map, E. cbn [option_map obind]. unfold small. destruct (Nat.ltb_spec l 255) as [A|A]. { destruct (Nat.eqb_spec l 255); [lia|auto]. } cbn [Nat.eqb negb].
  pose proof (big_loop_ok L 0 (Nat.log2 m + 1) (Nat.log2 x + 1)) as B. rewrite BL in B. cbn [fst snd Nat.add] in B. apply B; auto. intros k l' K L'. destruct (H k l' K L'). split; apply log_fit; auto.
Qed.

(** ** Huffman shaped bytes *)
Lemma big_filter : forall L wl, (forall k l, nth_error L k = Some l -> 255 <= l -> l < 2 ^ wl) -> big_vals L wl = filter (fun l => 255 <=? l) L.
Proof.
  induction L as [|a L IH]; intros wl H; auto. cbn [big_vals filter]. specialize (IH wl (fun k l => H (S k) l)). rewrite IH. destruct (Nat.leb_spec 255 a) as [A|A]; auto. f_equal. apply tr_small. apply (H 0 a); auto.
Qed.
Lemma filter_at : forall (f : nat -> bool) L i l, nth_error L i = Some l -> f l = true -> nth_error (filter f L) (length (filter f (firstn i L))) = Some l.
Proof. induction L as [|a L IH]; intros [|i] l E F; cbn in E; try discriminate. { injection E as ->. cbn [filter firstn]. rewrite F. auto. } cbn [filter firstn]. destruct (f a); cbn [length nth_error]; auto. Qed.
Lemma occ_big : forall L i, occ (map N.of_nat (map small L)) 255 i = length (filter (fun l => 255 <=? l) (firstn i L)).
Proof.
  intros L i. unfold occ. rewrite map_map, firstn_map. induction (firstn i L) as [|l X IH]; auto. cbn [map filter]. replace (255 =? N.of_nat (small l))%N with (255 <=? l). { destruct (255 <=? l); cbn [length]; auto. }
  unfold small. destruct (Nat.leb_spec 255 l) as [A|A], (Nat.ltb_spec l 255) as [B|B]; lia.
Qed.
Lemma small_lt : forall L x, In x (map N.of_nat (map small L)) -> true = true -> (x < 256)%N.
Proof. intros L x X _. rewrite map_map in X. apply in_map_iff in X. destruct X as (l & <- & _). unfold small. destruct (Nat.ltb_spec l 255); lia. Qed.
Theorem lw_ok : forall L v i l, lw_make L = Some (Ok v) -> nth_error L i = Some l -> lw_at v i = Some l.
Proof.
  intros L v i l MK E. unfold lw_make in MK. destruct (small_loop_ok L 0 0 0) as (m & x & ES & _ & _ & H). rewrite ES in MK. destruct (wp_make Huff true false (map N.of_nat (map small L))) as [[|w]|] eqn:MW; cbn [obind] in MK; try discriminate. injection MK as <-. unfold lw_at. cbn [lw_small lw_big].
  pose proof (o_access _ Huff true w (small_lt L) MW i (N.of_nat (small l))) as AC. rewrite AC by (rewrite !nth_error_map, E; auto). cbn [obind]. unfold small at 1 2. destruct (Nat.ltb_spec l 255) as [A|A].
  - destruct (N.eqb_spec (N.of_nat l) 255); [lia|]. cbn [negb]. rewrite Nat2N.id. auto.
  - change (N.of_nat 255 =? 255)%N with true. cbn [negb]. rewrite (o_rank _ Huff true w (small_lt L) MW) by (try (intros; reflexivity); rewrite !map_length; apply Nat.lt_le_incl; apply nth_error_Some; congruence). cbn [obind].
    rewrite occ_big. rewrite big_filter. { apply filter_at; auto. apply Nat.leb_le. auto. } intros k l' K L'. apply log_fit. eapply H; eauto.
Qed.
Theorem lw_build : forall L, L <> [] -> lw_make L <> None /\ (distinct (map (fun l => N.of_nat (Nat.min l 255)) L) <= 57 -> exists v, lw_make L = Some (Ok v)).
Proof.
  intros L NE. unfold lw_make. destruct (small_loop_ok L 0 0 0) as (m & x & -> & _). assert (N1 : map N.of_nat (map small L) <> []) by (destruct L; [congruence|discriminate]). split.
  - pose proof (o_total _ Huff true N1 (small_lt L)). destruct (wp_make Huff true false (map N.of_nat (map small L))) as [[|w]|]; cbn [obind]; congruence.
  - intros D. destruct (o_build _ Huff true N1 (small_lt L)) as [w ->]. { left. replace (map N.of_nat (map small L)) with (map (fun l => N.of_nat (Nat.min l 255)) L); auto. rewrite map_map. apply map_ext. intros l. unfold small. destruct (Nat.ltb_spec l 255); f_equal; lia. } cbn [obind]. eauto.
Qed.
