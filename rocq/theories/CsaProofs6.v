(** * Building a CSA from a text and its suffix array *)
From Coq Require Import List Arith Bool Lia Permutation.
From Verif Require Import Base SpecBits RankSelect AbsVec FnArr WtBase WtProofs SpecCsa Alphabet AlphabetProofs AlphabetProofs2 Csa CsaSample CsaProofs CsaProofs2 CsaProofs3 CsaProofs4 CsaProofs5.
Import ListNotations.

Definition sym_fits (a : akind) (c : nat) : Prop := match a with AINT => True | _ => c < 256 end.
Definition smp_pos (s : sampling) : Prop :=
  match s with SaOrder d e | TextOrder d e | Fuzzy d e => 0 < d /\ 0 < e | TextOrder2 d | Fuzzy2 d => 0 < d end.
(** the admitted index types: positive densities, and no fuzzy ISA sampling below csa_sada *)
Definition kind_ok (k : ikind) : Prop :=
  match k with
  | KWT s => smp_pos s
  | KSADA sd _ s => 0 < sd /\ smp_pos s /\ match s with Fuzzy2 _ => False | _ => True end
  | KBC => True
  end.

Section Build.
Variables (T sa : list nat).
Hypothesis TOK : text_ok T.
Hypothesis SA : is_sa T sa.

Lemma isa_loop_ok : forall k i, i + k = n T ->
  isa_loop (map (row sa) (seq i k)) i (farr (n T) (fun p => if isa T p <? i then isa T p else 0)) = Some (farr (n T) (isa T)).
Proof.
  induction k; intros i IK; cbn [seq map isa_loop].
  - f_equal. apply farr_ext. intros p P. pose proof (isa_lt T sa SA p P). replace (isa T p <? i) with true; auto. symmetry. apply Nat.ltb_lt. lia.
  - rewrite farr_aset by (apply row_lt; auto; lia). cbn [obind]. replace (i + 1) with (S i) by lia. rewrite <- (IHk (S i)) by lia. f_equal. apply farr_ext. intros p P.
    destruct (Nat.eqb_spec p (row sa i)) as [-> | N]. { rewrite isa_row by (auto; lia). replace (i <? S i) with true; auto. symmetry. apply Nat.ltb_lt. lia. }
    assert (isa T p <> i). { intros E. apply N. rewrite <- E. symmetry. apply row_isa; auto. } destruct (Nat.ltb_spec (isa T p) i), (Nat.ltb_spec (isa T p) (S i)); auto; lia.
Qed.
Lemma construct_isa_ok : construct_isa sa = Some (farr (n T) (isa T)).
Proof.
  unfold construct_isa. rewrite (sa_len T sa SA), farr_repeat. rewrite <- (isa_loop_ok (n T) 0) by auto. rewrite (row_map T sa SA). auto.
Qed.
Lemma sampling_ok : forall s, smp_pos s -> exists sm im, make_sampling s sa = Some (sm, im) /\ smp_ok T sa sm /\ qeq_ok T im /\ (match s with Fuzzy2 _ => True | _ => leq_ok T im end).
Proof.
  intros [d e|d e|d e|d|d] H; cbn [smp_pos make_sampling] in *.
  - destruct (sao_ok T sa d TOK SA (proj1 H)) as (v & E1 & V). destruct (iss_ok T sa e TOK SA (proj2 H)) as (w & E2 & W1 & W2). rewrite E1. cbn [obind]. rewrite E2. cbn [obind]. eauto 10.
  - destruct (txo_ok T sa d TOK SA (proj1 H)) as (m & v & E1 & V & _). destruct (iss_ok T sa e TOK SA (proj2 H)) as (w & E2 & W1 & W2). rewrite E1. cbn [obind]. rewrite E2. cbn [obind]. eauto 10.
  - rewrite construct_isa_ok. cbn [obind]. destruct (fz_ok T sa d TOK SA (proj1 H) _ eq_refl) as (z & E1 & V & _). destruct (iss_ok T sa e TOK SA (proj2 H)) as (w & E2 & W1 & W2). rewrite E1. cbn [obind]. rewrite E2. cbn [obind]. eauto 10.
  - destruct (txo_ok T sa d TOK SA H) as (m & v & E1 & V & W1 & W2). rewrite E1. cbn [obind]. eauto 10.
  - rewrite construct_isa_ok. cbn [obind]. destruct (fz_ok T sa d TOK SA H _ eq_refl) as (z & E1 & V & W). rewrite E1. cbn [obind]. eauto 10.
Qed.
Lemma alphabet_ok : forall a t, Permutation t T -> (forall c, In c T -> sym_fits a c) ->
  exists al, make_alph a t = Some al /\ forall M, (a <> AINT -> M = 256) -> alph_ok M T al.
Proof.
  intros a t P F. assert (NE : t <> []). { intros ->. apply Permutation_length in P. pose proof (n_pos T TOK). unfold n in *. cbn in P. lia. }
  assert (F' : forall c, In c t -> sym_fits a c) by (intros; apply F; eapply Permutation_in; eauto).
  destruct a; cbn [make_alph sym_fits] in *.
  - destruct (ba_ok t NE F') as (al & E & H). exists al. split; auto. intros M ME. rewrite ME by discriminate. eapply alph_ok_perm; eauto.
  - destruct (sba_ok t NE F') as (al & E & H). exists al. split; auto. intros M ME. rewrite ME by discriminate. eapply alph_ok_perm; eauto.
  - destruct (ia_ok t NE) as (al & E & H). exists al. split; auto. intros M _. eapply alph_ok_perm; eauto.
Qed.
(** density 1 *)
Lemma sao_len : forall w d s cm cs v v', sao_loop w d s cm cs v = Some v' -> length v' = length v.
Proof.
  induction s; intros cm cs v v' E; cbn [sao_loop] in E; [congruence|]. destruct (d =? cm); [|eapply IHs; eauto].
  destruct (wset w v cs a) eqn:W; [|discriminate]. cbn [obind] in E. apply IHs in E. apply wset_len in W. lia.
Qed.
Lemma iss_len : forall w d s i v v', iss_loop w d s i v = Some v' -> length v' = length v.
Proof.
  induction s; intros i v v' E; cbn [iss_loop] in E; [congruence|]. destruct (a mod d =? 0); [|eapply IHs; eauto].
  destruct (wset w v (a / d) i) eqn:W; [|discriminate]. cbn [obind] in E. apply IHs in E. apply wset_len in W. lia.
Qed.
Lemma list_eq_err : forall (a b : list nat), length a = length b -> (forall i, i < length a -> nth_error a i = nth_error b i) -> a = b.
Proof. intros a b L H. apply list_eq_nth with 0; auto. intros i I. pose proof (H i I) as E. rewrite !(nth_error_nth' _ 0) in E by lia. congruence. Qed.
Lemma sao_1 : sao_make 1 sa = Some sa.
Proof.
  destruct (sao_ok T sa 1 TOK SA ltac:(lia)) as (v & E & H & _). rewrite E. f_equal. pose proof (sa_len T sa SA) as SL.
  assert (LV : length v = n T). { unfold sao_make in E. apply sao_len in E. rewrite repeat_length, SL in E. rewrite Nat.div_1_r in E. lia. }
  apply list_eq_err; [lia|]. intros i I. destruct (H i ltac:(lia)) as (b & B & V). cbn [sao_smp sm_is sm_at] in *. rewrite Nat.mod_1_r in B. cbn [Nat.eqb] in B. rewrite Nat.div_1_r in V. rewrite V by congruence. symmetry. apply nth_error_nth'. lia.
Qed.
Lemma iss_1 : iss_make 1 sa = Some (farr (n T) (isa T)).
Proof.
  destruct (iss_ok T sa 1 TOK SA ltac:(lia)) as (v & E & H & _). rewrite E. f_equal. pose proof (sa_len T sa SA) as SL. pose proof (n_pos T TOK).
  assert (LV : length v = n T). { unfold iss_make in E. apply iss_len in E. rewrite repeat_length, SL in E. replace (1 <=? n T) with true in E by (symmetry; apply Nat.leb_le; lia). rewrite Nat.div_1_r in E. lia. }
  apply list_eq_err. { rewrite farr_length. auto. } intros i I. destruct (H i ltac:(lia)) as (p & P & Q). cbn [iss_ismp im_leq] in Q. rewrite Nat.div_1_r, Nat.mul_1_r in Q. destruct (nth_error v i) eqn:V; [|discriminate]. cbn [obind] in Q.
  injection Q as -> <-. symmetry. apply farr_nth_error. lia.
Qed.

Theorem build_ok : forall k a, kind_ok k -> (forall c, In c T -> sym_fits a c) ->
  exists x, build k a T sa = Some x /\ forall M, (a <> AINT -> M = 256) -> csa_ok M T sa x.
Proof.
  intros k a K F. destruct k as [s|sd buf s|]; cbn [build kind_ok] in *.
  - rewrite (bwt_ok T sa SA). cbn [obind]. destruct (alphabet_ok a (bwt T sa) (bwt_perm T sa SA) F) as (al & E & A). rewrite E. cbn [obind].
    destruct (sampling_ok s K) as (sm & im & E2 & S1 & S2 & _). rewrite E2. cbn [obind fst snd]. eexists. split; [reflexivity|]. intros M ME. apply csa_wt_ok; auto.
  - rewrite (bwt_ok T sa SA). cbn [obind]. destruct (alphabet_ok a (bwt T sa) (bwt_perm T sa SA) F) as (al & E & A). rewrite E. cbn [obind].
    assert (P : construct_psi (bwt T sa) al = Some (farr (n T) (psiv T sa))) by (apply (construct_psi_ok 256); auto). rewrite P. cbn [obind].
    destruct K as (SD & SP & NF). destruct (sampling_ok s SP) as (sm & im & E2 & S1 & S2 & S3). rewrite E2. cbn [obind fst snd]. eexists. split; [reflexivity|]. intros M ME. apply csa_sada_ok; auto. destruct s; auto; tauto.
  - destruct (alphabet_ok a T (Permutation_refl _) F) as (al & E & A). rewrite E. cbn [obind]. rewrite sao_1. cbn [obind]. rewrite iss_1. cbn [obind]. eexists. split; [reflexivity|]. intros M ME. apply csa_bc_ok; auto.
Qed.

(** a bound for the symbols of a pattern *)
End Build.
Lemma pat_bound : forall a (T P : list nat), (forall c, In c T -> sym_fits a c) -> (forall c, In c P -> sym_fits a c) -> exists M, (a <> AINT -> M = 256) /\ (forall c, In c P -> c < M) /\ forall c, In c T -> c < M.
Proof.
  intros a T P HT H. destruct a; cbn [sym_fits] in *; [exists 256; auto|exists 256; auto|]. destruct (max_ex (P ++ T)) as [M B]. exists M. split; [congruence|].
  split; intros c C; apply B; apply in_or_app; auto.
Qed.

(** ** The statements of PropCsa.v *)
Section Stmts.
Variables (k : ikind) (a : akind) (T sa : list nat).
Hypothesis K : kind_ok k.
Hypothesis TOK : text_ok T.
Hypothesis SA : is_sa T sa.
Hypothesis F : forall c, In c T -> sym_fits a c.

Theorem s_bsearch : exists x, build k a T sa = Some x /\ forall P w l r, (forall c, In c P -> sym_fits a c) -> ~ In 0 (removelast (P ++ w)) -> sa_interval T sa w l r ->
  exists l' r', bsearch x l r P = Some (l', r') /\ sa_interval T sa (P ++ w) l' r'.
Proof.
  destruct (build_ok T sa TOK SA k a K F) as (x & E & H). exists x. split; auto. intros P w l r PF. destruct (pat_bound a T P F PF) as (M & M1 & M2 & M3). intros. apply (bsearch_ok M); auto.
Qed.
Theorem s_count : exists x, build k a T sa = Some x /\ forall P, (forall c, In c P -> sym_fits a c) -> ~ In 0 (removelast P) -> count x P = Some (length (occs T P)).
Proof.
  destruct (build_ok T sa TOK SA k a K F) as (x & E & H). exists x. split; auto. intros P PF PZ. destruct (pat_bound a T P F PF) as (M & M1 & M2 & M3). apply (CsaProofs2.count_ok M T sa); auto. split; auto.
Qed.
Theorem s_locate : exists x, build k a T sa = Some x /\ forall P, (forall c, In c P -> sym_fits a c) -> ~ In 0 (removelast P) -> exists o, locate x P = Some o /\ Permutation o (occs T P).
Proof.
  destruct (build_ok T sa TOK SA k a K F) as (x & E & H). exists x. split; auto. intros P PF PZ. destruct (pat_bound a T P F PF) as (M & M1 & M2 & M3). apply (locate_ok M T sa); auto. split; auto.
Qed.
Theorem s_forward : exists x, build k a T sa = Some x /\ forall P l r, (forall c, In c P -> sym_fits a c) -> ~ In 0 P -> l <= r <= length T ->
  exists l' r', forward_search x l r P = Some (l', r') /\ l <= l' <= r' /\ r' <= r /\ forall j, l <= j < r -> (l' <= j < r' <-> occurs_at T P (nth j sa 0)).
Proof.
  destruct (build_ok T sa TOK SA k a K F) as (x & E & H). exists x. split; auto. intros P l r PF PZ B. destruct (pat_bound a T P F PF) as (M & M1 & M2 & M3). apply (forward_ok M T sa); auto.
  intros c C. split; auto. destruct c; [tauto|lia].
Qed.

Theorem s_lf_psi : exists x, build k a T sa = Some x /\ forall i, i < length T -> exists j q, c_lf x i = Some j /\ c_psi x i = Some q /\ j < length T /\ q < length T /\
  nth j sa 0 = (nth i sa 0 + length T - 1) mod length T /\ nth q sa 0 = (nth i sa 0 + 1) mod length T /\ c_psi x j = Some i /\ c_lf x q = Some i.
Proof.
  destruct (build_ok T sa TOK SA k a K F) as (x & E & H). exists x. split; auto. intros i I. destruct (pat_bound a T [] F) as (W & WE & _ & WT); [intros ? []|]. specialize (H W WE). fold (n T) in *. exists (lfv T sa i), (psiv T sa i).
  pose proof (row_lt T sa SA i I) as RL. pose proof (lfv_lt T sa SA i I) as L1. pose proof (psiv_lt T sa SA i I) as L2.
  split; [apply (co_lf _ _ _ _ H); auto|]. split; [apply (co_psi _ _ _ _ H); auto|]. split; auto. split; auto.
  split. { rewrite <- pv_mod by auto. apply row_lfv; auto. } split. { rewrite <- nx_mod by auto. apply row_psiv; auto. }
  rewrite (co_psi _ _ _ _ H), (co_lf _ _ _ _ H) by auto. rewrite psiv_lfv, lfv_psiv; auto.
Qed.
Theorem s_sa_isa : exists x, build k a T sa = Some x /\ c_n x = length T /\ forall i, i < length T -> c_sa x i = Some (nth i sa 0) /\ c_isa x (nth i sa 0) = Some i.
Proof.
  destruct (build_ok T sa TOK SA k a K F) as (x & E & H). exists x. split; auto. destruct (pat_bound a T [] F) as (W & WE & _ & WT); [intros ? []|]. specialize (H W WE). split. { apply (co_n _ _ _ _ H). } intros i I. split; [apply (co_sa _ _ _ _ H); auto|].
  fold (n T) in *. rewrite (co_isa _ _ _ _ H) by (apply (row_lt T sa SA); auto). f_equal. apply (isa_row T sa SA); auto.
Qed.
Definition bwt_spec : list nat := map (fun p => nth ((p + length T - 1) mod length T) T 0) sa.
Lemma bwt_spec_eq : bwt_spec = bwt T sa.
Proof.
  unfold bwt_spec, bwt. rewrite <- (row_map T sa SA) at 1. rewrite map_map. apply map_ext_in. intros j J. apply in_seq in J. unfold bw, tx. f_equal. symmetry. apply pv_mod. apply (row_lt T sa SA). lia.
Qed.
Theorem s_bwt : exists x, build k a T sa = Some x /\ construct_bwt T sa = Some bwt_spec /\
  (forall i, i < length T -> psi_bwt (c_al x) (c_lf x) i = Some (nth i bwt_spec 0)) /\
  (forall i c, i <= length T -> sym_fits a c -> c_rank x i c = Some (count_occ Nat.eq_dec (firstn i bwt_spec) c)).
Proof.
  destruct (build_ok T sa TOK SA k a K F) as (x & E & H). exists x. split; auto. rewrite bwt_spec_eq. split; [apply bwt_ok; auto|]. fold (n T). split.
  - intros i I. destruct (pat_bound a T [] F) as (W & WE & _ & WT); [intros ? []|]. specialize (H W WE). rewrite (psi_bwt_ok W T sa (c_al x)); auto. { f_equal. symmetry. apply nth_error_nth. apply bwt_at; auto. } { apply (co_al _ _ _ _ H). } apply (co_lf _ _ _ _ H).
  - intros i c I C. destruct (pat_bound a T [c] F) as (M & M1 & M2 & M3). { intros d [<- | []]; auto. } specialize (H M M1). rewrite (co_rank _ _ _ _ H) by (auto; apply M2; left; auto). f_equal.
    unfold bwt. rewrite firstn_map. replace (firstn i (seq 0 (n T))) with (seq 0 i).
    2: { replace (n T) with (i + (n T - i)) by lia. rewrite seq_app, firstn_app, seq_length, Nat.sub_diag, firstn_all2 by (rewrite seq_length; lia). symmetry. apply app_nil_r. }
    rewrite rank_seq. clear. induction (seq 0 i) as [|a0 l IH]; auto. cbn [filter map count_occ]. destruct (Nat.eq_dec (bw T sa a0) c), (Nat.eqb_spec (bw T sa a0) c); cbn [length]; try congruence; auto.
Qed.
Theorem s_select_bwt : exists x, build k a T sa = Some x /\ forall i c, 1 <= i -> sym_fits a c ->
  exists p, psi_select_bwt (c_al x) (c_psi x) (c_n x) i c = Some p /\ wt_select_bwt bwt_spec (c_al x) i c = Some p /\
  if i <=? count_occ Nat.eq_dec bwt_spec c then p < length T /\ nth p bwt_spec 0 = c /\ count_occ Nat.eq_dec (firstn p bwt_spec) c = i - 1 else p = length T.
Proof.
  destruct (build_ok T sa TOK SA k a K F) as (x & E & H). exists x. split; auto. intros i c I C. rewrite bwt_spec_eq.
  destruct (pat_bound a T [c] F) as (M & M1 & M2 & M3). { intros d [<- | []]; auto. } specialize (H M M1).
  destruct (select_bwt_ok M T sa (c_al x) TOK SA (co_al _ _ _ _ H) (c_psi x) (co_psi _ _ _ _ H) i c I (M2 c (or_introl eq_refl))) as [(p & P1 & P2) (q & Q1 & Q2)].
  assert (CO : length (filter (Nat.eqb c) (bwt T sa)) = count_occ Nat.eq_dec (bwt T sa) c).
  { clear. induction (bwt T sa) as [|a0 l IH]; auto. cbn [filter count_occ]. destruct (Nat.eqb_spec c a0), (Nat.eq_dec a0 c); cbn [length]; try congruence; auto. }
  unfold sel_spec in *. rewrite CO in *. replace (1 <=? i) with true in * by (symmetry; apply Nat.leb_le; auto). cbn [andb] in *.
  rewrite (co_n _ _ _ _ H). fold (n T). exists q. split; auto. destruct (i <=? count_occ Nat.eq_dec (bwt T sa) c).
  - destruct P2 as [P2 PL]. destruct Q2 as [Q2 QL]. assert (p = q) by (eapply is_select_unique; eauto). subst p. split; auto. split; auto. destruct Q2 as [A B]. split.
    + rewrite is_sym_bw in A by auto. apply Nat.eqb_eq in A. rewrite <- A. apply nth_error_nth. apply bwt_at; auto.
    + rewrite rank_bw in B by lia. replace (i - 1) with (rank_of (fun j => bw T sa j =? c) q) by lia.
      unfold bwt. rewrite firstn_map. replace (firstn q (seq 0 (n T))) with (seq 0 q).
      2: { replace (n T) with (q + (n T - q)) by lia. rewrite seq_app, firstn_app, seq_length, Nat.sub_diag, firstn_all2 by (rewrite seq_length; lia). symmetry. apply app_nil_r. }
      rewrite rank_seq. clear. induction (seq 0 q) as [|a0 l IH]; auto. cbn [filter map count_occ]. destruct (Nat.eq_dec (bw T sa a0) c), (Nat.eqb_spec (bw T sa a0) c); cbn [length]; try congruence; auto.
  - subst. auto.
Qed.
Theorem s_extract : exists x, build k a T sa = Some x /\
  (forall p, p < length T -> text_at x p = Some (nth p T 0)) /\
  forall b e, b <= e < length T -> extract_psi x b e = Some (firstn (e + 1 - b) (skipn b T)) /\ extract_lf bwt_spec x b e = Some (firstn (e + 1 - b) (skipn b T)).
Proof.
  destruct (build_ok T sa TOK SA k a K F) as (x & E & H). exists x. split; auto. destruct (pat_bound a T [] F) as (W & WE & _ & WT); [intros ? []|]. specialize (H W WE). split.
  - intros p P. apply (text_ok' W T sa x); auto.
  - intros b e B. split; [apply (extract_psi_ok W T sa x); auto|]. rewrite bwt_spec_eq. apply (extract_lf_ok W T sa); auto.
Qed.
End Stmts.

(** ** Alphabets *)
Theorem ba_ok' : forall t, t <> [] -> (forall c, In c t -> c < 256) -> exists A, ba_make t = Some A /\
  al_sigma A = dist t /\ (forall c, In c t -> al_c2c A c = Some (dless t c) /\ al_c2ch A (dless t c) = Some c /\ nth_error (al_C A) (dless t c) = Some (less t c)) /\
  (forall c, c < 256 -> ~ In c t -> al_c2c A c = Some 0) /\ nth_error (al_C A) (dist t) = Some (length t).
Proof. intros t H F. destruct (ba_ok t H F) as (A & E & []). exists A. auto 10. Qed.
Theorem sba_ok' : forall t, t <> [] -> (forall c, In c t -> c < 256) -> exists A, sba_make t = Some A /\
  al_sigma A = dist t /\ (forall c, In c t -> al_c2c A c = Some (dless t c) /\ al_c2ch A (dless t c) = Some c /\ nth_error (al_C A) (dless t c) = Some (less t c)) /\
  (forall c, c < 256 -> ~ In c t -> al_c2c A c = Some 0) /\ nth_error (al_C A) (dist t) = Some (length t).
Proof. intros t H F. destruct (sba_ok t H F) as (A & E & []). exists A. auto 10. Qed.
Theorem ia_ok' : forall t, t <> [] -> exists A, ia_make t = Some A /\
  al_sigma A = dist t /\ (forall c, In c t -> al_c2c A c = Some (dless t c) /\ al_c2ch A (dless t c) = Some c /\ nth_error (al_C A) (dless t c) = Some (less t c)) /\
  (forall c, ~ In c t -> al_c2c A c = Some 0) /\ nth_error (al_C A) (dist t) = Some (length t).
Proof.
  intros t H. destruct (ia_ok t H) as (A & E & O). exists A. split; auto. destruct (O 0). split; auto. split; [auto|]. split; [|auto]. intros c. destruct (O (S c)). auto.
Qed.

(** a decision procedure for concrete texts *)
Definition sa_check (T sa : list nat) : bool :=
  forallb (fun i => existsb (Nat.eqb i) sa) (seq 0 (length T)) && (length sa =? length T) &&
  forallb (fun i => forallb (fun j => negb (i <? j) || ltb_lex (skipn (nth i sa 0) T) (skipn (nth j sa 0) T)) (seq 0 (length T))) (seq 0 (length T)).
Lemma sa_check_ok : forall T sa, sa_check T sa = true -> is_sa T sa.
Proof.
  intros T sa H. unfold sa_check in H. apply andb_true_iff in H. destruct H as [H A]. apply andb_true_iff in H. destruct H as [H L]. apply Nat.eqb_eq in L. split.
  - apply Permutation_sym. apply NoDup_Permutation_bis; [apply seq_NoDup|rewrite seq_length; lia|]. intros i I. rewrite forallb_forall in H. specialize (H i I). apply existsb_exists in H. destruct H as (y & Y & E). apply Nat.eqb_eq in E. subst. auto.
  - intros i j [L1 L2]. rewrite forallb_forall in A. specialize (A i ltac:(apply in_seq; lia)). rewrite forallb_forall in A. specialize (A j ltac:(apply in_seq; lia)).
    rewrite (proj2 (Nat.ltb_lt i j) L1) in A. cbn [negb orb] in A. apply ltb_lex_iff in A. exact A.
Qed.
