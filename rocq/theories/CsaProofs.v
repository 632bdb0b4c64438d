(** * Suffix arrays: counting rows, LF and psi *)
From Coq Require Import List Arith Bool Lia Permutation.
From Verif Require Import Base SpecBits RankSelect AbsVec FnArr WtBase SpecCsa Alphabet AlphabetProofs Csa.
Import ListNotations.

(** ** Lexicographic order *)
Fixpoint ltb_lex (a b : list nat) : bool :=
  match a, b with
  | _, [] => false
  | [], _ :: _ => true
  | x :: a', y :: b' => (x <? y) || ((x =? y) && ltb_lex a' b')
  end.
Lemma ltb_lex_iff : forall a b, ltb_lex a b = true <-> lex_lt a b.
Proof.
  induction a; destruct b; cbn [ltb_lex lex_lt]; try (split; [discriminate|tauto]); [tauto|].
  rewrite orb_true_iff, andb_true_iff, Nat.ltb_lt, Nat.eqb_eq, IHa. tauto.
Qed.
Lemma lex_trans : forall a b c, lex_lt a b -> lex_lt b c -> lex_lt a c.
Proof.
  induction a; destruct b, c; cbn; try tauto. intros [A|[A A']] [B|[B B']]; subst; try (left; lia). right. split; auto. eapply IHa; eauto.
Qed.
Lemma lex_irr : forall a, ~ lex_lt a a.
Proof. induction a; cbn; [tauto|]. intros [A|[_ A]]; [lia|auto]. Qed.

Fixpoint prefixb (P s : list nat) : bool :=
  match P, s with [], _ => true | _ :: _, [] => false | c :: P', x :: s' => (c =? x) && prefixb P' s' end.
Lemma prefixb_iff : forall P s, prefixb P s = true <-> firstn (length P) s = P.
Proof.
  induction P; intros s; cbn [prefixb length firstn]. { tauto. }
  destruct s; [split; discriminate|]. rewrite andb_true_iff, Nat.eqb_eq, IHP. split; [intros [-> ->]; auto|]. intros E. injection E as -> ->. rewrite ?E. auto.
Qed.

(** cuts: sets of strings closed downwards *)
Definition cut (D : list nat -> bool) : Prop := forall a b, lex_lt a b -> D b = true -> D a = true.
Definition dlo (P s : list nat) : bool := ltb_lex s P.
Definition dhi (P s : list nat) : bool := ltb_lex s P || prefixb P s.
Lemma dlo_cut : forall P, cut (dlo P).
Proof. intros P a b A B. unfold dlo in *. apply ltb_lex_iff in B. apply ltb_lex_iff. eapply lex_trans; eauto. Qed.
Lemma dhi_cut : forall P, cut (dhi P).
Proof.
  induction P as [|c P IH]; intros a b A B. { destruct a; reflexivity. } unfold dhi in *.
  destruct a as [|x a]; [reflexivity|]. destruct b as [|y b]; [cbn in A; tauto|]. cbn [lex_lt] in A. cbn [ltb_lex prefixb] in B |- *.
  destruct A as [A|[-> A]].
  - replace (x <? c) with true; auto. symmetry. apply Nat.ltb_lt. destruct (Nat.ltb_spec y c), (Nat.eqb_spec y c), (Nat.eqb_spec c y); cbn in B; try discriminate; lia.
  - rewrite (Nat.eqb_sym c y) in *. destruct (y <? c); auto. cbn [orb] in *. destruct (y =? c); auto. cbn [andb] in *. apply (IH a b); auto.
Qed.

(** a predicate closed downwards is an initial segment of length its rank *)
Lemma down_rank : forall f n, (forall i j, i < j < n -> f j = true -> f i = true) -> forall j, j < n -> (f j = true <-> j < rank_of f n).
Proof.
  induction n; intros H j J; [lia|]. rewrite rank_of_S. destruct (f n) eqn:E.
  - assert (A : forall i, i < n -> f i = true) by (intros i I; apply (H i n); auto; lia). rewrite (rank_of_all_true f n A). cbn.
    split; intros; [lia|]. destruct (Nat.eq_dec j n) as [-> | N]; auto. apply A. lia.
  - cbn. rewrite Nat.add_0_r. destruct (Nat.eq_dec j n) as [-> | N].
    + pose proof (rank_of_le f n). rewrite E. split; [discriminate|lia].
    + apply IHn; [|lia]. intros i k I. apply H. lia.
Qed.

(** counting over a permutation *)
Lemma rank_seq : forall (f : nat -> bool) n, rank_of f n = length (filter f (seq 0 n)).
Proof. reflexivity. Qed.
Lemma rank_map : forall (f : nat -> bool) (g : nat -> nat) n, length (filter f (map g (seq 0 n))) = rank_of (fun j => f (g j)) n.
Proof. intros. rewrite rank_seq. induction (seq 0 n); auto. cbn [map filter]. destruct (f (g a)); cbn; auto. Qed.
Lemma rank_perm : forall f g n, Permutation (map g (seq 0 n)) (seq 0 n) -> rank_of (fun j => f (g j)) n = rank_of f n.
Proof. intros. rewrite <- rank_map. rewrite rank_seq. apply filter_length_perm. auto. Qed.
Lemma rank_imp : forall (f g : nat -> bool) n k, (forall j, j < n -> g j = true <-> j < k) -> k <= n -> rank_of (fun j => f j && g j) n = rank_of f k.
Proof.
  intros f g n k H L. replace n with (k + (n - k)) by lia. rewrite rank_of_add.
  rewrite (rank_of_ext (fun j => f (k + j) && g (k + j)) (fun _ => false)). 2: { intros j J. replace (g (k + j)) with false; [apply andb_false_r|]. symmetry. apply not_true_is_false. intros G. apply H in G; lia. }
  rewrite rank_of_const_false, Nat.add_0_r. apply rank_of_ext. intros j J. rewrite (proj2 (H j ltac:(lia)) J). apply andb_true_r.
Qed.
Lemma rank_disj : forall (f g : nat -> bool) n, (forall j, j < n -> f j = true -> g j = false) -> rank_of (fun j => f j || g j) n = rank_of f n + rank_of g n.
Proof.
  induction n; intros H; auto. rewrite !rank_of_S, IHn by (intros; apply H; auto). specialize (H n ltac:(lia)). destruct (f n), (g n); cbn; try lia.
Qed.

Lemma nodup_map : forall (g : nat -> nat) l, NoDup l -> (forall x y, In x l -> In y l -> g x = g y -> x = y) -> NoDup (map g l).
Proof.
  induction l as [|a l IH]; intros N H; cbn [map]; [constructor|]. inversion N; subst. constructor.
  - intros I. apply in_map_iff in I. destruct I as (y & E & I). assert (y = a) by (apply H; cbn; auto). subst. auto.
  - apply IH; auto. intros. apply H; cbn; auto.
Qed.

Section Sa.
Variables T sa : list nat.
Hypothesis TOK : text_ok T.
Hypothesis SA : is_sa T sa.
Definition n := length T.
Definition tx p := nth p T 0.
Definition sx p := skipn p T.
Definition row j := nth j sa 0.
Definition pv p := if p =? 0 then n - 1 else p - 1.
Definition nx p := if p =? n - 1 then 0 else p + 1.

Lemma n_pos : 0 < n.
Proof. destruct TOK as (U & E & _). unfold n. rewrite E, app_length. cbn. lia. Qed.
Lemma tx_last : tx (n - 1) = 0.
Proof. destruct TOK as (U & E & _). unfold n, tx. rewrite E, app_length. cbn [length]. replace (length U + 1 - 1) with (length U) by lia. apply nth_middle. Qed.
Lemma tx_zero : forall p, p < n -> tx p = 0 -> p = n - 1.
Proof.
  intros p L Z. destruct TOK as (U & E & N). unfold n, tx in *. rewrite E, app_length in *. cbn [length] in *. destruct (Nat.eq_dec p (length U)); [lia|]. exfalso. apply N.
  rewrite app_nth1 in Z by lia. rewrite <- Z. apply nth_In. lia.
Qed.
Lemma sx_cons : forall p, p < n -> sx p = tx p :: sx (S p).
Proof. intros. unfold sx, tx. clear TOK SA. unfold n in H. revert p H. induction T; cbn [length]; intros p L; [lia|]. destruct p; auto. cbn [skipn nth]. apply IHl. lia. Qed.
Lemma sa_len : length sa = n.
Proof. destruct SA as [P _]. apply Permutation_length in P. rewrite seq_length in P. auto. Qed.
Lemma row_map : map row (seq 0 n) = sa.
Proof. rewrite <- sa_len. symmetry. apply (farr_of_list nat sa 0). Qed.
Lemma row_perm : Permutation (map row (seq 0 n)) (seq 0 n).
Proof. rewrite row_map. apply (proj1 SA). Qed.
Lemma row_lt : forall j, j < n -> row j < n.
Proof. intros. assert (I : In (row j) (seq 0 n)). { apply (Permutation_in _ (proj1 SA)). apply nth_In. rewrite sa_len. auto. } apply in_seq in I. lia. Qed.
Lemma row_sx : forall i j, i < j < n -> lex_lt (sx (row i)) (sx (row j)).
Proof. apply (proj2 SA). Qed.
Lemma row_inj : forall i j, i < n -> j < n -> row i = row j -> i = j.
Proof.
  intros i j I J E. destruct (Nat.lt_trichotomy i j) as [L|[L|L]]; auto; exfalso.
  - pose proof (row_sx i j ltac:(lia)) as X. rewrite E in X. apply lex_irr in X. auto.
  - pose proof (row_sx j i ltac:(lia)) as X. rewrite E in X. apply lex_irr in X. auto.
Qed.
Lemma row_ex : forall p, p < n -> exists j, j < n /\ row j = p.
Proof.
  intros p L. assert (I : In p sa). { apply (Permutation_in _ (Permutation_sym (proj1 SA))). apply in_seq. unfold n in L. lia. }
  apply In_nth with (d := 0) in I. destruct I as (j & J & E). rewrite sa_len in J. exists j. auto.
Qed.
Lemma row_lex : forall i j, i < n -> j < n -> (i < j <-> lex_lt (sx (row i)) (sx (row j))).
Proof.
  intros i j I J. split. { intros. apply row_sx. lia. } intros L. destruct (Nat.lt_trichotomy i j) as [K|[K|K]]; auto; exfalso.
  - subst. apply lex_irr in L. auto.
  - pose proof (row_sx j i ltac:(lia)). eapply lex_irr, lex_trans; eauto.
Qed.

(** number of suffixes in a cut; the rows of a cut are the first ones *)
Definition rows (D : list nat -> bool) : nat := rank_of (fun p => D (sx p)) n.
Lemma rows_le : forall D, rows D <= n.
Proof. intros. apply rank_of_le. Qed.
Lemma rows_iff : forall D, cut D -> forall j, j < n -> (D (sx (row j)) = true <-> j < rows D).
Proof.
  intros D C j J. unfold rows. rewrite <- (rank_perm (fun p => D (sx p)) row) by apply row_perm. apply (down_rank (fun k => D (sx (row k)))); auto.
  intros a b L. apply C. apply row_sx. auto.
Qed.

(** predecessor in the text, cyclically *)
Lemma pv_lt : forall p, p < n -> pv p < n.
Proof. intros. unfold pv. destruct (Nat.eqb_spec p 0); lia. Qed.
Lemma nx_lt : forall p, p < n -> nx p < n.
Proof. intros. unfold nx. destruct (Nat.eqb_spec p (n - 1)); lia. Qed.
Lemma pv_nx : forall p, p < n -> pv (nx p) = p.
Proof. intros. unfold pv, nx. destruct (Nat.eqb_spec p (n - 1)); cbn [Nat.eqb]. { lia. } replace (p + 1 =? 0) with false by (symmetry; apply Nat.eqb_neq; lia). lia. Qed.
Lemma nx_pv : forall p, p < n -> nx (pv p) = p.
Proof. intros. unfold pv, nx. destruct (Nat.eqb_spec p 0). { rewrite Nat.eqb_refl. auto. } replace (p - 1 =? n - 1) with false by (symmetry; apply Nat.eqb_neq; lia). lia. Qed.
Lemma pv_mod : forall p, p < n -> pv p = (p + n - 1) mod n.
Proof.
  intros. unfold pv. destruct (Nat.eqb_spec p 0) as [-> | N]. { rewrite Nat.mod_small by lia. lia. }
  replace (p + n - 1) with ((p - 1) + 1 * n) by lia. rewrite Nat.mod_add by lia. rewrite Nat.mod_small; lia.
Qed.
Lemma nx_mod : forall p, p < n -> nx p = (p + 1) mod n.
Proof.
  intros. unfold nx. destruct (Nat.eqb_spec p (n - 1)) as [-> | N]. { replace (n - 1 + 1) with n by lia. rewrite Nat.mod_same; lia. }
  rewrite Nat.mod_small; lia.
Qed.
Lemma pv_perm : Permutation (map pv (seq 0 n)) (seq 0 n).
Proof.
  apply NoDup_Permutation.
  - apply nodup_map; [apply seq_NoDup|]. intros x y X Y E. apply in_seq in X, Y. rewrite <- (nx_pv x), <- (nx_pv y), E by lia. auto.
  - apply seq_NoDup.
  - intros x. rewrite in_map_iff. split.
    + intros (y & E & I). apply in_seq in I. apply in_seq. pose proof (pv_lt y). lia.
    + intros I. apply in_seq in I. exists (nx x). split; [apply pv_nx; lia|]. apply in_seq. pose proof (nx_lt x). lia.
Qed.

(** the Burrows Wheeler transform *)
Definition bw j := tx (pv (row j)).
Definition bwt := map bw (seq 0 n).
Lemma bwt_len : length bwt = n.
Proof. unfold bwt. rewrite map_length, seq_length. auto. Qed.
Lemma bwt_at : forall j, j < n -> nth_error bwt j = Some (bw j).
Proof. apply farr_nth_error. Qed.
Lemma is_sym_bw : forall c j, j < n -> is_sym bwt c j = (bw j =? c).
Proof. intros. unfold is_sym. rewrite bwt_at by auto. auto. Qed.
Lemma rank_bw : forall c i, i <= n -> rank_of (is_sym bwt c) i = rank_of (fun j => bw j =? c) i.
Proof. intros. apply rank_of_ext. intros. apply is_sym_bw. lia. Qed.
Lemma bwt_ok : construct_bwt T sa = Some bwt.
Proof.
  unfold construct_bwt, bwt. rewrite <- row_map. assert (H : forall j, In j (seq 0 n) -> j < n) by (intros j J; apply in_seq in J; lia). revert H.
  induction (seq 0 n) as [|j l IH]; intros H; cbn [map bwt_loop]; auto.
  pose proof (row_lt j (H j (or_introl eq_refl))) as L. pose proof (pv_lt (row j) L) as PL.
  assert (E : (if row j =? 0 then Some (row j + (length T - 1)) else csub (row j) 1) = Some (pv (row j))).
  { unfold pv, csub. fold n. destruct (Nat.eqb_spec (row j) 0) as [Z | Z]. { rewrite Z. auto. } replace (1 <=? row j) with true by (symmetry; apply Nat.leb_le; lia). auto. }
  rewrite E. cbn [obind]. rewrite nth_error_nth' with (d := 0) by (unfold n in PL; auto). cbn [obind]. rewrite IH by (intros; apply H; right; auto). auto.
Qed.
Lemma bwt_perm : Permutation bwt T.
Proof.
  unfold bwt. replace (map bw (seq 0 n)) with (map tx (map pv (map row (seq 0 n)))) by (rewrite !map_map; auto).
  transitivity (map tx (seq 0 n)). 2: { unfold n. replace (map tx (seq 0 (length T))) with T; [auto|]. apply (farr_of_list nat T 0). }
  apply Permutation_map. transitivity (map pv (seq 0 n)). { apply Permutation_map, row_perm. } apply pv_perm.
Qed.
Lemma less_bwt : forall c, less bwt c = less T c.
Proof. intros. unfold less. apply filter_length_perm. apply bwt_perm. Qed.
Lemma less_T : forall c, less T c = rank_of (fun p => tx p <? c) n.
Proof. intros. unfold less. rewrite (farr_of_list nat T 0) at 1. apply (rank_map (fun x => x <? c) tx). Qed.
Lemma less_1 : less T 1 = 1.
Proof.
  rewrite less_T. rewrite (rank_of_ext _ (fun p => (p =? n - 1))). 2: { intros p L. destruct (Nat.eqb_spec p (n - 1)) as [-> | N]. { rewrite tx_last. auto. } apply Nat.ltb_ge. destruct (tx p) eqn:E; [|lia]. exfalso. apply N. apply tx_zero; auto. }
  pose proof n_pos. destruct n as [|m] eqn:EM; [lia|]. replace (S m - 1) with m by lia. rewrite rank_of_S, Nat.eqb_refl. cbn [b2nat].
  rewrite (rank_of_ext _ (fun _ => false)). { rewrite rank_of_const_false. auto. } intros j J. apply Nat.eqb_neq. lia.
Qed.

(** the cut after prepending a symbol *)
Definition dcons (c : nat) (D : list nat -> bool) (s : list nat) : bool :=
  match s with [] => false | x :: r => (x <? c) || ((x =? c) && D r) end.

Lemma rows_step : forall c D, 0 < c -> cut D -> rows (dcons c D) = less T c + rank_of (fun j => bw j =? c) (rows D).
Proof.
  intros c D C0 C. unfold rows at 1. rewrite (rank_of_ext _ (fun p => (tx p <? c) || ((tx p =? c) && D (sx (S p))))).
  2: { intros p L. rewrite (sx_cons p L). auto. }
  rewrite rank_disj. 2: { intros p _ L. apply Nat.ltb_lt in L. replace (tx p =? c) with false; auto. symmetry. apply Nat.eqb_neq. lia. }
  f_equal. { symmetry. apply less_T. }
  rewrite <- (rank_perm (fun p => (tx p =? c) && D (sx (S p))) pv n pv_perm).
  rewrite <- (rank_perm (fun p => (tx (pv p) =? c) && D (sx (S (pv p)))) row n row_perm).
  rewrite <- (rank_imp (fun j => bw j =? c) (fun j => D (sx (row j))) n (rows D)); [|intros; apply rows_iff; auto|apply rows_le].
  apply rank_of_ext. intros j J. unfold bw. destruct (Nat.eqb_spec (tx (pv (row j))) c) as [E|E]; auto. cbn [andb]. f_equal. f_equal.
  unfold pv in *. destruct (Nat.eqb_spec (row j) 0); [|lia]. rewrite tx_last in E. lia.
Qed.

(** ** LF *)
Definition isa p := rows (dlo (sx p)).
Lemma isa_row : forall j, j < n -> isa (row j) = j.
Proof.
  intros j J. unfold isa. pose proof (rows_le (dlo (sx (row j)))) as L. set (k := rows _) in *.
  assert (H : forall i, i < n -> i < k <-> i < j). { intros i I. unfold k. rewrite <- rows_iff by (auto; apply dlo_cut). unfold dlo. rewrite ltb_lex_iff. symmetry. apply row_lex; auto. }
  destruct (Nat.lt_trichotomy k j) as [A|[A|A]]; auto.
  - pose proof (H k ltac:(lia)). lia.
  - pose proof (H j J). lia.
Qed.
Lemma isa_lt : forall p, p < n -> isa p < n.
Proof. intros p L. destruct (row_ex p L) as (j & J & E). subst. rewrite isa_row; auto. Qed.
Lemma row_isa : forall p, p < n -> row (isa p) = p.
Proof. intros p L. destruct (row_ex p L) as (j & J & E). subst. rewrite isa_row; auto. Qed.

Definition lfv i := isa (pv (row i)).
Definition psiv i := isa (nx (row i)).
Lemma lfv_lt : forall i, i < n -> lfv i < n.
Proof. intros. apply isa_lt, pv_lt, row_lt. auto. Qed.
Lemma psiv_lt : forall i, i < n -> psiv i < n.
Proof. intros. apply isa_lt, nx_lt, row_lt. auto. Qed.
Lemma row_lfv : forall i, i < n -> row (lfv i) = pv (row i).
Proof. intros. apply row_isa, pv_lt, row_lt. auto. Qed.
Lemma row_psiv : forall i, i < n -> row (psiv i) = nx (row i).
Proof. intros. apply row_isa, nx_lt, row_lt. auto. Qed.
Lemma lfv_psiv : forall i, i < n -> lfv (psiv i) = i.
Proof. intros. unfold lfv. rewrite row_psiv, pv_nx, isa_row by auto using row_lt. auto. Qed.
Lemma psiv_lfv : forall i, i < n -> psiv (lfv i) = i.
Proof. intros. unfold psiv. rewrite row_lfv, nx_pv, isa_row by auto using row_lt. auto. Qed.

Lemma lf_formula : forall i, i < n -> lfv i = less T (bw i) + rank_of (fun j => bw j =? bw i) i.
Proof.
  intros i I. pose proof (row_lt i I) as RL. destruct (Nat.eq_dec (bw i) 0) as [Z|Z].
  - (* the row of the whole text *)
    assert (RZ : row i = 0). { unfold bw in Z. apply tx_zero in Z; [|apply pv_lt; auto]. unfold pv in Z. destruct (Nat.eqb_spec (row i) 0); auto. lia. }
    assert (L0 : less T 0 = 0). { rewrite less_T. rewrite (rank_of_ext _ (fun _ => false)); auto. apply rank_of_const_false. }
    rewrite Z, L0. cbn [Nat.add].
    rewrite (rank_of_ext _ (fun _ => false)), rank_of_const_false.
    2: { intros j J. apply Nat.eqb_neq. intros Y. unfold bw in Y. apply tx_zero in Y; [|apply pv_lt, row_lt; lia]. assert (row j = 0) by (unfold pv in Y; pose proof (row_lt j ltac:(lia)); destruct (Nat.eqb_spec (row j) 0); auto; lia).
         assert (j = i) by (apply row_inj; lia). lia. }
    unfold lfv. rewrite RZ. unfold pv. cbn [Nat.eqb]. unfold isa. unfold rows. rewrite (rank_of_ext _ (fun _ => false)), rank_of_const_false; auto.
    intros p L. unfold dlo. pose proof n_pos. rewrite (sx_cons (n - 1)) by lia. rewrite tx_last. rewrite (sx_cons p L). cbn [ltb_lex]. destruct (Nat.eqb_spec (tx p) 0) as [E|E]; auto.
    apply tx_zero in E; auto. subst p. replace (S (n - 1)) with n by lia. unfold sx, n. rewrite skipn_all. auto.
  - unfold lfv, isa. assert (PN : row i <> 0). { intros E. apply Z. unfold bw. rewrite E. unfold pv. cbn [Nat.eqb]. apply tx_last. }
    assert (PE : pv (row i) = row i - 1). { unfold pv. destruct (Nat.eqb_spec (row i) 0); [lia|auto]. }
    assert (SE : sx (pv (row i)) = bw i :: sx (row i)). { rewrite sx_cons by (apply pv_lt; auto). unfold bw. f_equal. f_equal. lia. }
    assert (RE : rows (dlo (sx (pv (row i)))) = rows (dcons (bw i) (dlo (sx (row i))))).
    { rewrite SE. unfold rows. apply rank_of_ext. intros p L. rewrite (sx_cons p L). auto. }
    rewrite RE, rows_step by (try lia; apply dlo_cut). fold (isa (row i)). rewrite isa_row by auto. auto.
Qed.

(** psi = select on the BWT *)
Lemma psi_select : forall i, i < n -> is_select (fun j => bw j =? tx (row i)) (i - less T (tx (row i)) + 1) (psiv i) /\ less T (tx (row i)) <= i.
Proof.
  intros i I. pose proof (psiv_lt i I) as PL. pose proof (lf_formula (psiv i) PL) as F. rewrite lfv_psiv in F by auto.
  assert (B : bw (psiv i) = tx (row i)) by (unfold bw; rewrite row_psiv, pv_nx by auto using row_lt; auto). rewrite B in F.
  split; [|lia]. split. { rewrite B. apply Nat.eqb_refl. } lia.
Qed.

(** the first column *)
Lemma first_col : forall i, i < n -> less T (tx (row i)) <= i < less T (S (tx (row i))).
Proof.
  intros i I. destruct (psi_select i I) as [_ L]. split; auto.
  assert (E : less T (S (tx (row i))) = rows (fun s => match s with [] => true | x :: _ => x <? S (tx (row i)) end)).
  { unfold rows. rewrite less_T. apply rank_of_ext. intros p P. rewrite (sx_cons p P). auto. }
  rewrite E. apply rows_iff; auto.
  - intros a b A B. destruct a as [|x a]; auto. destruct b as [|y b]; [cbn in A; tauto|]. apply Nat.ltb_lt in B. apply Nat.ltb_lt. cbn in A. lia.
  - rewrite sx_cons by (apply row_lt; auto). apply Nat.ltb_lt. lia.
Qed.

(** ** Intervals *)
Lemma occ_iff : forall P p, occurs_at T P p <-> prefixb P (sx p) = true.
Proof. intros. unfold occurs_at. rewrite prefixb_iff. tauto. Qed.
Lemma lt_not_prefix : forall P s, ltb_lex s P = true -> prefixb P s = false.
Proof.
  induction P; intros s; destruct s; cbn; try discriminate; auto. intros H. apply orb_true_iff in H. destruct H as [H|H].
  - apply Nat.ltb_lt in H. replace (a =? n0) with false; auto. symmetry. apply Nat.eqb_neq. lia.
  - apply andb_true_iff in H. destruct H as [_ H]. rewrite IHP by auto. apply andb_false_r.
Qed.
Lemma interval_lohi : forall P, sa_interval T sa P (rows (dlo P)) (rows (dhi P)).
Proof.
  intros P. split.
  - split; [|apply rows_le]. unfold rows. rewrite <- !(rank_perm (fun p => dlo P (sx p)) row n row_perm), <- (rank_perm (fun p => dhi P (sx p)) row n row_perm).
    assert (H : forall m, rank_of (fun j => dlo P (sx (row j))) m <= rank_of (fun j => dhi P (sx (row j))) m); [|apply H].
    induction m; auto. rewrite !rank_of_S. unfold dhi at 2. unfold dlo at 2. destruct (ltb_lex (sx (row m)) P), (prefixb P (sx (row m))); cbn; lia.
  - intros j J. fold n in J. fold (row j). rewrite occ_iff. pose proof (rows_iff _ (dlo_cut P) j J) as A. pose proof (rows_iff _ (dhi_cut P) j J) as B. unfold dlo at 1 in A. unfold dhi at 1 in B.
    destruct (ltb_lex (sx (row j)) P) eqn:E.
    + rewrite (lt_not_prefix _ _ E). cbn in *. split; [|discriminate]. intros Q. exfalso. pose proof (proj1 A eq_refl) as Q'. change (fun s => ltb_lex s P) with (dlo P) in Q'. lia.
    + cbn [orb] in B. split. { intros [X Y]. apply B. auto. } intros X. apply B in X. split; auto. destruct (Nat.le_gt_cases (rows (dlo P)) j) as [|G]; auto. apply A in G. discriminate.
Qed.
(** a non-empty interval is determined *)
Lemma interval_unique : forall P l r, sa_interval T sa P l r -> l < r -> l = rows (dlo P) /\ r = rows (dhi P).
Proof.
  intros P l r [[A1 A2] B] L. destruct (interval_lohi P) as [[C1 C2] D]. fold n in *. set (a := rows (dlo P)) in *. set (b := rows (dhi P)) in *.
  assert (H : forall j, j < n -> l <= j < r <-> a <= j < b) by (intros j J; rewrite B, D by auto; tauto).
  pose proof (H l ltac:(lia)). pose proof (H (r - 1) ltac:(lia)). pose proof (H a ltac:(lia)). pose proof (H (b - 1) ltac:(lia)). lia.
Qed.
Lemma interval_nil : sa_interval T sa [] 0 n.
Proof. split; [fold n; lia|]. intros j J. fold n in J. split; [reflexivity|lia]. Qed.
Lemma dlo_cons : forall c P, rows (dlo (c :: P)) = rows (dcons c (dlo P)).
Proof. intros. unfold rows. apply rank_of_ext. intros p L. rewrite (sx_cons p L). auto. Qed.
Lemma dhi_cons : forall c P, rows (dhi (c :: P)) = rows (dcons c (dhi P)).
Proof.
  intros. unfold rows. apply rank_of_ext. intros p L. rewrite (sx_cons p L). unfold dhi, dcons. cbn [ltb_lex prefixb]. rewrite (Nat.eqb_sym c (tx p)).
  destruct (tx p <? c); auto. cbn [orb]. destruct (tx p =? c); auto.
Qed.
(** one step of backward search *)
Lemma interval_step : forall c P l r, 0 < c -> sa_interval T sa P l r -> l < r ->
  sa_interval T sa (c :: P) (less T c + rank_of (fun j => bw j =? c) l) (less T c + rank_of (fun j => bw j =? c) r).
Proof.
  intros c P l r C0 I L. destruct (interval_unique P l r I L) as [-> ->]. rewrite <- !rows_step by (auto; first [apply dlo_cut | apply dhi_cut]).
  rewrite <- dlo_cons, <- dhi_cons. apply interval_lohi.
Qed.
Lemma interval_zero : sa_interval T sa [0] 0 1.
Proof.
  pose proof n_pos as NP. split. { fold n. lia. } intros j J. fold n in J. fold (row j). pose proof (row_lt j J) as RL.
  assert (H : occurs_at T [0] (row j) <-> tx (row j) = 0).
  { rewrite occ_iff, sx_cons by auto. cbn [prefixb]. rewrite andb_true_r, Nat.eqb_eq. split; congruence. }
  rewrite H. pose proof (first_col j J) as FC. split.
  - intros Z. assert (j = 0) by lia. subst j. destruct (tx (row 0)) eqn:E; auto. exfalso. pose proof (less_mono T 1 (S n0) ltac:(lia)). rewrite less_1 in H0. lia.
  - intros Z. rewrite Z, less_1 in FC. lia.
Qed.
Lemma interval_absent : forall c P k, ~ In c T -> k <= n -> sa_interval T sa (c :: P) k k.
Proof.
  intros c P k N K. split. { fold n. lia. } intros j J. fold n in J. split; [lia|]. intros O. exfalso. apply N. fold (row j) in O. apply occ_iff in O. rewrite sx_cons in O by (apply row_lt; auto).
  cbn [prefixb] in O. apply andb_true_iff in O. destruct O as [E _]. apply Nat.eqb_eq in E. subst c. apply nth_In. apply row_lt; auto.
Qed.
End Sa.
