(** * Alphabet facts on the first column; the object invariant of a CSA and the search algorithms *)
From Coq Require Import List Arith Bool Lia Permutation.
From Verif Require Import Base SpecBits RankSelect AbsVec FnArr WtBase WtProofs SpecCsa Alphabet AlphabetProofs Csa CsaProofs.
Import ListNotations.

Lemma csub_le : forall a b, b <= a -> csub a b = Some (a - b).
Proof. intros. apply csub_some. lia. Qed.
Lemma filter_nil : forall (f : nat -> bool) l, (forall p, In p l -> f p = false) -> filter f l = [].
Proof. induction l; intros H; auto. cbn [filter]. rewrite H by (left; auto). apply IHl. intros. apply H. right. auto. Qed.
Lemma max_ex : forall t, exists M, forall x, In x t -> x < M.
Proof. induction t as [|a t [M H]]. { exists 0. cbn. tauto. } exists (Nat.max (S a) M). intros x [-> | I]; [lia|]. apply H in I. lia. Qed.
Lemma dless_lt : forall t c, In c t -> dless t c < dist t.
Proof. intros t c I. destruct (max_ex t) as [M H]. rewrite dless_rank, (dist_rank t M H). apply rank_lt_sigma; auto. Qed.
Lemma dless_inj : forall t c d, In c t -> In d t -> dless t c = dless t d -> c = d.
Proof.
  intros t c d C D E. rewrite !dless_rank in E. destruct (Nat.lt_trichotomy c d) as [L|[L|L]]; auto; exfalso.
  - pose proof (rank_lt_sigma t d c C L). lia.
  - pose proof (rank_lt_sigma t c d D L). lia.
Qed.
Lemma dless_surj : forall t k, k < dist t -> exists c, In c t /\ dless t c = k.
Proof.
  intros t k L. destruct (max_ex t) as [M H]. rewrite (dist_rank t M H) in L. destruct (sym_sel t M k L) as (A & B & C). exists (sym t M k). rewrite dless_rank. split; auto. apply pres_in. auto.
Qed.
Lemma dless_mono : forall t c d, c <= d -> dless t c <= dless t d.
Proof. intros. rewrite !dless_rank. apply rank_of_mono. auto. Qed.
Lemma dless_lt_iff : forall t c d, In c t -> In d t -> (dless t c < dless t d <-> c < d).
Proof.
  intros t c d C D. split.
  - intros L. destruct (Nat.lt_ge_cases c d) as [|G]; auto. apply (dless_mono t) in G. lia.
  - intros L. rewrite !dless_rank. apply rank_lt_sigma; auto.
Qed.
(* the entry after that of c *)
Lemma less_gap : forall t c d, c <= d -> (forall x, c <= x < d -> ~ In x t) -> less t d = less t c.
Proof.
  intros t c d L H. unfold less. f_equal. apply filter_ext_in. intros x I. destruct (Nat.ltb_spec x c), (Nat.ltb_spec x d); auto; try lia. exfalso. apply (H x); auto.
Qed.
Lemma dless_S : forall t c, In c t -> dless t (S c) = S (dless t c).
Proof. intros. rewrite !dless_rank, rank_of_S. apply pres_in in H. rewrite H. cbn. lia. Qed.
Lemma dless_dist : forall t M, (forall x, In x t -> x < M) -> dless t M = dist t.
Proof. intros. rewrite dless_rank. symmetry. apply dist_rank. auto. Qed.

Section Al.
Variables (M : nat) (t : list nat) (A : alph).
Hypothesis AOK : alph_ok M t A.
Lemma C_next : forall c, In c t -> nth_error (al_C A) (dless t c + 1) = Some (less t (S c)).
Proof.
  intros c I. pose proof (dless_lt t c I) as L. destruct (Nat.eq_dec (dless t c + 1) (dist t)) as [E|E].
  - rewrite E, (ao_C1 _ _ _ AOK). f_equal. symmetry. apply less_all. intros x X. destruct (Nat.le_gt_cases x c); [lia|]. exfalso. assert (dless t c < dless t x) by (apply dless_lt_iff; auto; lia). pose proof (dless_lt t x X). lia.
  - destruct (dless_surj t (dless t c + 1) ltac:(lia)) as (d & D & F). rewrite <- F, (ao_C _ _ _ AOK d D). f_equal.
    assert (c < d) by (apply (dless_lt_iff t); auto; lia). apply less_gap; [lia|]. intros x X I'. assert (dless t c < dless t x) by (apply dless_lt_iff; auto; lia). assert (dless t x < dless t d) by (apply dless_lt_iff; auto; lia). lia.
Qed.
Lemma begin_ok : forall c, In c t -> c_begin A c = Some (less t c).
Proof. intros. unfold c_begin. rewrite (ao_c2c _ _ _ AOK) by auto. cbn [obind]. apply (ao_C _ _ _ AOK). auto. Qed.
Lemma C_at : forall k, k <= dist t -> exists x, nth_error (al_C A) k = Some x.
Proof. intros k L. destruct (Nat.eq_dec k (dist t)) as [-> | N]. { eexists. apply (ao_C1 _ _ _ AOK). } destruct (dless_surj t k ltac:(lia)) as (c & I & <-). eexists. apply (ao_C _ _ _ AOK). auto. Qed.
(* i lies in the rows of c exactly when C[dless c] <= i < C[dless c + 1] *)
Lemma C_le_iff : forall c i k x, In c t -> less t c <= i < less t (S c) -> k <= dist t -> nth_error (al_C A) k = Some x -> (x <= i <-> k <= dless t c).
Proof.
  intros c i k x I B L E. destruct (Nat.eq_dec k (dist t)) as [-> | N].
  - rewrite (ao_C1 _ _ _ AOK) in E. injection E as <-. pose proof (dless_lt t c I). pose proof (less_le t (S c)). lia.
  - destruct (dless_surj t k ltac:(lia)) as (d & D & <-). rewrite (ao_C _ _ _ AOK) in E by auto. injection E as <-. split.
    + intros. destruct (Nat.le_gt_cases (dless t d) (dless t c)) as [|G]; auto. exfalso. apply dless_lt_iff in G; auto. pose proof (less_mono t (S c) d ltac:(lia)). lia.
    + intros G. destruct (Nat.le_gt_cases d c) as [H|H]. { pose proof (less_mono t d c H). lia. } apply (dless_lt_iff t) in H; auto. lia.
Qed.

Lemma frs_lin_ok : forall c i f res, In c t -> less t c <= i < less t (S c) -> 1 <= res <= dless t c + 1 -> dist t + 1 <= f + res -> frs_lin f A i res = Some c.
Proof.
  intros c i. induction f; intros res I B R F. { pose proof (dless_lt t c I). lia. }
  cbn [frs_lin]. rewrite (ao_sigma _ _ _ AOK). pose proof (dless_lt t c I) as DL. destruct (Nat.ltb_spec res (dist t)).
  - destruct (C_at res ltac:(lia)) as [x X]. rewrite X. cbn [obind]. pose proof (C_le_iff c i res x I B ltac:(lia) X) as Q. destruct (Nat.leb_spec x i).
    + apply IHf; auto; lia.
    + replace res with (dless t c + 1) by lia. rewrite csub_le by lia. cbn [obind]. replace (dless t c + 1 - 1) with (dless t c) by lia. apply (ao_c2ch _ _ _ AOK). auto.
  - replace res with (dless t c + 1) by lia. rewrite csub_le by lia. cbn [obind]. replace (dless t c + 1 - 1) with (dless t c) by lia. apply (ao_c2ch _ _ _ AOK). auto.
Qed.
Lemma frs_bin_ok : forall c i f lo up, In c t -> less t c <= i < less t (S c) -> lo <= dless t c < up -> up <= dist t -> up - lo <= f -> frs_bin f A i lo up = Some c.
Proof.
  intros c i. induction f; intros lo up I B R U F; [lia|]. cbn [frs_bin]. set (res := (up + lo) / 2).
  assert (RE : lo <= res < up). { unfold res. split; [apply Nat.div_le_lower_bound; lia | apply Nat.div_lt_upper_bound; lia]. }
  destruct (C_at res ltac:(lia)) as [x X]. destruct (C_at (res + 1) ltac:(lia)) as [y Y]. rewrite X, Y. cbn [obind].
  pose proof (C_le_iff c i res x I B ltac:(lia) X) as Q1. pose proof (C_le_iff c i (res + 1) y I B ltac:(lia) Y) as Q2.
  clearbody res. destruct (Nat.ltb_spec i x). { apply IHf; auto; lia. } destruct (Nat.leb_spec y i). { apply IHf; auto; lia. }
  replace res with (dless t c) by lia. apply (ao_c2ch _ _ _ AOK). auto.
Qed.
Lemma frs_ok : forall c i, In c t -> less t c <= i < less t (S c) -> first_row_symbol A i = Some c.
Proof.
  intros c i I B. unfold first_row_symbol. rewrite (ao_sigma _ _ _ AOK). pose proof (dless_lt t c I). destruct (Nat.ltb_spec (dist t) 16) as [L|L].
  - apply frs_lin_ok; auto. { lia. } revert L. generalize (dist t). intros. lia.
  - apply frs_bin_ok; auto; lia.
Qed.
End Al.

Lemma alph_ok_perm : forall M s t A, Permutation s t -> alph_ok M s A -> alph_ok M t A.
Proof.
  intros M s t A P H. assert (I : forall x, In x s <-> In x t) by (intros; split; apply Permutation_in; auto using Permutation_sym).
  assert (L : forall c, less s c = less t c) by (intros; apply filter_length_perm; auto).
  assert (N : Permutation (nodup Nat.eq_dec s) (nodup Nat.eq_dec t)).
  { apply NoDup_Permutation; try apply NoDup_nodup. intros. rewrite !nodup_In. apply I. }
  assert (D : forall c, dless s c = dless t c) by (intros; apply filter_length_perm; auto).
  assert (E : dist s = dist t) by (apply Permutation_length; auto).
  destruct H as [H1 H2 H3 H4 H5 H6]. constructor; intros; rewrite <- ?D, <- ?L, <- ?E, <- ?(Permutation_length P); auto; try (apply H2 || apply H4 || apply H5); try (apply I; auto). apply H3; auto. rewrite I. auto.
Qed.

Lemma rank_total : forall T sa, is_sa T sa -> forall c, less T c + rank_of (fun j => bw T sa j =? c) (n T) = less T (S c).
Proof.
  intros T sa SA c. rewrite less_T, (less_T T (S c)).
  rewrite (rank_of_ext (fun p => tx T p <? S c) (fun p => (tx T p <? c) || (tx T p =? c))).
  2: { intros j _. destruct (Nat.ltb_spec (tx T j) (S c)), (Nat.ltb_spec (tx T j) c), (Nat.eqb_spec (tx T j) c); auto; lia. }
  rewrite rank_disj. 2: { intros j _ L. apply Nat.ltb_lt in L. apply Nat.eqb_neq. lia. } f_equal.
  rewrite <- (rank_perm (fun p => tx T p =? c) (pv T) (n T) (pv_perm T)). rewrite <- (rank_perm (fun p => tx T (pv T p) =? c) (row sa) (n T)); auto. apply row_perm. auto.
Qed.
(** ** The object invariant *)
Record csa_ok (M : nat) (T sa : list nat) (x : csa) : Prop := mk_cok {
  co_n : c_n x = length T;
  co_al : alph_ok M T (c_al x);
  co_rank : forall i c, i <= length T -> c < M -> c_rank x i c = Some (rank_of (fun j => bw T sa j =? c) i);
  co_lf : forall i, i < length T -> c_lf x i = Some (lfv T sa i);
  co_psi : forall i, i < length T -> c_psi x i = Some (psiv T sa i);
  co_sa : forall i, i < length T -> c_sa x i = Some (row sa i);
  co_isa : forall p, p < length T -> c_isa x p = Some (isa T p) }.

Section Alg.
Variables (M : nat) (T sa : list nat) (x : csa).
Hypothesis TOK : text_ok T.
Hypothesis SA : is_sa T sa.
Hypothesis COK : csa_ok M T sa x.
Hypothesis MT : forall c, In c T -> c < M.
Let AO := co_al _ _ _ _ COK.

Lemma zero_in : In 0 T.
Proof. destruct TOK as (U & E & _). rewrite E. apply in_app_iff. right. left. auto. Qed.
Lemma dless_pos : forall c, In c T -> (dless T c =? 0) && (0 <? c) = false.
Proof.
  intros c I. destruct c; [apply andb_false_r|]. pose proof (proj2 (dless_lt_iff T 0 (S c) zero_in I)) as H. replace (dless T (S c) =? 0) with false; auto. symmetry. apply Nat.eqb_neq. lia.
Qed.
Lemma tx_in : forall p, p < n T -> In (tx T p) T.
Proof. intros. apply nth_In. auto. Qed.

(** one step *)
Lemma bsearch1_ok : forall P l r c, sa_interval T sa P l r -> l < r -> c < M -> (c = 0 -> P = []) ->
  exists l' r', bsearch1 x l r c = Some (l', r') /\ sa_interval T sa (c :: P) l' r'.
Proof.
  intros P l r c I L CM Z. unfold bsearch1. destruct (in_dec Nat.eq_dec c T) as [IN|IN].
  - rewrite (ao_c2c _ _ _ AO) by auto. cbn [obind]. rewrite dless_pos by auto. rewrite (ao_C _ _ _ AO) by auto. cbn [obind].
    rewrite (C_next _ _ _ AO) by auto. cbn [obind]. pose proof I as [[I1 I2] _]. rewrite (co_n _ _ _ _ COK).
    assert (R0 : forall c', rank_of (fun j => bw T sa j =? c') 0 = 0) by (intros; apply rank_of_0).
    destruct (Nat.eq_dec c 0) as [-> | CN].
    + assert (PN : P = []) by auto. subst P.
      assert (l = 0 /\ r = length T) as [-> ->].
      { destruct I as [_ I]. pose proof (n_pos T TOK) as NP. unfold n in NP.
        assert (Q : forall j, j < length T -> l <= j < r) by (intros j J; apply I; auto; reflexivity). pose proof (Q 0 NP). pose proof (Q (length T - 1) ltac:(lia)). lia. }
      rewrite !Nat.eqb_refl. cbn [andb]. exists 0, 1. split; [|apply interval_zero; auto].
      repeat f_equal; [|apply (less_1 T sa); auto]. rewrite less_T. rewrite (rank_of_ext _ (fun _ => false)); auto. apply rank_of_const_false.
    + assert (C0 : 0 < c) by lia. pose proof (interval_step T sa TOK SA c P l r C0 I L) as ST.
      destruct ((l =? 0) && (r =? length T)) eqn:E.
      * apply andb_true_iff in E. destruct E as [E1 E2]. apply Nat.eqb_eq in E1, E2. subst l r. eexists _, _. split; [reflexivity|].
        change (length T) with (n T) in ST at 1. rewrite R0, Nat.add_0_r in ST. change (length T) with (n T) in ST. rewrite (rank_total T sa SA) in ST. exact ST.
      * rewrite !(co_rank _ _ _ _ COK) by (auto; lia). cbn [obind]. eexists _, _. split; [reflexivity|]. exact ST.
  - rewrite (ao_abs _ _ _ AO) by auto. cbn [obind Nat.eqb andb]. assert (0 < c) by (destruct c; [exfalso; apply IN, zero_in|lia]).
    replace (0 <? c) with true by (symmetry; apply Nat.ltb_lt; auto). exists 1, 1. split; auto. apply interval_absent; auto. apply n_pos. auto.
Qed.

Lemma occurs_app : forall P Q p, occurs_at T (P ++ Q) p -> Q <> [] -> occurs_at T Q (p + length P) /\ p + length P < length T.
Proof.
  intros P Q p O N. unfold occurs_at in *. rewrite app_length in O.
  assert (F : forall k (s : list nat), skipn k (firstn (k + length Q) s) = firstn (length Q) (skipn k s)).
  { induction k; intros; cbn [skipn plus]; auto. destruct s; cbn [firstn skipn]. { rewrite firstn_nil. auto. } apply IHk. }
  assert (S2 : forall a b (s : list nat), skipn a (skipn b s) = skipn (b + a) s).
  { intros a b. revert a. induction b; intros; auto. destruct s; cbn [skipn plus]; [apply skipn_nil|]. apply IHb. }
  apply (f_equal (skipn (length P))) in O. rewrite F, S2 in O. rewrite skipn_app, skipn_all, Nat.sub_diag in O. cbn [app skipn] in O. split; auto.
  destruct (Nat.lt_ge_cases (p + length P) (length T)) as [|G]; auto. exfalso. apply N. rewrite (skipn_all2 T G), firstn_nil in O. auto.
Qed.
Lemma interval_none : forall P Q k, sa_interval T sa Q k k -> Q <> [] -> sa_interval T sa (P ++ Q) k k.
Proof.
  intros P Q k [A B] N. split; auto. intros j J. split; [lia|]. intros O. exfalso. apply occurs_app in O; auto. destruct O as [O L].
  destruct (row_ex T sa SA _ L) as (i & I & E). rewrite <- E in O. apply B in O; auto. lia.
Qed.

(** the pattern: every symbol but the last is not 0 *)
Definition pat_ok (P : list nat) : Prop := (forall c, In c P -> c < M) /\ ~ In 0 (removelast P).

Lemma bsearch_rev_ok : forall rp w l r, (forall c, In c rp -> c < M) -> ~ In 0 (removelast (rev rp ++ w)) -> sa_interval T sa w l r ->
  exists l' r', bsearch_rev x l r rp = Some (l', r') /\ sa_interval T sa (rev rp ++ w) l' r'.
Proof.
  induction rp as [|c rp IH]; intros w l r PM PZ I; cbn [bsearch_rev rev app].
  { exists l, r. auto. }
  pose proof I as [[I1 I2] _]. rewrite csub_le by auto. cbn [obind]. rewrite <- app_assoc. cbn [app]. destruct (Nat.eqb_spec (r - l) 0) as [E|E].
  - assert (r = l) by lia. subst r. exists l, l. split; auto. assert (WN : w <> []).
    { intros ->. destruct I as [_ I]. pose proof (n_pos T TOK) as NP. pose proof (proj2 (I 0 NP) eq_refl). lia. }
    change (rev rp ++ c :: w) with (rev rp ++ [c] ++ w). rewrite app_assoc. apply interval_none; auto.
  - destruct (bsearch1_ok w l r c I ltac:(lia)) as (l1 & r1 & E1 & I1').
    + apply PM. left. auto.
    + intros ->. destruct w; auto. exfalso. apply PZ. cbn [rev]. rewrite <- app_assoc. cbn [app]. rewrite removelast_app by discriminate. apply in_app_iff. right. left. auto.
    + rewrite E1. cbn [obind fst snd]. apply IH; auto.
      * intros d D. apply PM. right. auto.
      * cbn [rev] in PZ. rewrite <- app_assoc in PZ. exact PZ.
Qed.
Theorem bsearch_ok : forall P w l r, (forall c, In c P -> c < M) -> ~ In 0 (removelast (P ++ w)) -> sa_interval T sa w l r ->
  exists l' r', bsearch x l r P = Some (l', r') /\ sa_interval T sa (P ++ w) l' r'.
Proof.
  intros P w l r PM PZ I. unfold bsearch. destruct (bsearch_rev_ok (rev P) w l r) as (a & b & E & H); auto.
  - intros c C. apply PM. apply in_rev. auto.
  - rewrite rev_involutive. auto.
  - rewrite rev_involutive in H. eauto.
Qed.

(** occurrences and rows *)
Lemma occurs_dec_iff : forall P p, occurs_dec T P p = true <-> occurs_at T P p.
Proof. intros. unfold occurs_dec, occurs_at. destruct (list_eq_dec Nat.eq_dec (firstn (length P) (skipn p T)) P); split; auto; discriminate. Qed.
Lemma filter_seq_interval : forall (f : nat -> bool) m l r, l <= r <= m -> (forall j, j < m -> f j = true <-> l <= j < r) -> filter f (seq 0 m) = seq l (r - l).
Proof.
  intros f m l r B H. replace m with (l + ((r - l) + (m - r))) by lia. rewrite !seq_app, !filter_app.
  assert (N : forall s k, s + k <= m -> (r <= s \/ s + k <= l) -> filter f (seq s k) = []).
  { intros s k. revert s. induction k; intros s S1 S2; auto. cbn [seq filter]. destruct (f s) eqn:E. { apply H in E; lia. } apply IHk; lia. }
  rewrite (N 0 l), (N (0 + l + (r - l)) (m - r)) by lia. cbn [app]. rewrite app_nil_r. assert (Q : forall k s, l <= s -> s + k <= r -> filter f (seq s k) = seq s k).
  { induction k; intros s S1 S2; auto. cbn [seq filter]. rewrite (proj2 (H s ltac:(lia))) by lia. rewrite IHk by lia. auto. }
  apply Q; lia.
Qed.
Lemma map_filter : forall (f : nat -> bool) (g : nat -> nat) l, filter f (map g l) = map g (filter (fun j => f (g j)) l).
Proof. induction l; auto. cbn [map filter]. destruct (f (g a)); cbn [map]; congruence. Qed.
Lemma filter_perm : forall (f : nat -> bool) a b, Permutation a b -> Permutation (filter f a) (filter f b).
Proof. induction 1; cbn [filter]; auto; [destruct (f x0); auto | destruct (f x0), (f y); auto; constructor | etransitivity; eauto]. Qed.
Lemma occs_rows : forall P l r, sa_interval T sa P l r -> Permutation (map (row sa) (seq l (r - l))) (occs T P).
Proof.
  intros P l r [B H]. unfold occs. rewrite <- (filter_perm (occurs_dec T P) _ _ (row_perm T sa SA)). rewrite map_filter.
  rewrite (filter_seq_interval _ (n T) l r); auto. intros j J. rewrite occurs_dec_iff. symmetry. apply H. auto.
Qed.
Lemma occs_length : forall P l r, sa_interval T sa P l r -> length (occs T P) = r - l.
Proof. intros. rewrite <- (Permutation_length (occs_rows P l r H)), map_length, seq_length. auto. Qed.

Theorem count_ok : forall P, pat_ok P -> count x P = Some (length (occs T P)).
Proof.
  intros P [PM PZ]. unfold count. rewrite (co_n _ _ _ _ COK). destruct (Nat.ltb_spec (length T) (length P)) as [L|L].
  - f_equal. unfold occs. rewrite filter_nil; auto. intros p _. destruct (occurs_dec T P p) eqn:E; auto. apply occurs_dec_iff in E. apply (f_equal (@length nat)) in E. rewrite firstn_length, skipn_length in E. lia.
  - destruct (bsearch_ok P [] 0 (length T)) as (l & r & E & I); auto.
    + rewrite app_nil_r. auto.
    + apply (interval_nil T sa).
    + rewrite E. cbn [obind fst snd]. rewrite app_nil_r in I. pose proof I as [B _]. rewrite csub_le by lia. f_equal. symmetry. apply occs_length. auto.
Qed.
Lemma loc_loop_ok : forall k i, i + k <= n T -> loc_loop x k i = Some (map (row sa) (seq i k)).
Proof. induction k; intros i L; auto. cbn [loc_loop seq map]. rewrite (co_sa _ _ _ _ COK) by (unfold n in L; lia). cbn [obind]. rewrite IHk by lia. auto. Qed.
Theorem locate_ok : forall P, pat_ok P -> exists o, locate x P = Some o /\ Permutation o (occs T P).
Proof.
  intros P [PM PZ]. unfold locate. rewrite (co_n _ _ _ _ COK). destruct (bsearch_ok P [] 0 (length T)) as (l & r & E & I); auto.
  - rewrite app_nil_r. auto.
  - apply (interval_nil T sa).
  - rewrite app_nil_r in I. rewrite E. cbn [obind fst snd]. pose proof I as [B _]. rewrite csub_le by lia. cbn [obind]. rewrite loc_loop_ok by (unfold n; lia). eexists. split; [reflexivity|]. apply occs_rows. auto.
Qed.

(** ** text and extract *)
Lemma frs_row : forall i, i < n T -> first_row_symbol (c_al x) i = Some (tx T (row sa i)).
Proof. intros i I. apply (frs_ok M T (c_al x) AO). { apply tx_in, row_lt; auto. } apply first_col; auto. Qed.
Theorem text_ok' : forall p, p < n T -> text_at x p = Some (tx T p).
Proof. intros p L. unfold text_at. rewrite (co_isa _ _ _ _ COK) by auto. cbn [obind]. rewrite frs_row by (apply (isa_lt T sa); auto). rewrite row_isa; auto. Qed.

Lemma slice_cons : forall p k, p < n T -> firstn (S k) (skipn p T) = tx T p :: firstn k (skipn (S p) T).
Proof. intros. fold (sx T p). rewrite (sx_cons T p) by auto. auto. Qed.
Theorem extract_psi_ok : forall b e, b <= e < n T -> extract_psi x b e = Some (firstn (e + 1 - b) (skipn b T)).
Proof.
  intros b e L. unfold extract_psi. rewrite csub_le by lia. cbn [obind]. rewrite (co_isa _ _ _ _ COK) by (unfold n in L; lia). cbn [obind].
  assert (H : forall k p, p < n T -> p + k <= n T -> ex_psi_loop x k (isa T p) = Some (firstn k (skipn p T))).
  { induction k; intros p P1 P2; auto. cbn [ex_psi_loop]. assert (IL : isa T p < n T) by (apply (isa_lt T sa); auto).
    rewrite frs_row by auto. cbn [obind]. rewrite (co_psi _ _ _ _ COK) by auto. cbn [obind]. unfold psiv. rewrite row_isa by auto.
    rewrite slice_cons by auto. destruct k; auto.
    assert (NE : nx T p = S p) by (unfold nx; replace (p =? n T - 1) with false by (symmetry; apply Nat.eqb_neq; lia); lia). rewrite NE, IHk by lia. auto. }
  apply H; lia.
Qed.
End Alg.
