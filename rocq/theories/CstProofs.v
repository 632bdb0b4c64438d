(** * Positions of the super-Cartesian tree of an LCP array *)
From Coq Require Import NArith ZArith List Bool Arith Lia.
From Verif Require Import Base SpecBits SpecBp SpecRmq AbsVec RankSelect WtBase WtProofs Bp BpProofs BpProofs3 BpProofs5 BpRmq BpRmqProofs BpRmqProofs4 BpRmqProofs5 BpRmqProofs6 BpRmqProofs7.
Import ListNotations.
Open Scope nat_scope.

Section O.
Variable v : list N.
Local Notation n := (length v).
Definition av (k : nat) : N := nth k v 0%N.
Local Notation lt := (ilt true v).
Local Notation pos := (spos lt).
Local Notation d := (depth lt).
Lemma lt_t : forall i j, lt i j = true <-> (av i < av j)%N.
Proof. intros. unfold ilt, vlt. apply N.ltb_lt. Qed.
Lemma lt_f : forall i j, lt i j = false <-> (av j <= av i)%N.
Proof. intros. unfold ilt, vlt. apply N.ltb_ge. Qed.

(** next smaller value *)
Fixpoint nsf (m q : nat) (x : N) : nat := match m with 0 => q | S m => if N.ltb (av q) x then q else nsf m (S q) x end.
Definition ns (k : nat) : nat := nsf (n - S k) (S k) (av k).
Lemma nsf_spec : forall m q x, q <= nsf m q x <= q + m /\ (forall y, q <= y < nsf m q x -> (x <= av y)%N) /\ (nsf m q x < q + m -> (av (nsf m q x) < x)%N).
Proof.
  induction m; intros q x; cbn [nsf]; [split; [lia|split; intros; lia]|]. destruct (N.ltb_spec (av q) x) as [L|L]; [split; [lia|split; intros; [lia|auto]]|].
  destruct (IHm (S q) x) as (H1 & H2 & H3). split; [lia|]. split; [|intros; apply H3; lia]. intros y Y. destruct (Nat.eq_dec y q) as [->|]; auto. apply H2. lia.
Qed.
Lemma ns_spec : forall k, k < n -> k < ns k <= n /\ (forall y, k < y < ns k -> (av k <= av y)%N) /\ (ns k < n -> (av (ns k) < av k)%N).
Proof. intros k K. destruct (nsf_spec (n - S k) (S k) (av k)) as (H1 & H2 & H3). fold (ns k) in *. split; [lia|]. split; intros; [apply H2|apply H3]; lia. Qed.
Lemma ns_uniq : forall k q, k < q <= n -> (forall y, k < y < q -> (av k <= av y)%N) -> (q < n -> (av q < av k)%N) -> ns k = q.
Proof.
  intros k q K H1 H2. destruct (ns_spec k ltac:(lia)) as (S1 & S2 & S3). destruct (Nat.lt_trichotomy (ns k) q) as [L|[L|L]]; auto.
  - specialize (H1 (ns k) ltac:(lia)). specialize (S3 ltac:(lia)). lia.
  - specialize (S2 q ltac:(lia)). specialize (H2 ltac:(lia)). lia.
Qed.

(** previous smaller or equal value *)
Definition is_pe (p k : nat) : Prop := p < k /\ (av p <= av k)%N /\ forall x, p < x < k -> (av k < av x)%N.
Lemma pe_uniq : forall p p' k, is_pe p k -> is_pe p' k -> p = p'.
Proof. intros p p' k (A1 & A2 & A3) (B1 & B2 & B3). destruct (Nat.lt_trichotomy p p') as [L|[L|L]]; auto; [specialize (A3 p' ltac:(lia))|specialize (B3 p ltac:(lia))]; lia. Qed.
Lemma pop_all : forall k pre rest, Forall (fun x => lt k x = true) pre -> popw lt k (pre ++ rest) = popw lt k rest.
Proof. induction pre as [|x pre IH]; intros rest F; cbn [app popw]; auto. inversion F; subst. rewrite H1. auto. Qed.
Lemma pe_pop : forall p k, is_pe p k -> popw lt k (stk lt k) = p :: popw lt p (stk lt p).
Proof.
  intros p k (H1 & H2 & H3). destruct (stk_above lt p k) as (pre & E & _ & F); [|lia|]. { intros x X. apply lt_f. specialize (H3 x X). lia. }
  rewrite E, pop_all. { cbn [popw]. replace (lt k p) with false; auto. symmetry. apply lt_f. exact H2. }
  apply (Forall_impl (P := fun j => p < j < k)); [|exact F]. intros x X. apply lt_t. apply H3. exact X.
Qed.
Lemma pe_d : forall p k, is_pe p k -> d k = S (d p).
Proof. intros p k H. unfold depth at 1. rewrite (pe_pop p k H). reflexivity. Qed.
Hypothesis A0 : av 0 = 0%N.
Lemma pe_ex : forall k, 0 < k -> exists p, is_pe p k.
Proof.
  intros k K. assert (X : forall m, m < k -> (forall x, k - S m <= x < k -> (av k < av x)%N) \/ exists p, is_pe p k).
  { induction m; intros M.
    - destruct (N.lt_ge_cases (av k) (av (k - 1))) as [L|L]; [left; intros x X; replace x with (k - 1) by lia; auto|right; exists (k - 1); split; [lia|split; [auto|intros; lia]]].
    - destruct IHm as [H|H]; [lia| |auto]. destruct (N.lt_ge_cases (av k) (av (k - S (S m)))) as [L|L].
      + left. intros x X. destruct (Nat.eq_dec x (k - S (S m))) as [->|]; auto. apply H. lia.
      + right. exists (k - S (S m)). split; [lia|]. split; [auto|]. intros x X. apply H. lia. }
  destruct (X (k - 1) ltac:(lia)) as [H|H]; auto. specialize (H 0 ltac:(lia)). rewrite A0 in H. lia.
Qed.
Lemma d0 : d 0 = 0.
Proof. reflexivity. Qed.
Lemma pos0 : pos 0 = 0.
Proof. reflexivity. Qed.
Lemma d_pop : forall k, k < n -> ns k < n -> d (ns k) <= d k.
Proof.
  intros k K Q. destruct (ns_spec k K) as (S1 & S2 & S3). specialize (S3 Q). destruct (stk_above lt k (ns k)) as (pre & E & F1 & F2); [|lia|]. { intros x X. apply lt_f. apply S2. exact X. }
  unfold depth at 1. rewrite E. rewrite pop_all. { cbn [popw]. replace (lt (ns k) k) with true by (symmetry; apply lt_t; lia). apply popw_len. }
  apply (Forall_impl (P := fun j => k < j < ns k)); [|exact F2]. intros x X. apply lt_t. specialize (S2 x X). lia.
Qed.
Lemma d_le : forall k, d k <= k.
Proof. apply depth_le. Qed.

(** ** positions *)
Definition cl (k : nat) : nat := 2 * ns k - 1 - d k.
Definition zi (k : nat) : nat := ns k - 1 - d k.
Lemma cl_zi : forall k, k < n -> cl k = ns k + zi k.
Proof. intros k K. destruct (ns_spec k K) as (S1 & _). pose proof (d_le k). unfold cl, zi. lia. Qed.

Variable bp : list bool.
Hypothesis BITS : bits true v bp n.
Let r_len := r_len true v bp BITS.
Let r_pn := r_pn true v bp BITS.
Let r_ones := r_ones true v bp BITS.
Lemma bp_len : length bp = 2 * n.
Proof. exact r_len. Qed.
Lemma cl_before : forall k, k < n -> before pos n (ns k) (S (cl k)).
Proof.
  intros k K. destruct (ns_spec k K) as (S1 & S2 & S3). pose proof (d_le k). split; [lia|]. split.
  - right. unfold cl, spos. pose proof (d_le (ns k - 1)). destruct (Nat.eq_dec k (ns k - 1)) as [<-|NE]; [lia|].
    pose proof (proj2 (depth_spec lt (ilt_trans true v) k (ns k - 1) ltac:(lia))) as X. specialize (X ltac:(intros; apply lt_f, S2; lia) (ns k - 1) ltac:(lia)). lia.
  - destruct (Nat.eq_dec (ns k) n) as [E|E]; auto. right. pose proof (d_pop k K ltac:(lia)). unfold cl, spos. lia.
Qed.
Lemma cl_lt : forall k, k < n -> pos k < cl k < 2 * n.
Proof. intros k K. destruct (ns_spec k K) as (S1 & _). pose proof (d_le k). unfold cl, spos. lia. Qed.
Lemma mt : forall k, k < n -> matches bp (pos k) (cl k).
Proof.
  intros k K. set (g := fun _ : nat => true). destruct (ns_spec k K) as (S1 & S2 & S3). pose proof (cl_lt k K) as CL. pose proof (d_le k) as DL.
  pose proof (cl_before k K) as CB. assert (E1 : ex (xb g bp) (S (cl k)) = Z.of_nat (d k)). { rewrite (BpRmqProofs7.r_ex true v bp BITS g _ (ns k)); auto; [unfold cl; lia|rewrite bp_len; lia]. }
  apply (ex_match g); [rewrite bp_len; lia| | |].
  - apply (r_open true v bp BITS g). exact K.
  - rewrite E1, (r_depth true v bp BITS) by exact K. reflexivity.
  - intros p P. rewrite (r_depth true v bp BITS g k K). assert (PL : p <= length bp) by (rewrite bp_len; lia).
    assert (LP : p <= pos (ns k - 1) \/ pos (ns k - 1) < p) by lia. destruct LP as [LP|LP].
    + destruct (Nat.eq_dec k (ns k - 1)) as [E|NE]; [rewrite <- E in LP; lia|].
      pose proof (proj2 (r_span true v bp BITS g k (ns k - 1) ltac:(lia))) as X. rewrite (r_depth true v bp BITS g k K) in X. apply X; [|lia]. intros i I. unfold better. apply S2. lia.
    + rewrite (BpRmqProofs7.r_ex true v bp BITS g p (ns k) PL). { unfold cl in P. lia. }
      destruct CB as (C1 & C2 & C3). split; [lia|]. split; [right; exact LP|]. destruct C3 as [C3|C3]; [auto|right; lia].
Qed.
Lemma rank_pos : forall k, k < n -> t_rank bp (pos k) = Some k.
Proof.
  intros k K. pose proof (cl_lt k K). rewrite t_rank_some by (rewrite bp_len; lia). f_equal. apply (before_rank pos (spos_S lt) n bp r_pn r_ones); [rewrite bp_len; lia|]. apply (before_pos pos (spos_S lt) n bp r_pn r_ones). exact K.
Qed.
Lemma rank_cl : forall k, k < n -> bp_rank bp (cl k) = Some (ns k).
Proof.
  intros k K. pose proof (cl_lt k K). unfold bp_rank. rewrite t_rank_some by (rewrite bp_len; lia). f_equal. replace (cl k + 1) with (S (cl k)) by lia. apply (before_rank pos (spos_S lt) n bp r_pn r_ones); [rewrite bp_len; lia|]. apply cl_before. exact K.
Qed.
Lemma bit_pos : forall k, k < n -> t_get bp (pos k) = Some true.
Proof.
  intros k K. pose proof (cl_lt k K). rewrite t_get_some by (rewrite bp_len; lia). f_equal. unfold t_bit. apply r_ones; [rewrite bp_len; lia|]. eauto.
Qed.
Lemma bit_cl : forall k, k < n -> t_get bp (cl k) = Some false.
Proof.
  intros k K. pose proof (cl_lt k K). rewrite t_get_some by (rewrite bp_len; lia). f_equal. unfold t_bit. destruct (match_ex (fun _ => true) bp _ _ (mt k K)) as (M1 & _ & M2 & _). rewrite f_in in M2 by (rewrite bp_len; lia). exact M2.
Qed.
Lemma cl_inj : forall k k', k < n -> k' < n -> cl k = cl k' -> k = k'.
Proof.
  intros k k' K K' E. pose proof (mt k K) as M. pose proof (mt k' K') as M'. rewrite <- E in M'.
  destruct (match_ex (fun _ => true) bp _ _ M) as (A1 & A2 & A3 & A4 & A5). destruct (match_ex (fun _ => true) bp _ _ M') as (B1 & B2 & B3 & B4 & B5).
  destruct (Nat.lt_trichotomy (pos k) (pos k')) as [L|[L|L]].
  - specialize (A5 (pos k') ltac:(lia)). lia.
  - destruct (Nat.lt_trichotomy k k') as [L'|[L'|L']]; auto; pose proof (pos_mono pos (spos_S lt) _ _ L'); lia.
  - specialize (B5 (pos k) ltac:(lia)). lia.
Qed.
Lemma encl_pe : forall p k, k < n -> is_pe p k -> encl bp (pos p) (pos k).
Proof.
  intros p k K H. pose proof (pe_d p k H) as D. destruct H as (H1 & H2 & H3). set (g := fun _ : nat => true). pose proof (cl_lt k K). pose proof (pos_mono pos (spos_S lt) p k H1).
  apply (encl_of g bp (r_bal true v bp BITS)); [rewrite bp_len; lia| | lia| | |].
  - apply (r_open true v bp BITS g). exact K.
  - apply (r_open true v bp BITS g). lia.
  - apply (r_span true v bp BITS g p k ltac:(lia)). intros i I. unfold better. fold (av p) (av i). destruct (Nat.eq_dec i k) as [->|]; auto. specialize (H3 i ltac:(lia)). lia.
  - rewrite !(r_depth true v bp BITS g) by lia. lia.
Qed.

(** what follows the closing parenthesis of k *)
Lemma ns_pe : forall p k, k < n -> is_pe p k -> (ns k < n -> (av (ns k) < av p)%N) -> ns p = ns k /\ cl p = S (cl k) /\ zi p = S (zi k).
Proof.
  intros p k K H Q. pose proof (pe_d p k H) as D. destruct H as (H1 & H2 & H3). destruct (ns_spec k K) as (S1 & S2 & S3).
  assert (E : ns p = ns k). { apply ns_uniq; [lia| |exact Q]. intros y Y. destruct (Nat.lt_trichotomy y k) as [L|[->|L]]; auto. { specialize (H3 y ltac:(lia)). lia. } specialize (S2 y ltac:(lia)). lia. }
  split; auto. unfold cl, zi. rewrite E. pose proof (d_le k). lia.
Qed.
Lemma next_open : forall p k, k < n -> is_pe p k -> ns k < n -> (av p <= av (ns k))%N -> pos (ns k) = S (cl k).
Proof.
  intros p k K H Q L. pose proof (pe_d p k H) as D. destruct H as (H1 & H2 & H3). destruct (ns_spec k K) as (S1 & S2 & S3). specialize (S3 Q).
  assert (P : is_pe p (ns k)). { split; [lia|]. split; auto. intros x X. destruct (Nat.lt_trichotomy x k) as [Y|[->|Y]]; auto. { specialize (H3 x ltac:(lia)). lia. } specialize (S2 x ltac:(lia)). lia. }
  pose proof (pe_d p _ P). unfold cl, spos. pose proof (d_le k). lia.
Qed.
Lemma ns_zero : forall k, k < n -> av k = 0%N -> ns k = n.
Proof. intros k K Z. destruct (ns_spec k K) as (S1 & S2 & S3). destruct (Nat.eq_dec (ns k) n) as [|NE]; auto. specialize (S3 ltac:(lia)). lia. Qed.
Lemma cl_root : 0 < n -> cl 0 = 2 * n - 1.
Proof. intros N0. unfold cl. rewrite (ns_zero 0 N0 A0), d0. lia. Qed.

(** ** zero indices *)
Lemma zi_lt : forall k, k < n -> zi k < n.
Proof. clear r_len r_pn r_ones BITS bp. intros k K. destruct (ns_spec k K) as (S1 & _). unfold zi. lia. Qed.
Lemma mono_d : forall q q', q <= q' -> q - d q <= q' - d q'.
Proof.
  clear r_len r_pn r_ones BITS bp. intros q q' L. induction L; auto. pose proof (depth_S lt m). pose proof (d_le m). pose proof (d_le (S m)). lia.
Qed.
Lemma zi_hi : forall k, k < n -> ns k < n -> zi k < ns k - d (ns k).
Proof. clear r_len r_pn r_ones BITS bp. intros k K Q. pose proof (d_pop k K Q). pose proof (d_le k). destruct (ns_spec k K) as (S1 & _). unfold zi. lia. Qed.
Lemma zi_lo : forall k, k < n -> (ns k - 1) - d (ns k - 1) <= zi k.
Proof.
  intros k K. destruct (ns_spec k K) as (S1 & S2 & _). unfold zi. destruct (Nat.eq_dec k (ns k - 1)) as [<-|NE]; [lia|].
  pose proof (proj2 (depth_spec lt (ilt_trans true v) k (ns k - 1) ltac:(lia))) as X. specialize (X ltac:(intros; apply lt_f, S2; lia) (ns k - 1) ltac:(lia)). lia.
Qed.
Lemma zi_inj : forall k k', k < n -> k' < n -> zi k = zi k' -> k = k'.
Proof.
  assert (X : forall k k', k < n -> k' < n -> zi k = zi k' -> ns k < ns k' -> False).
  { intros k k' K K' E L. destruct (ns_spec k' K') as (S1 & _). pose proof (zi_hi k K ltac:(lia)). pose proof (zi_lo k' K'). pose proof (mono_d (ns k) (ns k' - 1) ltac:(lia)). lia. }
  intros k k' K K' E. destruct (Nat.lt_trichotomy (ns k) (ns k')) as [L|[L|L]]; [destruct (X k k'); auto| |destruct (X k' k); auto].
  apply cl_inj; auto. rewrite !cl_zi by auto. lia.
Qed.
Lemma zi_surj : forall z, z < n -> exists k, k < n /\ zi k = z.
Proof.
  intros z Z. assert (I : incl (seq 0 n) (map zi (seq 0 n))).
  { apply NoDup_length_incl; [|rewrite map_length; lia|].
    - assert (X : forall l, NoDup l -> (forall x, In x l -> x < n) -> NoDup (map zi l)).
      { induction l as [|x l IH]; intros ND F; cbn [map]; constructor; inversion ND; subst.
        - intros H. apply in_map_iff in H. destruct H as (y & E & Y). assert (x = y) by (apply zi_inj; [apply F; left; auto|apply F; right; auto|auto]). subst y. contradiction.
        - apply IH; auto. intros y Y. apply F. right. exact Y. }
      apply X; [apply seq_NoDup|]. intros x Hx. apply in_seq in Hx. lia.
    - intros y Y. apply in_map_iff in Y. destruct Y as (x & <- & Hx). apply in_seq in Hx. apply in_seq. pose proof (zi_lt x ltac:(lia)). lia. }
  specialize (I z ltac:(apply in_seq; lia)). apply in_map_iff in I. destruct I as (k & E & Hk). apply in_seq in Hk. exists k. split; [lia|auto].
Qed.

(** ** runs of equal values *)
Definition first (k : nat) : Prop := forall p, is_pe p k -> (av p < av k)%N.
Lemma first_dec : forall k, first k \/ exists p, is_pe p k /\ av p = av k.
Proof.
  intros k. destruct (popw lt k (stk lt k)) as [|p rest] eqn:E.
  - left. intros p H. rewrite (pe_pop p k H) in E. discriminate.
  - destruct (N.ltb_spec (av p) (av k)) as [L|L].
    + left. intros p' H. rewrite (pe_pop p' k H) in E. injection E as -> _. exact L.
    + destruct k as [|k]; [discriminate|]. right. destruct (pe_ex (S k) ltac:(lia)) as (p' & H). exists p'. split; auto. rewrite (pe_pop p' _ H) in E. injection E as -> _. destruct H as (_ & H & _). lia.
Qed.
Lemma eq_pe : forall p k, k < n -> is_pe p k -> av p = av k -> ns p = ns k /\ cl p = S (cl k) /\ zi p = S (zi k).
Proof. intros p k K H E. apply ns_pe; auto. intros Q. rewrite E. apply (ns_spec k K). exact Q. Qed.
(** the first index of the run of k *)
Lemma run_first : forall m k, k <= m -> k < n -> exists f, f <= k /\ first f /\ av f = av k /\ ns f = ns k /\ zi k <= zi f /\ (forall y, f <= y <= k -> (av k <= av y)%N) /\
  forall z, zi k <= z < zi f -> exists y, y < n /\ zi y = z /\ ~ first y.
Proof.
  induction m; intros k M K.
  - exists k. split; [lia|]. split; [intros p (P & _); lia|]. split; auto. split; auto. split; auto. split; [intros y Y; replace y with k by lia; lia|]. intros; lia.
  - destruct (first_dec k) as [F|(p & P & E)].
    + exists k. split; [lia|]. split; [exact F|]. split; auto. split; auto. split; auto. split; [intros y Y; replace y with k by lia; lia|]. intros; lia.
    + pose proof (eq_pe p k K P E) as (E1 & E2 & E3). pose proof P as (P1 & P2 & P3). destruct (IHm p ltac:(lia) ltac:(lia)) as (f & F1 & F2 & F3 & F4 & F5 & F6 & F7). exists f. split; [lia|]. split; auto. split; [congruence|]. split; [congruence|]. split; [lia|]. split.
      * intros y Y. destruct (Nat.le_gt_cases y p). { specialize (F6 y ltac:(lia)). lia. } destruct (Nat.eq_dec y k) as [->|]; [lia|]. specialize (P3 y ltac:(lia)). lia.
      * intros z Z. destruct (Nat.eq_dec z (zi k)) as [->|]; [|apply F7; lia]. exists k. split; auto. split; auto. intros C. specialize (C p P). lia.
Qed.
Lemma run_cl : forall k f, k < n -> f < n -> ns f = ns k -> zi k <= zi f -> cl f = cl k + (zi f - zi k).
Proof. intros k f K F E Z. rewrite !cl_zi by auto. lia. Qed.

(** ** zeros of the LCP array *)
Definition cnt0 (k : nat) : nat := length (filter (fun x => N.eqb (av x) 0) (seq 0 k)).
Lemma cnt0_S : forall k, cnt0 (S k) = cnt0 k + if N.eqb (av k) 0 then 1 else 0.
Proof. intros. unfold cnt0. rewrite seq_S, filter_app, app_length. cbn [Nat.add filter]. destruct (N.eqb (av k) 0); reflexivity. Qed.
Lemma cnt0_mono : forall k k', k <= k' -> cnt0 k <= cnt0 k'.
Proof. intros k k' L. induction L; auto. rewrite cnt0_S. destruct (N.eqb _ _); lia. Qed.
Lemma cnt0_gap : forall m p, (forall x, p <= x < p + m -> (0 < av x)%N) -> cnt0 (p + m) = cnt0 p.
Proof. induction m; intros p H. { rewrite Nat.add_0_r. auto. } rewrite Nat.add_succ_r, cnt0_S, IHm by (intros; apply H; lia). specialize (H (p + m) ltac:(lia)). destruct (N.eqb_spec (av (p + m)) 0); lia. Qed.
Lemma cnt0_d : forall m k, k <= m -> cnt0 k <= d k /\ (av k = 0%N -> d k = cnt0 k).
Proof.
  induction m; intros k M. { replace k with 0 by lia. split; auto. }
  destruct (Nat.eq_dec k 0) as [->|NZ]; [split; auto|]. destruct (pe_ex k ltac:(lia)) as (p & P). pose proof (pe_d p k P) as D. destruct P as (P1 & P2 & P3).
  destruct (IHm p ltac:(lia)) as [I1 I2]. assert (C : cnt0 k = cnt0 p + if N.eqb (av p) 0 then 1 else 0).
  { rewrite <- cnt0_S. replace k with (S p + (k - S p)) at 1 by lia. apply cnt0_gap. intros x X. specialize (P3 x ltac:(lia)). lia. }
  rewrite C, D. split; [destruct (N.eqb _ _); lia|]. intros Z. assert (PZ : av p = 0%N) by lia. rewrite PZ. cbn [N.eqb]. rewrite (I2 PZ). lia.
Qed.
Lemma zero_cl : forall k, k < n -> (2 * n <= cl k + cnt0 n <-> av k = 0%N).
Proof.
  intros k K. destruct (ns_spec k K) as (S1 & S2 & S3). pose proof (d_le k). destruct (cnt0_d k k (le_n k)) as [C1 C2]. split.
  - intros L. destruct (N.eq_dec (av k) 0) as [|NZ]; auto. exfalso. destruct (Nat.eq_dec (ns k) n) as [E|NE].
    + assert (X : cnt0 n = cnt0 k). { replace n with (k + (n - k)) by lia. apply cnt0_gap. intros x X. destruct (Nat.eq_dec x k) as [->|]; [lia|]. specialize (S2 x ltac:(lia)). lia. }
      unfold cl in L. lia.
    + assert (LQ : ns k < n) by lia. pose proof (d_pop k K LQ) as DP. destruct (cnt0_d (ns k) (ns k) (le_n _)) as [Q1 _].
      (* zeros behind ns k are at most n - ns k *)
      assert (X : forall m, cnt0 (ns k + m) <= cnt0 (ns k) + m). { induction m; [rewrite Nat.add_0_r; lia|]. rewrite Nat.add_succ_r, cnt0_S. destruct (N.eqb _ _); lia. }
      specialize (X (n - ns k)). replace (ns k + (n - ns k)) with n in X by lia.
      assert (Y : cnt0 (ns k) = cnt0 k). { replace (ns k) with (k + (ns k - k)) by lia. apply cnt0_gap. intros x Hx. destruct (Nat.eq_dec x k) as [->|]; [lia|]. specialize (S2 x ltac:(lia)). lia. }
      unfold cl in L. lia.
  - intros Z. rewrite (cl_zi k K). unfold zi. rewrite (ns_zero k K Z), (C2 Z). pose proof (cnt0_mono (S k) n ltac:(lia)) as M. rewrite cnt0_S, Z in M. cbn [N.eqb] in M. pose proof (C2 Z). lia.
Qed.
End O.
