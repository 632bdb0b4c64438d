(** * inv_perm_support inverts every permutation within 2*t_s+2 reads *)
From Coq Require Import NArith List Bool Arith Lia Permutation.
From Verif Require Import Base Bits SpecBits RankSelect BitsProofs2 AbsVec RrrVector FnArr SelectSupportProofs3 InvPerm.
Import ListNotations.

Section P.
Variable t : nat.
Hypothesis HT : 1 <= t.
Variable v : list nat.
Let n := length v.
Hypothesis HV : forall x, In x v -> x < n.
Hypothesis HI : NoDup v.

Definition nxt (x : nat) : nat := nth x v 0.
Fixpoint it (k x : nat) : nat := match k with 0 => x | S k => nxt (it k x) end.
Lemma nxt_lt : forall x, x < n -> nxt x < n.
Proof. intros. apply HV. apply nth_In. auto. Qed.
Lemma nxt_inj : forall x y, x < n -> y < n -> nxt x = nxt y -> x = y.
Proof. intros x y X Y E. apply (proj1 (NoDup_nth v 0) HI x y X Y E). Qed.
Lemma it_lt : forall k x, x < n -> it k x < n.
Proof. induction k; intros; cbn; auto. apply nxt_lt. auto. Qed.
Lemma it_add : forall a b x, it (a + b) x = it a (it b x).
Proof. induction a; intros; cbn; auto. Qed.
Lemma it_inj : forall k x y, x < n -> y < n -> it k x = it k y -> x = y.
Proof. induction k; intros x y X Y E; auto. cbn in E. apply nxt_inj in E; auto using it_lt. Qed.
Lemma nth_nxt : forall x, x < n -> nth_error v x = Some (nxt x).
Proof. intros. unfold nxt. apply nth_error_nth'. auto. Qed.

Lemma pigeon : forall m (g : nat -> nat), (forall k, k <= m -> g k < m) -> exists a b, a < b <= m /\ g a = g b.
Proof.
  clear.
  intros m g H. destruct (le_lt_dec m 0) as [Z|Z]. { specialize (H 0 ltac:(lia)). lia. }
  assert (ND : ~ NoDup (map g (seq 0 (S m)))).
  { intro ND. assert (L : length (map g (seq 0 (S m))) <= length (seq 0 m)).
    { apply NoDup_incl_length; auto. intros y Y. apply in_map_iff in Y. destruct Y as (k & <- & K). apply in_seq in K. apply in_seq. specialize (H k ltac:(lia)). lia. }
    rewrite map_length, !seq_length in L. lia. }
  destruct (Nat.eq_dec 0 0) as [_|]; [|lia].
  assert (D : (exists a b, a < b <= m /\ g a = g b) \/ ~ (exists a b, a < b <= m /\ g a = g b)).
  { assert (DD : forall c, c <= S m -> (exists a b, a < b < c /\ g a = g b) \/ ~ (exists a b, a < b < c /\ g a = g b)).
    { induction c as [|c IH]; intros C. { right. intros (a & b & Q & _). lia. }
      destruct IH as [(a & b & Q & E)|NO]. { lia. } { left. exists a, b. split; auto. lia. }
      assert (D2 : forall d, d <= c -> (exists a, a < d /\ g a = g c) \/ ~ (exists a, a < d /\ g a = g c)).
      { induction d as [|d IHd]; intros DL. { right. intros (a & Q & _). lia. }
        destruct IHd as [(a & Q & E)|NO2]; [lia| left; exists a; split; auto; lia|].
        destruct (Nat.eq_dec (g d) (g c)) as [E|NE]. { left. exists d. split; auto. }
        right. intros (a & Q & E). destruct (Nat.eq_dec a d) as [->|]; [congruence|]. apply NO2. exists a. split; auto. lia. }
      destruct (D2 c (Nat.le_refl _)) as [(a & Q & E)|NO2]. { left. exists a, c. split; auto. }
      right. intros (a & b & Q & E). destruct (Nat.eq_dec b c) as [->|]. { apply NO2. exists a. split; auto. lia. }
      apply NO. exists a, b. split; auto. lia. }
    destruct (DD (S m) (Nat.le_refl _)) as [(a & b & Q & E)|NO]; [left; exists a, b; split; auto; lia|].
    right. intros (a & b & Q & E). apply NO. exists a, b. split; auto. lia. }
  destruct D as [D|D]; auto. exfalso. apply ND. apply (NoDup_nth _ 0). intros a b A B E. rewrite map_length, seq_length in A, B.
  rewrite !(nth_indep _ 0 (g 0)) in E by (rewrite map_length, seq_length; auto). rewrite !map_nth, !seq_nth in E by auto. cbn in E.
  destruct (Nat.lt_trichotomy a b) as [L|[L|L]]; auto; exfalso; apply D; [exists a, b | exists b, a]; split; auto; lia.
Qed.

Definition isper (L x : nat) : Prop := 1 <= L /\ it L x = x.
Lemma period : forall x, x < n -> exists L, isper L x /\ L <= n /\ forall k, 1 <= k < L -> it k x <> x.
Proof.
  intros x X. destruct (pigeon n (fun k => it k x)) as (a & b & AB & E). { intros. apply it_lt. auto. }
  assert (P0 : it (b - a) x = x).
  { symmetry. apply (it_inj a); auto using it_lt. rewrite <- it_add. replace (a + (b - a)) with b by lia. auto. }
  assert (G : forall d, 1 <= d <= n -> it d x = x -> exists L, isper L x /\ L <= n /\ forall k, 1 <= k < L -> it k x <> x).
  { induction d as [d IH] using (well_founded_induction lt_wf). intros D E2.
    destruct (Nat.eq_dec 0 0) as [_|]; [|lia].
    assert (DEC : forall c, c <= d -> (exists k, 1 <= k < c /\ it k x = x) \/ (forall k, 1 <= k < c -> it k x <> x)).
    { induction c as [|c IHc]; intros C. { right. intros. lia. } destruct IHc as [(k & Q & F)|NO]; [lia| left; exists k; split; auto; lia|].
      destruct (Nat.eq_dec c 0) as [->|]. { right. intros. lia. } destruct (Nat.eq_dec (it c x) x) as [F|F]. { left. exists c. split; auto. lia. }
      right. intros k K. destruct (Nat.eq_dec k c) as [->|]; auto. apply NO. lia. }
    destruct (DEC d (Nat.le_refl _)) as [(k & Q & F)|NO]. { apply (IH k); auto; lia. }
    exists d. split; [split; auto; lia|]. split; [lia|]. auto. }
  apply (G (b - a)); auto. lia.
Qed.
Lemma isper_it : forall L x k, isper L x -> isper L (it k x).
Proof. intros L x k [P E]. split; auto. rewrite <- it_add, Nat.add_comm, it_add, E. auto. Qed.
Lemma it_mul : forall L x m, isper L x -> it (m * L) x = x.
Proof. intros L x m [P E]. induction m; auto. replace (S m * L) with (L + m * L) by lia. rewrite it_add, IHm. auto. Qed.
Lemma it_mod : forall L x k, isper L x -> it k x = it (k mod L) x.
Proof.
  intros L x k P. pose proof P as [P1 _]. rewrite (Nat.div_mod k L) at 1 by lia. rewrite Nat.add_comm, it_add, (Nat.mul_comm L), it_mul; auto.
Qed.

(** ** the pairs a cycle produces, whatever is done with them *)
Fixpoint facts {A} (act : A -> nat -> nat -> option A) (st : A) (es : list (nat * nat)) : option A :=
  match es with [] => Some st | (j, b) :: r => let* st := act st j b in facts act st r end.
Lemma facts_app : forall A (act : A -> nat -> nat -> option A) e1 e2 st, facts act st (e1 ++ e2) = let* st := facts act st e1 in facts act st e2.
Proof. induction e1 as [|[j b] e1 IH]; intros; cbn; auto. destruct (act st j b); cbn; auto. Qed.
Definition epos (es : list (nat * nat)) (j : nat) : Prop := exists b, In (j, b) es.

Lemma cycle_spec : forall i L, i < n -> isper L i -> (forall k, 1 <= k < L -> it k i <> i) ->
  forall d k s fuel done, k + d = L -> 1 <= d -> s <= k -> s < t -> length done = n -> d <= fuel ->
  exists es done', (forall A (act : A -> nat -> nat -> option A) st,
      ip_cycle t v act fuel i (it k i) (it (k - s) i) s k done st = let* st := facts act st es in Some (done', st)) /\
    length done' = n /\
    (forall x, nth x done' false = true -> nth x done false = true \/ exists m, x = it m i) /\
    (forall x, nth x done false = true -> nth x done' false = true) /\
    (forall j b, In (j, b) es -> exists p g, 1 <= g <= t /\ p + g <= L /\ b = it p i /\ j = it (p + g) i) /\
    (t < L - 1 -> forall j b, In (j, b) es -> b = it (k - s) i \/ epos es b) /\
    (t < L - 1 -> epos es i) /\
    (t < L - 1 -> forall p, k - s < p <= L -> exists a, a < t /\ epos es (it (p + a) i)).
Proof.
  intros i L I PER MIN. destruct PER as [PL PI].
  induction d as [|d IH]; intros k s fuel done KD D1 SK ST LD FU; [lia|].
  destruct fuel as [|fuel]; [lia|]. cbn [ip_cycle].
  rewrite nth_nxt by (apply it_lt; auto). change (nxt (it k i)) with (it (S k) i).
  destruct (Nat.eq_dec (S k) L) as [EL|NL].
  - rewrite EL, PI.
    exists (if t <? k then [(i, it (k - s) i)] else []), done. split; [|split; [|split; [|split; [|split; [|split; [|split]]]]]].
    + intros A act st. cbn [obind]. rewrite Nat.eqb_refl. destruct (t <? k); cbn [facts]; auto.
      destruct (act st i (it (k - s) i)); auto.
    + auto.
    + auto.
    + auto.
    + intros j b J. destruct (t <? k) eqn:TK; [|destruct J]. destruct J as [E|[]]. injection E as <- <-.
      exists (k - s), (s + 1). split; [lia|]. split; [lia|]. split; auto. replace (k - s + (s + 1)) with L by lia. auto.
    + intros TL j b J. destruct (t <? k) eqn:TK; [|destruct J]. destruct J as [E|[]]. injection E as <- <-. left. auto.
    + intros TL. replace (t <? k) with true by (symmetry; apply Nat.ltb_lt; lia). exists (it (k - s) i). left. auto.
    + intros TL p P. replace (t <? k) with true by (symmetry; apply Nat.ltb_lt; lia). exists (L - p). split; [lia|].
      replace (p + (L - p)) with L by lia. rewrite PI. exists (it (k - s) i). left. auto.
  - assert (NE : it (S k) i <> i) by (apply MIN; lia). assert (NE' : it (S k) i =? i = false) by (apply Nat.eqb_neq; auto).
    assert (IN : it (S k) i < length done) by (rewrite LD; apply it_lt; auto).
    remember (upd done (it (S k) i) true) as done1 eqn:ED.
    assert (LD1 : length done1 = n) by (rewrite ED, upd_length; auto).
    assert (DN1 : forall x, nth x done1 false = true -> nth x done false = true \/ exists m, x = it m i).
    { intros x. rewrite ED, nth_upd by auto. destruct (Nat.eqb_spec x (it (S k) i)) as [->|]; [intros _; right; exists (S k); auto | cbn [andb]; auto]. }
    assert (DN2 : forall x, nth x done false = true -> nth x done1 false = true).
    { intros x Hx. rewrite ED, nth_upd by auto. destruct (Nat.eqb_spec x (it (S k) i)) as [->|]; cbn [andb]; auto.
      replace (it (S k) i <? length done) with true by (symmetry; apply Nat.ltb_lt; auto). auto. }
    destruct (Nat.eqb_spec t (s + 1)) as [ET|NT].
    + destruct (IH (S k) 0 fuel done1) as (es & done' & E & LD' & C1 & C2 & C3 & C4 & C5 & C6); try lia; auto.
      rewrite Nat.sub_0_r in *.
      exists ((it (S k) i, it (k - s) i) :: es), done'. split; [|split; [|split; [|split; [|split; [|split; [|split]]]]]].
      * intros A act st. cbn [obind facts]. rewrite NE'. rewrite aset_some by auto. cbn [obind]. rewrite <- ED.
        destruct (act st (it (S k) i) (it (k - s) i)) as [st1|]; auto. cbn [obind]. rewrite <- E. rewrite Nat.add_1_r. auto.
      * auto.
      * intros x Hx. destruct (C1 x Hx) as [Q|Q]; auto.
      * auto.
      * intros j b [J|J]; [|apply C3; auto]. injection J as <- <-. exists (k - s), (s + 1). split; [lia|]. split; [lia|]. split; auto.
        replace (k - s + (s + 1)) with (S k) by lia. auto.
      * intros TL j b [J|J]. { injection J as <- <-. left. auto. }
        right. destruct (C4 TL j b J) as [->|[b' B']]; [exists (it (k - s) i); left; auto | exists b'; right; auto].
      * intros TL. destruct (C5 TL) as [b' B']. exists b'. right. auto.
      * intros TL p P. destruct (le_lt_dec p (S k)) as [PK|PK].
        { exists (S k - p). split; [lia|]. replace (p + (S k - p)) with (S k) by lia. exists (it (k - s) i). left. auto. }
        { destruct (C6 TL p) as (a & A & [b' B']); [lia|]. exists a. split; auto. exists b'. right. auto. }
    + destruct (IH (S k) (s + 1) fuel done1) as (es & done' & E & LD' & C1 & C2 & C3 & C4 & C5 & C6); try lia; auto.
      replace (S k - (s + 1)) with (k - s) in * by lia.
      exists es, done'. split; [|split; [|split; [|split; [|split; [|split; [|split]]]]]]; auto.
      * intros A act st. cbn [obind]. rewrite NE'. rewrite aset_some by auto. cbn [obind]. rewrite <- ED.
        rewrite <- E. rewrite !Nat.add_1_r. auto.
      * intros x Hx. destruct (C1 x Hx) as [Q|Q]; auto.
Qed.

(** what the pairs of the processed cycles guarantee *)
Definition smallper (x : nat) : Prop := exists L, isper L x /\ L <= t + 1.
Definition evs_ok (es : list (nat * nat)) : Prop :=
  forall j b, In (j, b) es -> j < n /\ b < n /\ (exists g, 1 <= g <= t /\ it g b = j) /\ (smallper b \/ epos es b).
Definition covered (es : list (nat * nat)) (x : nat) : Prop := smallper x \/ exists a, a < t /\ epos es (it a x).

Lemma covered_orbit : forall es i m, i < n ->
  (exists L, isper L i /\ (L <= t + 1 \/ forall p, 0 < p <= L -> exists a, a < t /\ epos es (it (p + a) i))) -> covered es (it m i).
Proof.
  intros es i m I (L & P & [S|C]).
  - left. exists L. split; auto. apply isper_it. auto.
  - right. pose proof P as [P1 PI]. destruct (Nat.eq_dec (m mod L) 0) as [Z|Z].
    + destruct (C L) as (a & A & E); [lia|]. exists a. split; auto. rewrite (it_mod L i m P), Z. cbn [it].
      replace (L + a) with (a + L) in E by lia. rewrite it_add, PI in E. auto.
    + destruct (C (m mod L)) as (a & A & E). { pose proof (Nat.mod_upper_bound m L ltac:(lia)). lia. }
      exists a. split; auto. rewrite (it_mod L i m P), <- it_add. rewrite Nat.add_comm. auto.
Qed.
Lemma epos_app_l : forall a b x, epos a x -> epos (a ++ b) x.
Proof. intros a b x [y Y]. exists y. apply in_or_app. auto. Qed.
Lemma epos_app_r : forall a b x, epos b x -> epos (a ++ b) x.
Proof. intros a b x [y Y]. exists y. apply in_or_app. auto. Qed.

Lemma pass_spec : forall k i done es0, i + k = n -> length done = n -> evs_ok es0 ->
  (forall x, x < n -> nth x done false = true -> covered es0 x) -> (forall x, x < i -> nth x done false = true) ->
  exists es, (forall A (act : A -> nat -> nat -> option A) st, ip_pass t v act k i done st = facts act st es) /\
    evs_ok (es0 ++ es) /\ (forall x, x < n -> covered (es0 ++ es) x).
Proof.
  induction k as [|k IH]; intros i done es0 IK LD OK0 CV PRE.
  - exists []. cbn [ip_pass facts]. rewrite app_nil_r. split; auto. split; auto. intros x X. apply CV; auto. apply PRE. lia.
  - cbn [ip_pass]. assert (I : i < n) by lia. rewrite (nth_error_nth' done false) by lia. cbn [obind].
    destruct (nth i done false) eqn:DI.
    + destruct (IH (S i) done es0) as (es & E & Q1 & Q2); auto; try lia.
      { intros x X. destruct (Nat.eq_dec x i) as [->|]; auto. apply PRE. lia. }
      exists es. split; auto.
    + rewrite aset_some by lia. cbn [obind]. destruct (period i I) as (L & P & LN & MIN).
      destruct (cycle_spec i L I P MIN L 0 0 (length v + 1) (upd done i true)) as (es1 & done' & E & LD' & C1 & C2 & C3 & C4 & C5 & C6);
        auto; try (rewrite upd_length; auto; fail); try (destruct P; unfold n in *; lia).
      cbn [Nat.sub it] in *.
      assert (OK1 : evs_ok (es0 ++ es1)).
      { intros j b J. apply in_app_or in J. destruct J as [J|J].
        - destruct (OK0 j b J) as (J1 & J2 & J3 & J4). split; auto. split; auto. split; auto. destruct J4 as [J4|J4]; auto. right. apply epos_app_l. auto.
        - destruct (C3 j b J) as (p & g & G & PG & -> & ->). split; [apply it_lt; auto|]. split; [apply it_lt; auto|]. split.
          { exists g. split; auto. rewrite <- it_add. f_equal. lia. }
          destruct (le_lt_dec (L - 1) t) as [S|S]. { left. exists L. split; [apply isper_it; auto | lia]. }
          right. apply epos_app_r. destruct (C4 S _ _ J) as [Q|Q]; auto. rewrite Q. auto. }
      destruct (IH (S i) done' (es0 ++ es1)) as (es & E2 & Q1 & Q2); auto; try lia.
      { intros x X Hx. destruct (C1 x Hx) as [Q|(m & ->)].
        - rewrite nth_upd in Q by lia. destruct (Nat.eqb_spec x i) as [->|].
          + apply (covered_orbit (es0 ++ es1) i 0 I). exists L. split; auto. destruct (le_lt_dec (L - 1) t); [left; lia|right].
            intros p PP. destruct (C6 l p PP) as (a & A & EE). exists a. split; auto. apply epos_app_r. auto.
          + cbn in Q. destruct (CV x X Q) as [S|(a & A & EE)]; [left; auto | right; exists a; split; auto; apply epos_app_l; auto].
        - apply covered_orbit; auto. exists L. split; auto. destruct (le_lt_dec (L - 1) t); [left; lia|right].
          intros p PP. destruct (C6 l p PP) as (a & A & EE). exists a. split; auto. apply epos_app_r. auto. }
      { intros x X. apply C2. rewrite nth_upd by lia. destruct (Nat.eqb_spec x i) as [->|NX].
        { replace (i <? length done) with true by (symmetry; apply Nat.ltb_lt; lia). auto. }
        cbn. apply PRE. lia. }
      exists (es1 ++ es). rewrite app_assoc. split; auto. intros A act st. rewrite E, facts_app. destruct (facts act st es1); auto.
      cbn [obind]. auto.
Qed.

(** ** the first pass marks the positions and takes the maximum *)
Lemma mark_spec : forall es m mx, length m = n -> (forall j b, In (j, b) es -> j < n /\ b < n) -> mx <= n ->
  exists m' mx', facts ip_mark (m, mx) es = Some (m', mx') /\ length m' = n /\ mx <= mx' <= n /\ (forall j b, In (j, b) es -> b <= mx') /\
    (forall x, x < n -> (nth x m' false = true <-> nth x m false = true \/ epos es x)).
Proof.
  induction es as [|[j b] es IH]; intros m mx LM IN MX.
  - exists m, mx. cbn [facts]. split; auto. split; auto. split; [lia|]. split; [intros ? ? []|]. intros x X. split; auto. intros [Q|[y []]]; auto.
  - destruct (IN j b (or_introl eq_refl)) as [J B].
    cbn [facts]. unfold ip_mark at 1. cbn [fst snd]. rewrite aset_some by lia. cbn [obind].
    destruct (IH (upd m j true) (Nat.max mx b)) as (m' & mx' & E & L' & M & BB & C); auto; try lia.
    { rewrite upd_length. auto. } { intros j' b' JB. apply (IN j' b'). right. auto. }
    exists m', mx'. split; auto. split; auto. split; [lia|]. split.
    { intros j' b' [Q|Q]; [injection Q as <- <-; lia | apply (BB j' b' Q)]. }
    intros x X. rewrite C by auto. rewrite nth_upd by lia. destruct (Nat.eqb_spec x j) as [->|NE].
    + replace (j <? length m) with true by (symmetry; apply Nat.ltb_lt; lia). cbn [andb]. split; auto. intros _. right. exists b. left. auto.
    + cbn [andb]. split; (intros [Q|[y Y]]; [left; auto | right]).
      * exists y. right. auto.
      * destruct Y as [Y|Y]; [congruence|]. exists y. auto.
Qed.

Lemma rank_inj : forall (m : list bool) a b, a <> b -> nth a m false = true -> nth b m false = true -> ip_rank m a <> ip_rank m b.
Proof.
  intros m. assert (G : forall a b, a < b -> nth a m false = true -> ip_rank m a < ip_rank m b).
  { intros a b L A. unfold ip_rank. pose proof (rank_of_mono (fun p => nth p m false) (S a) b L). rewrite rank_of_S, A in H. cbn [b2nat] in H. lia. }
  intros a b NE A B. destruct (Nat.lt_trichotomy a b) as [L|[L|L]]; [pose proof (G a b L A) | | pose proof (G b a L B)]; lia.
Qed.

Lemma store_spec : forall m w, length m = n -> forall all es pre st,
  (forall j b, In (j, b) (pre ++ es) -> In (j, b) all /\ j < n /\ nth j m false = true /\ (N.of_nat b < 2 ^ N.of_nat w)%N) ->
  av_size st = ip_rank m n -> av_w st = w ->
  (forall j, epos pre j -> exists b, In (j, b) all /\ avn st (ip_rank m j) = Some b) ->
  exists st', facts (ip_store m) st es = Some st' /\
    (forall j, epos (pre ++ es) j -> exists b, In (j, b) all /\ avn st' (ip_rank m j) = Some b).
Proof.
  intros m w LM all. induction es as [|[j b] es IH]; intros pre st IN SZ W PRE.
  - exists st. split; auto. rewrite app_nil_r. auto.
  - destruct (IN j b) as (A & J & MJ & F). { apply in_or_app. right. left. auto. }
    assert (RJ : ip_rank m j < av_size st).
    { rewrite SZ. unfold ip_rank. pose proof (rank_of_mono (fun p => nth p m false) (S j) n J). rewrite rank_of_S, MJ in H. cbn [b2nat] in H. lia. }
    cbn [facts]. unfold ip_store at 1. unfold avs. rewrite av_set_some; [|auto|rewrite W; auto]. cbn [obind].
    destruct (IH (pre ++ [(j, b)]) (mkav (av_w st) (upd (av_l st) (ip_rank m j) (N.of_nat b)))) as (st' & E & C).
    + intros j' b' Q. rewrite <- app_assoc in Q. apply IN. auto.
    + unfold av_size. cbn [av_l]. rewrite upd_length. auto.
    + auto.
    + intros j' [b' Q].
      unfold avn, av_get. cbn [av_l].
      destruct (Nat.eq_dec j' j) as [->|NE].
      * exists b. split; auto. rewrite (nth_error_nth' _ 0%N) by (rewrite upd_length; auto). rewrite nth_upd by auto. rewrite Nat.eqb_refl.
        unfold av_size in RJ. replace (ip_rank m j <? length (av_l st)) with true by (symmetry; apply Nat.ltb_lt; auto). cbn. rewrite Nnat.Nat2N.id. auto.
      * apply in_app_or in Q. destruct Q as [Q|[Q|[]]]; [|congruence].
        destruct (PRE j' (ex_intro _ b' Q)) as (b2 & B2 & G). exists b2. split; auto. rewrite <- G. unfold avn, av_get.
        assert (M' : nth j' m false = true) by (apply (IN j' b'); apply in_or_app; auto).
        pose proof (rank_inj m _ _ NE M' MJ) as NR.
        destruct (nth_error (av_l st) (ip_rank m j')) eqn:EN.
        { assert (RL : ip_rank m j' < length (av_l st)) by (apply nth_error_Some; congruence).
          rewrite (nth_error_nth' _ 0%N) by (rewrite upd_length; auto). rewrite nth_upd by auto.
          replace (ip_rank m j' =? ip_rank m j) with false by (symmetry; apply Nat.eqb_neq; auto). cbn [andb].
          rewrite (nth_error_nth _ _ 0%N EN). auto. }
        { unfold avn, av_get in G. rewrite EN in G. discriminate. }
    + exists st'. split; auto. intros j' Q. apply C. rewrite <- app_assoc. auto.
Qed.

Lemma walk_ok : forall r i b fuel, b < n -> 1 <= r <= fuel -> it r b = i -> exists j, ip_walk v fuel i b = Some j /\ j < n /\ nxt j = i.
Proof.
  induction r as [|r IH]; intros i b fuel B R E; [lia|]. destruct fuel as [|fuel]; [lia|]. cbn [ip_walk]. rewrite nth_nxt by auto. cbn [obind].
  destruct (Nat.eqb_spec (nxt b) i) as [EQ|NE]. { exists b. auto. }
  replace (S r) with (r + 1) in E by lia. rewrite it_add in E. cbn [it] in E. destruct r as [|r]. { cbn in E. congruence. }
  apply IH; auto; [apply nxt_lt; auto | lia].
Qed.

Section Query.
Variable p : invperm.
Variable es : list (nat * nat).
Hypothesis OK : evs_ok es.
Hypothesis CV : forall x, x < n -> covered es x.
Hypothesis LM : length (ip_marked p) = n.
Hypothesis MK : forall x, x < n -> (nth x (ip_marked p) false = true <-> epos es x).
Hypothesis BP : forall j, epos es j -> exists b, In (j, b) es /\ avn (ip_bp p) (ip_rank (ip_marked p) j) = Some b.

Lemma orbit_back : forall i b g k L, isper L i -> i < n -> b < n -> it g b = it k i -> exists r, 1 <= r <= L /\ it r b = i.
Proof.
  intros i b g k L P I B E. pose proof P as [P1 PI].
  (* b is in the orbit of i *)
  assert (PB : isper L b).
  { split; auto. apply (it_inj g); auto using it_lt. rewrite <- it_add, Nat.add_comm, it_add, E. apply (isper_it L i k P). }
  (* it (g + (L - k mod L)) b = i *)
  assert (E2 : it (L - k mod L + g) b = i).
  { rewrite it_add, E, (it_mod L i k P), <- it_add. replace (L - k mod L + k mod L) with L; auto. pose proof (Nat.mod_upper_bound k L ltac:(lia)). lia. }
  remember (L - k mod L + g) as q. destruct (Nat.eq_dec (q mod L) 0) as [Z|Z].
  - exists L. split; [lia|]. destruct PB as [_ PB]. rewrite PB. rewrite (it_mod L b q (conj P1 PB)), Z in E2. auto.
  - exists (q mod L). split. { pose proof (Nat.mod_upper_bound q L ltac:(lia)). lia. } rewrite <- (it_mod L b q PB). auto.
Qed.

(** a small cycle *)
Lemma search_small : forall L i, isper L i -> L <= t + 1 -> i < n ->
  forall d k fuel, k + d = L -> 1 <= d -> d + L <= fuel -> exists j, ip_search v p fuel i (it k i) = Some j /\ j < n /\ nxt j = i.
Proof.
  intros L i P LT I. induction d as [|d IH]; intros k fuel KD D FU; [lia|]. destruct fuel as [|fuel]; [lia|]. cbn [ip_search].
  rewrite nth_nxt by (apply it_lt; auto). cbn [obind]. destruct (Nat.eqb_spec (nxt (it k i)) i) as [E|NE].
  { exists (it k i). split; auto. split; auto. apply it_lt. auto. }
  rewrite (nth_error_nth' _ false) by (rewrite LM; apply it_lt; auto). cbn [obind].
  destruct (nth (it k i) (ip_marked p) false) eqn:M.
  - apply MK in M; [|apply it_lt; auto]. destruct (BP _ M) as (b & B & G). rewrite G. cbn [obind].
    destruct (OK _ _ B) as (_ & B1 & (g & GG & EG) & _). destruct (orbit_back i b g k L P I B1 EG) as (r & R & ER).
    apply (walk_ok r); auto. lia.
  - destruct d as [|d].
    { exfalso. apply NE. replace L with (S k) in P by lia. destruct P as [_ PI]. exact PI. }
    change (nxt (it k i)) with (it (S k) i). apply IH; lia.
Qed.

Lemma search_large : forall i, i < n -> ~ smallper i -> forall a, a < t -> epos es (it a i) -> (forall k, k < a -> ~ epos es (it k i)) ->
  forall d k fuel, k + d = a -> d + t + 1 <= fuel -> exists j, ip_search v p fuel i (it k i) = Some j /\ j < n /\ nxt j = i.
Proof.
  intros i I NS a AT EA MIN. induction d as [|d IH]; intros k fuel KD FU; (destruct fuel as [|fuel]; [lia|]); cbn [ip_search];
    rewrite nth_nxt by (apply it_lt; auto); cbn [obind]; (destruct (Nat.eqb_spec (nxt (it k i)) i) as [E|NE];
    [exists (it k i); split; auto; split; auto; apply it_lt; auto|]);
    rewrite (nth_error_nth' _ false) by (rewrite LM; apply it_lt; auto); cbn [obind].
  - rewrite Nat.add_0_r in KD. subst k.
    assert (M : nth (it a i) (ip_marked p) false = true) by (apply MK; auto; apply it_lt; auto). rewrite M.
    destruct (BP _ EA) as (b & B & G). rewrite G. cbn [obind]. destruct (OK _ _ B) as (_ & B1 & (g & GG & EG) & SB).
    destruct (le_lt_dec g a) as [GA|GA].
    + exfalso. assert (EB : b = it (a - g) i).
      { apply (it_inj g); auto using it_lt. rewrite EG, <- it_add. f_equal. lia. }
      destruct SB as [SB|SB].
      * apply NS. destruct SB as (L & [P1 PB] & LL). exists L. split; auto. split; auto.
        apply (it_inj (a - g)); auto using it_lt. rewrite <- it_add, Nat.add_comm, it_add, <- EB. auto.
      * apply (MIN (a - g)); [lia|]. rewrite <- EB. auto.
    + apply (walk_ok (g - a)); auto; [lia|]. apply (it_inj a); auto using it_lt. rewrite <- it_add. replace (a + (g - a)) with g by lia. auto.
  - assert (M : nth (it k i) (ip_marked p) false = false).
    { destruct (nth (it k i) (ip_marked p) false) eqn:M; auto. exfalso. apply MK in M; [|apply it_lt; auto]. apply (MIN k); auto. lia. }
    rewrite M. change (nxt (it k i)) with (it (S k) i). apply IH; lia.
Qed.

Lemma least_pos : forall i a, i < n -> epos es (it a i) -> exists a', a' <= a /\ epos es (it a' i) /\ forall k, k < a' -> ~ epos es (it k i).
Proof.
  intros i a I. induction a as [a IH] using (well_founded_induction lt_wf). intros E.
  assert (DEC : forall c, (exists k, k < c /\ epos es (it k i)) \/ (forall k, k < c -> ~ epos es (it k i))).
  { induction c as [|c IHc]. { right. intros. lia. } destruct IHc as [(k & K & F)|NO]; [left; exists k; split; auto; lia|].
    destruct (nth (it c i) (ip_marked p) false) eqn:M.
    - left. exists c. split; auto. apply MK; auto. apply it_lt. auto.
    - right. intros k K. destruct (Nat.eq_dec k c) as [->|]; [|apply NO; lia]. intro F. apply MK in F; [|apply it_lt; auto]. congruence. }
  destruct (DEC a) as [(k & K & F)|NO].
  - destruct (IH k K F) as (a' & A' & Q). exists a'. split; [lia|]. auto.
  - exists a. auto.
Qed.

Lemma get_ok : forall i, i < n -> exists j, ip_get v p (2 * t + 2) i = Some j /\ j < n /\ nxt j = i.
Proof.
  intros i I. unfold ip_get. destruct (period i I) as (L & P & _ & MINL).
  destruct (le_lt_dec L (t + 1)) as [S|S].
  - apply (search_small L i P S I L 0); auto; destruct P; lia.
  - assert (NS : ~ smallper i).
    { intros (L2 & [P1 P2] & LL). apply (MINL L2); auto. lia. }
    destruct (CV i I) as [SP|(a & A & E)]; [contradiction|].
    destruct (least_pos i a I E) as (a' & A' & E' & M').
    apply (search_large i I NS a' ltac:(lia) E' M' a' 0); lia.
Qed.
End Query.

Theorem invperm_ok : (N.of_nat n < W64)%N ->
  exists p, ip_make t v = Some p /\ forall i, i < n -> exists j, ip_get v p (2 * t + 2) i = Some j /\ nth_error v j = Some i.
Proof.
  intros NW.
  assert (OK0 : evs_ok []) by (intros j b []).
  destruct (pass_spec n 0 (repeat false n) [] eq_refl) as (es & E & OK & CV); auto.
  { apply repeat_length. } { intros x X F. rewrite nth_repeat in F. discriminate. } { intros. lia. }
  cbn [app] in *.
  destruct (mark_spec es (repeat false n) 0) as (m & mx & EM & LM & MX & BB & MK). { apply repeat_length. }
  { intros j b J. destruct (OK j b J) as (J1 & J2 & _). auto. } { lia. }
  assert (MK' : forall x, x < n -> (nth x m false = true <-> epos es x)).
  { intros x X. rewrite MK by auto. rewrite nth_repeat. split; auto. intros [Q|Q]; [discriminate|auto]. }
  destruct (store_spec m (hiw (N.of_nat mx)) LM es es [] (av_new (ip_rank m n) 0 (hiw (N.of_nat mx)))) as (bp & EB & BPK).
  { intros j b J. cbn [app] in J. split; auto. destruct (OK j b J) as (J1 & J2 & _). split; auto. split.
    - apply MK'; auto. exists b. auto.
    - apply hiw_fits; [lia|]. specialize (BB j b J). lia. }
  { apply av_size_new. } { reflexivity. } { intros j [b []]. }
  exists (mkip m bp). split.
  { unfold ip_make. fold n. rewrite E, EM. cbn [obind]. rewrite E, EB. reflexivity. }
  intros i I. destruct (get_ok (mkip m bp) es OK CV LM MK' BPK i I) as (j & G & J & NJ). exists j. split; auto.
  rewrite nth_nxt by auto. rewrite NJ. auto.
Qed.
End P.

Theorem invperm_inverse : forall t v, 1 <= t -> (N.of_nat (length v) < W64)%N -> Permutation v (seq 0 (length v)) ->
  exists p, ip_make t v = Some p /\ forall i, i < length v -> exists j, ip_get v p (2 * t + 2) i = Some j /\ nth_error v j = Some i.
Proof.
  intros t v T NW PM. apply invperm_ok; auto.
  - intros x X. apply (Permutation_in _ PM) in X. apply in_seq in X. lia.
  - apply (Permutation_NoDup (Permutation_sym PM)). apply seq_NoDup.
Qed.

Theorem invperm_left : forall t v, 1 <= t -> (N.of_nat (length v) < W64)%N -> Permutation v (seq 0 (length v)) ->
  exists p, ip_make t v = Some p /\ forall k x, nth_error v k = Some x -> ip_get v p (2 * t + 2) x = Some k.
Proof.
  intros t v T NW PM. destruct (invperm_inverse t v T NW PM) as (p & E & G). exists p. split; auto.
  intros k x K. assert (X : x < length v). { apply nth_error_In in K. apply (Permutation_in _ PM) in K. apply in_seq in K. lia. }
  destruct (G x X) as (j & GJ & NJ). rewrite GJ. f_equal.
  assert (ND : NoDup v) by (apply (Permutation_NoDup (Permutation_sym PM)); apply seq_NoDup).
  apply (proj1 (NoDup_nth_error v) ND); [apply nth_error_Some; congruence | congruence].
Qed.
