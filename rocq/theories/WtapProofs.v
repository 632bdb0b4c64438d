(** * Proofs about wt_ap *)
From Coq Require Import List Bool Arith Lia Permutation Sorted.
From Verif Require Import Base BitsProofs3 SpecBits RankSelect AbsVec FnArr WtBase WtProofs Csa CsaProofs2 CsaProofs3 Wtap.
Import ListNotations.

(** ** counting symbols *)
Definition occ (s : list nat) (c : nat) : nat := count_occ Nat.eq_dec s c.
Definition npos (f : nat -> nat) (m : nat) : nat := length (filter (fun x => negb (f x =? 0)) (seq 0 m)).
Lemma npos_S : forall f m, npos f (S m) = npos f m + (if f m =? 0 then 0 else 1).
Proof. intros. unfold npos. rewrite seq_S, filter_app, app_length. cbn [Nat.add filter]. destruct (f m =? 0); reflexivity. Qed.
Lemma npos_ext : forall f h m, (forall x, x < m -> f x = h x) -> npos f m = npos h m.
Proof. induction m; intros H; auto. rewrite !npos_S, IHm, H by auto. reflexivity. Qed.
Lemma npos_zero : forall f k m, (forall x, m <= x < m + k -> f x = 0) -> npos f (m + k) = npos f m.
Proof. induction k; intros m H; [rewrite Nat.add_0_r; auto|]. rewrite <- plus_n_Sm, npos_S, IHk, H by (intros; try apply H; lia). cbn. lia. Qed.
Lemma npos_upd : forall f e m, e < m -> npos (fun x => if x =? e then f e + 1 else f x) m = npos f m + (if f e =? 0 then 1 else 0).
Proof.
  intros f e m. induction m; intros L; [lia|]. rewrite !npos_S. destruct (Nat.eq_dec e m) as [->|NE].
  - rewrite Nat.eqb_refl. rewrite (npos_ext _ f) by (intros x X; destruct (Nat.eqb_spec x m); [lia|auto]). destruct (Nat.eqb_spec (f m + 1) 0); [lia|]. destruct (f m =? 0); lia.
  - rewrite IHm by lia. destruct (Nat.eqb_spec m e); [lia|]. lia.
Qed.
Lemma npos_le : forall f m, npos f m <= m.
Proof. induction m; auto. rewrite npos_S. destruct (f m =? 0); lia. Qed.
Definition cfl (f : nat -> nat) (m : nat) : list (nat * nat) := farr m (fun x => (f x, x)).
Lemma occ_snoc : forall s e c, occ (s ++ [e]) c = occ s c + (if e =? c then 1 else 0).
Proof. intros. unfold occ. rewrite count_occ_app. cbn [count_occ]. destruct (Nat.eq_dec e c), (Nat.eqb_spec e c); try congruence; auto. Qed.
Lemma freq_ok : forall s d m, (forall c, In c d -> c < m) -> exists m', freq_loop s (cfl (occ d) m) m (m - npos (occ d) m) = Some (cfl (occ (d ++ s)) m', m', m' - npos (occ (d ++ s)) m') /\ forall c, In c (d ++ s) -> c < m'.
Proof.
  induction s as [|e s IH]; intros d m H; cbn [freq_loop].
  - exists m. rewrite app_nil_r. auto.
  - set (k := e + 1 - m). assert (AB : forall x, m <= x -> occ d x = 0) by (intros x X; apply count_occ_not_In; intros I; apply H in I; lia).
    assert (CF : cfl (occ d) m ++ map (fun x => (0, x)) (seq m k) = cfl (occ d) (m + k)). { unfold cfl, farr. rewrite seq_app, map_app. f_equal. apply map_ext_in. intros x X. apply in_seq in X. rewrite AB by lia. reflexivity. }
    rewrite CF. assert (EL : e < m + k) by (unfold k; lia). unfold cfl at 1. rewrite farr_nth_error by auto. cbn [obind fst snd]. fold (cfl (occ d) (m + k)).
    pose proof (npos_zero (occ d) k m ltac:(intros; apply AB; lia)) as NZ. pose proof (npos_le (occ d) m) as NL. set (d' := d ++ [e]).
    assert (OD : forall x, occ d' x = if x =? e then occ d e + 1 else occ d x). { intros x. unfold d'. rewrite occ_snoc, (Nat.eqb_sym e x). destruct (Nat.eqb_spec x e); subst; lia. }
    assert (NP : npos (occ d') (m + k) = npos (occ d) m + (if occ d e =? 0 then 1 else 0)). { rewrite (npos_ext _ _ _ (fun x _ => OD x)), npos_upd, NZ by auto. reflexivity. }
    pose proof (npos_le (occ d') (m + k)) as NL'.
    assert (PS : (if occ d e =? 0 then csub (m - npos (occ d) m + k) 1 else Some (m - npos (occ d) m + k)) = Some (m + k - npos (occ d') (m + k))).
    { rewrite NP in *. destruct (occ d e =? 0); [apply csub_some; lia|f_equal; lia]. }
    rewrite PS. cbn [obind]. unfold cfl at 1. rewrite farr_aset by auto. cbn [obind].
    replace (farr (m + k) (fun j => if j =? e then (occ d e + 1, e) else (occ d j, j))) with (cfl (occ d') (m + k)).
    + destruct (IH d' (m + k)) as (m' & E & B). { intros c C. apply in_app_iff in C. destruct C as [C|[<-|[]]]; auto. apply H in C. lia. }
      exists m'. replace (d' ++ s) with (d ++ e :: s) in * by (unfold d'; rewrite <- app_assoc; reflexivity). auto.
    + apply farr_ext. intros x X. rewrite OD. destruct (Nat.eqb_spec x e); subst; auto.
Qed.

(** ** sorting *)
Lemma insert_perm : forall x l, Permutation (insert_desc x l) (x :: l).
Proof. induction l as [|y l IH]; cbn [insert_desc]; auto. destruct (pair_geb x y); auto. rewrite IH. apply perm_swap. Qed.
Lemma sort_perm : forall l, Permutation (sort_desc l) l.
Proof. induction l as [|x l IH]; cbn [sort_desc]; auto. rewrite insert_perm, IH. auto. Qed.
Definition ge1 (a b : nat * nat) : Prop := fst b <= fst a.
Lemma insert_sorted : forall x l, StronglySorted ge1 l -> StronglySorted ge1 (insert_desc x l).
Proof.
  induction l as [|y l IH]; intros S; cbn [insert_desc]; [repeat constructor|]. pose proof S as S0. apply StronglySorted_inv in S. destruct S as (S & F). destruct (pair_geb x y) eqn:E.
  - assert (G : ge1 x y). { unfold ge1, pair_geb in *. rewrite orb_true_iff, andb_true_iff, Nat.ltb_lt, Nat.eqb_eq in E. lia. } constructor; auto. constructor; auto. eapply Forall_impl; [|exact F]. unfold ge1 in *. intros; lia.
  - assert (G : ge1 y x). { unfold ge1, pair_geb in *. rewrite orb_false_iff, andb_false_iff, Nat.ltb_ge in E. lia. } constructor; auto. rewrite Forall_forall in *. intros z Z. apply (Permutation_in _ (insert_perm x l)) in Z. destruct Z as [<-|Z]; auto.
Qed.
Lemma sort_sorted : forall l, StronglySorted ge1 (sort_desc l).
Proof. induction l; cbn [sort_desc]; [constructor|]. apply insert_sorted. auto. Qed.
Definition posc (l : list (nat * nat)) : nat := length (filter (fun p => negb (fst p =? 0)) l).
Lemma sorted_pos : forall l, StronglySorted ge1 l -> forall t p, nth_error l t = Some p -> (t < posc l <-> fst p <> 0).
Proof.
  induction l as [|x l IH]; intros S t p E; [destruct t; discriminate|]. apply StronglySorted_inv in S. destruct S as (S & F). unfold posc. cbn [filter]. destruct (Nat.eqb_spec (fst x) 0) as [Z|NZ]; cbn [negb].
  - assert (A : forall q, In q (x :: l) -> fst q = 0). { intros q [<-|Q]; auto. rewrite Forall_forall in F. specialize (F q Q). unfold ge1 in F. lia. }
    rewrite (A p) by (eapply nth_error_In; eauto). replace (filter (fun p => negb (fst p =? 0)) l) with (@nil (nat * nat)); [cbn; lia|]. symmetry. clear - A. induction l as [|y l IH]; auto. cbn [filter]. rewrite (A y) by (right; left; auto). cbn. apply IH. intros q [<-|Q]; apply A; [left; auto|right; right; auto].
  - cbn [length]. destruct t as [|t]; [injection E as <-; split; [auto|lia]|]. rewrite <- (IH S t p E). unfold posc. lia.
Qed.
Lemma posc_perm : forall l l', Permutation l l' -> posc l = posc l'.
Proof. induction 1 as [|x l l' P IH|x y l|l l' l'' P1 IH1 P2 IH2]; auto; unfold posc in *; cbn [filter]; repeat match goal with |- context [negb (fst ?z =? 0)] => destruct (negb (fst z =? 0)) end; cbn [length]; lia. Qed.
Lemma posc_cfl : forall f m, posc (cfl f m) = npos f m.
Proof.
  intros f m. unfold posc, cfl, farr, npos. induction (seq 0 m) as [|x l IH]; auto. cbn [map filter fst]. destruct (negb (f x =? 0)); cbn [length]; lia.
Qed.

(** ** the classes *)
Section C.
Variable cf : list (nat * nat).
Variable mx sigma single cnt : nat.
Hypothesis LEN : length cf = mx.
Hypothesis SNM : forall t p, nth_error cf t = Some p -> snd p < mx.
Hypothesis INJ : forall t t' p p', nth_error cf t = Some p -> nth_error cf t' = Some p' -> snd p = snd p' -> t = t'.
Hypothesis SG : single <= sigma <= mx.
Definition ord (t : nat) : nat := snd (nth t cf (0, 0)).
Lemma cf_at : forall t, t < mx -> exists p, nth_error cf t = Some p /\ ord t = snd p.
Proof. intros t T. destruct (nth_error cf t) as [p|] eqn:E; [|apply nth_error_None in E; lia]. exists p. split; auto. unfold ord. rewrite (nth_error_nth _ _ _ E). auto. Qed.
Lemma ord_lt : forall t, t < mx -> ord t < mx.
Proof. intros t T. destruct (cf_at t T) as (p & E & ->). eauto. Qed.
Lemma ord_inj : forall t t', t < mx -> t' < mx -> ord t = ord t' -> t = t'.
Proof. intros t t' T T' E. destruct (cf_at t T) as (p & E1 & E2). destruct (cf_at t' T') as (p' & E1' & E2'). eapply INJ; eauto. congruence. Qed.
Record assigned (F : nat -> nat) (cur : nat) : Prop := {
  as_s : forall t, t < cur -> t < single -> F (ord t) = t;
  as_c : forall t, t < cur -> single <= t -> single <= F (ord t) < cnt;
  as_n : forall x, x < mx -> (forall t, t < cur -> ord t <> x) -> F x = cnt }.
Lemma put_ok : forall F cur i, cur < mx -> put_class cf (farr mx F) cur i = Some (farr mx (fun x => if x =? ord cur then i else F x)).
Proof. intros F cur i C. unfold put_class. destruct (cf_at cur C) as (p & E & Q). rewrite E. cbn [obind]. rewrite <- Q. apply farr_aset. apply ord_lt. auto. Qed.
Lemma put_as : forall F cur i, cur < mx -> assigned F cur -> (cur < single -> i = cur) -> (single <= cur -> single <= i < cnt) -> assigned (fun x => if x =? ord cur then i else F x) (cur + 1).
Proof.
  intros F cur i C A I1 I2. constructor.
  - intros t T S. destruct (Nat.eqb_spec (ord t) (ord cur)) as [E|E]; [apply ord_inj in E; [|lia|lia]; subst; apply I1; auto|]. apply A; auto. assert (t <> cur) by congruence. lia.
  - intros t T S. destruct (Nat.eqb_spec (ord t) (ord cur)) as [E|E]; [apply ord_inj in E; [|lia|lia]; subst; apply I2; auto|]. apply A; auto. assert (t <> cur) by congruence. lia.
  - intros x X N. destruct (Nat.eqb_spec x (ord cur)) as [E|E]; [exfalso; apply (N cur); [lia|auto]|]. apply A; auto. intros t T. apply N. lia.
Qed.
Lemma single_ok : forall k i F, i + k = single -> assigned F i -> exists F', single_loop cf k i (farr mx F) = Some (farr mx F') /\ assigned F' single.
Proof.
  induction k; intros i F E A; cbn [single_loop].
  - replace single with i by lia. eauto.
  - rewrite put_ok by lia. cbn [obind]. apply IHk; [lia|]. apply put_as; auto; lia.
Qed.
Lemma fill_ok : forall room i cur F, single <= cur <= sigma -> single <= i < cnt -> assigned F cur -> exists F', class_fill cf sigma i room cur (farr mx F) = Some (farr mx F', Nat.min sigma (cur + room)) /\ assigned F' (Nat.min sigma (cur + room)).
Proof.
  induction room; intros i cur F C I A; cbn [class_fill].
  - replace (Nat.min sigma (cur + 0)) with cur by lia. eauto.
  - destruct (Nat.ltb_spec cur sigma) as [L|L].
    + rewrite put_ok by lia. cbn [obind]. destruct (IHroom i (cur + 1) (fun x => if x =? ord cur then i else F x) ltac:(lia) I) as (F' & E & A'). { apply put_as; auto; lia. } replace (cur + S room) with (cur + 1 + room) by lia. eauto.
    + replace (Nat.min sigma (cur + S room)) with cur by lia. eauto.
Qed.
Lemma loop_ok : forall k i size cur F, i + k = cnt -> single <= i -> single <= cur <= sigma -> assigned F cur -> exists F', class_loop cf sigma k i size cur (farr mx F) = Some (farr mx F', Nat.min sigma (cur + size * (2 * 2 ^ k - 2))) /\ assigned F' (Nat.min sigma (cur + size * (2 * 2 ^ k - 2))).
Proof.
  induction k; intros i size cur F E I C A; cbn [class_loop].
  - replace (Nat.min sigma (cur + size * (2 * 2 ^ 0 - 2))) with cur by (cbn; lia). eauto.
  - destruct (fill_ok (2 * size) i cur F C ltac:(lia) A) as (F1 & E1 & A1). rewrite E1. cbn [obind fst snd]. destruct (IHk (i + 1) (2 * size) (Nat.min sigma (cur + 2 * size)) F1 ltac:(lia) ltac:(lia) ltac:(lia) A1) as (F2 & E2 & A2).
    assert (Q : Nat.min sigma (Nat.min sigma (cur + 2 * size) + 2 * size * (2 * 2 ^ k - 2)) = Nat.min sigma (cur + size * (2 * 2 ^ S k - 2))). { cbn [Nat.pow]. pose proof (Nat.pow_nonzero 2 k ltac:(lia)). assert (2 * size + 2 * size * (2 * 2 ^ k - 2) = size * (2 * (2 * 2 ^ k) - 2)) as HH by nia. rewrite <- HH. generalize (2 * size * (2 * 2 ^ k - 2)). clear. intros. lia. }
    rewrite Q in *. eauto.
Qed.
End C.

(** ** the sequences of classes and offsets *)
Section W.
Variables (mx single cnt : nat) (F : nat -> nat).
Hypothesis SC : single <= cnt.
Definition off (x : nat) : nat := rank_of (fun y => F y =? F x) x.
Lemma is_sym_farr : forall m (f : nat -> nat) c j, j < m -> is_sym (farr m f) c j = (f j =? c).
Proof. intros. unfold is_sym. rewrite farr_nth_error; auto. Qed.
Lemma w_rank_farr : forall m (f : nat -> nat) i c, i <= m -> w_rank (farr m f) i c = Some (rank_of (fun j => f j =? c) i).
Proof. intros m f i c I. unfold w_rank. rewrite farr_length, (proj2 (Nat.leb_le i m) I). f_equal. apply rank_of_ext. intros. apply is_sym_farr. lia. Qed.
Definition offs (s : list nat) (k : nat) : list nat := map off (filter (fun x => F x =? single + k) s).
Lemma write_ok : forall s d, (forall c, In c s -> c < mx /\ F c < cnt) -> write_loop (farr mx F) single s (map F d) (farr (cnt - single) (offs d)) = Some (map F (d ++ s), farr (cnt - single) (offs (d ++ s))).
Proof.
  induction s as [|e s IH]; intros d H; cbn [write_loop]; [rewrite app_nil_r; auto|]. destruct (H e (or_introl eq_refl)) as (E1 & E2). rewrite farr_nth_error by auto. cbn [obind].
  assert (Q : (if single <=? F e then let* o := w_rank (farr mx F) e (F e) in let* l := nth_error (farr (cnt - single) (offs d)) (F e - single) in aset (farr (cnt - single) (offs d)) (F e - single) (l ++ [o]) else Some (farr (cnt - single) (offs d))) = Some (farr (cnt - single) (offs (d ++ [e])))).
  { assert (OD : forall k, offs (d ++ [e]) k = offs d k ++ if F e =? single + k then [off e] else []) by (intros k; unfold offs; rewrite filter_app, map_app; cbn [filter]; destruct (F e =? single + k); reflexivity).
    destruct (Nat.leb_spec single (F e)) as [L|L].
    - rewrite w_rank_farr by lia. cbn [obind]. rewrite farr_nth_error by lia. cbn [obind]. rewrite farr_aset by lia. f_equal. apply farr_ext. intros k K. rewrite OD. destruct (Nat.eqb_spec k (F e - single)) as [->|NE].
      + replace (single + (F e - single)) with (F e) by lia. rewrite Nat.eqb_refl. reflexivity.
      + destruct (Nat.eqb_spec (F e) (single + k)); [lia|]. rewrite app_nil_r. reflexivity.
    - f_equal. apply farr_ext. intros k K. rewrite OD. destruct (Nat.eqb_spec (F e) (single + k)); [lia|]. rewrite app_nil_r. reflexivity. }
  rewrite Q. cbn [obind]. specialize (IH (d ++ [e])). rewrite map_app in IH. cbn [map] in IH. rewrite IH by (intros c C; apply H; right; auto). rewrite <- app_assoc. reflexivity.
Qed.
End W.
Lemma rank_shift : forall f i, rank_of f (S i) = b2nat (f 0) + rank_of (fun j => f (S j)) i.
Proof. intros f i. change (S i) with (1 + i). rewrite rank_of_add, rank_of_S. reflexivity. Qed.
Lemma nth_rank_filter : forall (s : list nat) P i, i < length s -> P (nth i s 0) = true -> nth_error (filter P s) (rank_of (fun j => P (nth j s 0)) i) = Some (nth i s 0).
Proof.
  induction s as [|x s IH]; intros P i I PI; cbn [length] in I; [lia|]. destruct i as [|i]; cbn [nth] in *.
  - cbn [filter]. rewrite PI. reflexivity.
  - rewrite rank_shift. cbn [nth]. cbn [filter]. destruct (P x); cbn [b2nat Nat.add nth_error]; apply IH; auto; lia.
Qed.
Lemma rank_filter : forall (s : list nat) P (h : nat -> nat) o i, i <= length s ->
  rank_of (is_sym (map h (filter P s)) o) (rank_of (fun j => P (nth j s 0)) i) = rank_of (fun j => P (nth j s 0) && (h (nth j s 0) =? o)) i.
Proof.
  induction s as [|x s IH]; intros P h o i I; cbn [length] in I; [replace i with 0 by lia; reflexivity|]. destruct i as [|i]; [reflexivity|]. rewrite !rank_shift. cbn [nth]. cbn [filter]. destruct (P x) eqn:PX; cbn [b2nat Nat.add andb map].
  - rewrite rank_shift. f_equal. rewrite <- (IH P h o i) by lia. apply rank_of_ext. intros. reflexivity.
  - apply IH. lia.
Qed.
Section Q.
Variables (s : list nat) (mx sigma single cnt : nat) (F : nat -> nat).
Hypothesis SC : single <= cnt.
Hypothesis FC : forall c, In c s -> c < mx /\ F c < cnt.
Hypothesis FU : forall c c', c < mx -> c' < mx -> F c = F c' -> F c < single -> c = c'.
Hypothesis FN : forall c, c < mx -> ~ In c s -> F c = cnt.
Notation n := (length s).
Definition W : wtap := mkap n sigma single cnt (farr mx F) (map F s) (farr (cnt - single) (offs single F s)).
Notation sy j := (nth j s 0).
Notation of := (off F).
Lemma sy_ok : forall j, j < n -> sy j < mx /\ F (sy j) < cnt.
Proof. intros j J. apply FC, nth_In. auto. Qed.
Lemma off_inj : forall c c', F c = F c' -> of c = of c' -> c = c'.
Proof.
  intros c c' E O. unfold off in O. rewrite <- E in O. destruct (Nat.lt_trichotomy c c') as [L|[L|L]]; auto; exfalso.
  - pose proof (rank_of_mono (fun y => F y =? F c) (S c) c' ltac:(lia)) as M. rewrite rank_of_S, Nat.eqb_refl in M. cbn [b2nat] in M. lia.
  - pose proof (rank_of_mono (fun y => F y =? F c) (S c') c ltac:(lia)) as M. rewrite rank_of_S, <- E, Nat.eqb_refl in M. cbn [b2nat] in M. lia.
Qed.
Lemma off_single : forall c, c < mx -> F c < single -> of c = 0.
Proof.
  intros c C L. unfold off. rewrite (rank_of_all_false _ 0) by (try lia; intros j J; apply Nat.eqb_neq; intros E; assert (j = c) by (apply FU; auto; lia); lia). reflexivity.
Qed.
Lemma c2c_select : forall c, c < mx -> w_select (farr mx F) (of c + 1) (F c) = Some c.
Proof.
  intros c C. apply w_select_some; [|rewrite farr_length; auto]. split; [rewrite is_sym_farr by auto; apply Nat.eqb_refl|]. f_equal. unfold off. apply rank_of_ext. intros. apply is_sym_farr. lia.
Qed.
Lemma sym_map : forall (h : nat -> nat) k j, j < n -> is_sym (map h s) k j = (h (sy j) =? k).
Proof. intros h k j J. unfold is_sym. rewrite nth_error_map, (nth_error_nth' _ 0 J). reflexivity. Qed.
Definition Kr (k i : nat) : nat := rank_of (fun j => F (sy j) =? k) i.
Lemma class_isel : forall i, i < n -> w_isel (map F s) i = Some (Kr (F (sy i)) i, F (sy i)).
Proof.
  intros i I. unfold w_isel. rewrite nth_error_map, (nth_error_nth' _ 0 I). cbn [option_map obind]. do 2 f_equal. apply rank_of_ext. intros j J. apply sym_map. lia.
Qed.
Lemma class_rank : forall i k, i <= n -> w_rank (map F s) i k = Some (Kr k i).
Proof. intros i k I. unfold w_rank. rewrite map_length, (proj2 (Nat.leb_le _ _) I). f_equal. apply rank_of_ext. intros j J. apply sym_map. lia. Qed.
Definition R (c i : nat) : nat := rank_of (fun j => sy j =? c) i.
Definition Lk (k : nat) : list nat := map of (filter (fun x => F x =? k) s).
Lemma off_at : forall k, single <= k < cnt -> nth_error (farr (cnt - single) (offs single F s)) (k - single) = Some (Lk k).
Proof. intros k K. rewrite farr_nth_error by lia. unfold offs, Lk. replace (single + (k - single)) with k by lia. reflexivity. Qed.
Lemma L_get : forall i, i < n -> nth_error (Lk (F (sy i))) (Kr (F (sy i)) i) = Some (of (sy i)).
Proof.
  intros i I. unfold Lk. rewrite nth_error_map. unfold Kr. rewrite (nth_rank_filter s (fun x => F x =? F (sy i)) i I) by apply Nat.eqb_refl. reflexivity.
Qed.
Lemma Lr : forall c i, i <= n -> rank_of (is_sym (Lk (F c)) (of c)) (Kr (F c) i) = R c i.
Proof.
  intros c i I. unfold Lk, Kr. rewrite (rank_filter s (fun x => F x =? F c) of (of c) i I). apply rank_of_ext. intros j J. destruct (Nat.eqb_spec (sy j) c) as [->|NE]; [rewrite !Nat.eqb_refl; auto|]. destruct (Nat.eqb_spec (F (sy j)) (F c)) as [E1|]; auto. destruct (Nat.eqb_spec (of (sy j)) (of c)) as [E2|]; auto. exfalso. apply NE. apply off_inj; auto.
Qed.
Lemma L_len : forall k i, i <= n -> Kr k i <= length (Lk k).
Proof.
  intros k i I. unfold Lk, Kr. rewrite map_length. clear SC FC FU FN. revert i I. induction s as [|x l IH]; intros i I; cbn [length] in I; [replace i with 0 by lia; apply Nat.le_refl|]. destruct i as [|i]; [apply Nat.le_0_l|]. rewrite rank_shift. cbn [nth filter]. specialize (IH i ltac:(lia)). destruct (F x =? k); cbn [b2nat length]; lia.
Qed.
Lemma K_single : forall c i, i <= n -> c < mx -> F c < single -> Kr (F c) i = R c i.
Proof.
  intros c i I C L. apply rank_of_ext. intros j J. destruct (Nat.eqb_spec (sy j) c) as [->|NE]; [apply Nat.eqb_refl|]. apply Nat.eqb_neq. intros E. apply NE. symmetry. apply FU; auto. apply sy_ok. lia.
Qed.
Lemma get_ok : forall i, i < n -> ap_get W i = Some (sy i).
Proof.
  intros i I. destruct (sy_ok i I) as (S1 & S2). unfold ap_get. cbn [W ap_class ap_single ap_off ap_c2c]. rewrite class_isel by auto. cbn [obind fst snd]. destruct (Nat.ltb_spec (F (sy i)) single) as [L|L].
  - cbn [obind]. pose proof (c2c_select (sy i) S1) as CS. rewrite (off_single (sy i) S1 L) in CS. exact CS.
  - rewrite off_at by lia. cbn [obind]. rewrite L_get by auto. cbn [obind]. apply c2c_select. auto.
Qed.
Lemma class_of_in : forall c, In c s -> ap_class_of W c = Some (Some (F c, of c)).
Proof.
  intros c I. destruct (FC c I) as (C1 & C2). unfold ap_class_of. cbn [W ap_c2c ap_cnt]. rewrite farr_length. destruct (Nat.leb_spec mx c); [lia|]. unfold w_isel. rewrite farr_nth_error by auto. cbn [obind fst snd]. destruct (Nat.eqb_spec (F c) cnt); [lia|]. do 3 f_equal. apply rank_of_ext. intros. apply is_sym_farr. lia.
Qed.
Lemma class_of_out : forall c, ~ In c s -> ap_class_of W c = Some None.
Proof.
  intros c I. unfold ap_class_of. cbn [W ap_c2c ap_cnt]. rewrite farr_length. destruct (Nat.leb_spec mx c) as [L|L]; auto. unfold w_isel. rewrite farr_nth_error by auto. cbn [obind fst snd]. rewrite FN, Nat.eqb_refl by auto. reflexivity.
Qed.
Lemma R_out : forall c i, i <= n -> ~ In c s -> R c i = 0.
Proof. intros c i I N. unfold R. rewrite (rank_of_all_false _ 0); [reflexivity|lia|]. intros j J. apply Nat.eqb_neq. intros <-. apply N, nth_In. lia. Qed.
Lemma rank_ok : forall i c, i <= n -> ap_rank W i c = Some (R c i).
Proof.
  intros i c I. unfold ap_rank. destruct (in_dec Nat.eq_dec c s) as [Y|N].
  - destruct (FC c Y) as (C1 & C2). rewrite class_of_in by auto. cbn [obind W ap_class ap_single ap_off]. rewrite class_rank by auto. cbn [obind]. destruct (Nat.ltb_spec (F c) single) as [L|L]; [rewrite K_single; auto|]. rewrite off_at by lia. cbn [obind]. unfold w_rank. rewrite (proj2 (Nat.leb_le _ _) (L_len (F c) i I)). rewrite Lr by auto. reflexivity.
  - rewrite class_of_out by auto. cbn [obind]. rewrite R_out; auto.
Qed.
Lemma isel_ok : forall i, i < n -> ap_isel W i = Some (R (sy i) i, sy i).
Proof.
  intros i I. destruct (sy_ok i I) as (S1 & S2). unfold ap_isel. cbn [W ap_class ap_single ap_off ap_c2c]. rewrite class_isel by auto. cbn [obind fst snd]. destruct (Nat.ltb_spec (F (sy i)) single) as [L|L].
  - pose proof (c2c_select (sy i) S1) as CS. rewrite (off_single (sy i) S1 L) in CS. cbn [Nat.add] in CS. rewrite CS. cbn [obind]. rewrite K_single by (auto; lia). reflexivity.
  - rewrite off_at by lia. cbn [obind]. unfold w_isel. rewrite L_get by auto. cbn [obind fst snd]. rewrite c2c_select by auto. cbn [obind]. rewrite Lr by lia. reflexivity.
Qed.
Lemma select_ok : forall p, p < n -> ap_select W (R (sy p) p + 1) (sy p) = Some p.
Proof.
  intros p P. destruct (sy_ok p P) as (S1 & S2). unfold ap_select. rewrite class_of_in by (apply nth_In; auto). cbn [obind W ap_class ap_single ap_off].
  assert (SE : w_select (map F s) (Kr (F (sy p)) p + 1) (F (sy p)) = Some p). { apply w_select_some; [|rewrite map_length; auto]. split; [rewrite sym_map by auto; apply Nat.eqb_refl|]. f_equal. apply rank_of_ext. intros j J. apply sym_map. lia. }
  destruct (Nat.ltb_spec (F (sy p)) single) as [L|L].
  - cbn [obind]. rewrite <- K_single by (auto; lia). exact SE.
  - rewrite off_at by lia. cbn [obind]. rewrite (w_select_some _ _ _ (Kr (F (sy p)) p)).
    + cbn [obind]. rewrite Nat.add_comm. exact SE.
    + split; [unfold is_sym; rewrite L_get by auto; apply Nat.eqb_refl|]. rewrite Lr by lia. reflexivity.
    + apply nth_error_Some. rewrite L_get by auto. discriminate.
Qed.
End Q.
(** ** the constructor *)
Lemma make_ok : forall s, exists mx sigma single cnt F, single <= cnt /\ (forall c, In c s -> c < mx /\ F c < cnt) /\
  (forall c c', c < mx -> c' < mx -> F c = F c' -> F c < single -> c = c') /\ (forall c, c < mx -> ~ In c s -> F c = cnt) /\
  ap_make s = Some (W s mx sigma single cnt F) /\ sigma = npos (occ s) mx /\ single = Nat.log2 sigma /\ cnt = Nat.log2 (sigma - single + 1) + single.
Proof.
  intros s. destruct (freq_ok s [] 0 ltac:(intros c [])) as (mx & E & MX). cbn [app] in *. change (cfl (occ []) 0) with (@nil (nat * nat)) in E. change (0 - npos (occ []) 0) with 0 in E. unfold ap_make. rewrite E. cbn [obind]. pose proof (npos_le (occ s) mx) as NL.
  set (sigma := npos (occ s) mx) in *. rewrite (csub_some mx (mx - sigma) sigma) by lia. cbn [obind].
  assert (LG : Nat.log2 sigma <= sigma) by (pose proof (Nat.log2_le_lin sigma ltac:(lia)); lia).
  replace (Nat.min mx (Nat.log2 sigma)) with (Nat.log2 sigma) by lia. set (single := Nat.log2 sigma) in *. rewrite (csub_some sigma single (sigma - single)) by lia. cbn [obind]. set (cnt := Nat.log2 (sigma - single + 1) + single).
  set (cf := sort_desc (cfl (occ s) mx)). assert (PE : Permutation cf (cfl (occ s) mx)) by apply sort_perm. assert (SO : StronglySorted ge1 cf) by apply sort_sorted.
  assert (LEN : length cf = mx) by (rewrite (Permutation_length PE); apply farr_length).
  assert (IN : forall t p, nth_error cf t = Some p -> snd p < mx /\ fst p = occ s (snd p)). { intros t p H. apply nth_error_In in H. apply (Permutation_in _ PE) in H. unfold cfl, farr in H. apply in_map_iff in H. destruct H as (x & <- & X). apply in_seq in X. cbn [fst snd]. split; [lia|auto]. }
  assert (ND : NoDup (map snd cf)). { apply (Permutation_NoDup (Permutation_sym (Permutation_map snd PE))). unfold cfl, farr. rewrite map_map. cbn [snd]. rewrite map_id. apply seq_NoDup. }
  assert (INJ : forall t t' p p', nth_error cf t = Some p -> nth_error cf t' = Some p' -> snd p = snd p' -> t = t'). { intros t t' p p' H H' Q. rewrite NoDup_nth_error in ND. apply ND; [rewrite map_length; apply nth_error_Some; congruence|]. rewrite !nth_error_map, H, H'. cbn [option_map]. congruence. }
  assert (SNM : forall t p, nth_error cf t = Some p -> snd p < mx) by (intros t p H; apply (IN t p H)).
  assert (SG : single <= sigma <= mx) by lia.
  rewrite farr_repeat. destruct (single_ok cf mx sigma single cnt LEN SNM INJ SG single 0 (fun _ => cnt) eq_refl) as (F1 & E1 & A1). { constructor; intros; try lia; auto. }
  rewrite E1. cbn [obind]. replace (cnt - single) with (Nat.log2 (sigma - single + 1)) by (unfold cnt; lia).
  destruct (loop_ok cf mx sigma single cnt LEN SNM INJ SG (Nat.log2 (sigma - single + 1)) single 1 single F1 ltac:(unfold cnt; lia) ltac:(lia) ltac:(lia) A1) as (F & E2 & A2). rewrite E2. cbn [obind fst].
  assert (FULL : Nat.min sigma (single + 1 * (2 * 2 ^ Nat.log2 (sigma - single + 1) - 2)) = sigma). { pose proof (Nat.log2_spec (sigma - single + 1) ltac:(lia)) as (_ & U). cbn [Nat.pow] in U. lia. } rewrite FULL in A2.
  assert (ORD : forall x, x < mx -> exists t, t < mx /\ ord cf t = x). { intros x X. assert (I : In (occ s x, x) cf). { apply (Permutation_in _ (Permutation_sym PE)). unfold cfl, farr. apply in_map_iff. exists x. split; auto. apply in_seq. lia. } apply In_nth_error in I. destruct I as (t & T). exists t. split; [rewrite <- LEN; apply nth_error_Some; congruence|]. unfold ord. rewrite (nth_error_nth _ _ _ T). reflexivity. }
  assert (POS : forall t, t < mx -> (t < sigma <-> In (ord cf t) s)). { intros t T. destruct (cf_at cf mx sigma single LEN SNM INJ SG t T) as (p & H & Q). rewrite Q. replace sigma with (posc cf) by (unfold sigma; rewrite (posc_perm _ _ PE), posc_cfl; auto). rewrite (sorted_pos cf SO t p H). destruct (IN t p H) as (_ & ->). unfold occ. rewrite (count_occ_In Nat.eq_dec). lia. }
  assert (FCC : forall c, In c s -> c < mx /\ F c < cnt). { intros c C. pose proof (MX c C) as CM. split; auto. destruct (ORD c CM) as (t & T & <-). apply POS in C; auto. destruct (Nat.lt_ge_cases t single) as [L|L]; [rewrite (as_s _ _ _ _ _ _ A2 t C L)|apply (as_c _ _ _ _ _ _ A2 t C L)].
    assert (single < cnt); [|lia]. unfold cnt. assert (1 <= Nat.log2 (sigma - single + 1)); [|lia]. apply Nat.log2_le_pow2; [lia|]. cbn. pose proof (Nat.log2_lt_lin sigma ltac:(lia)). fold single in H. lia. }
  exists mx, sigma, single, cnt, F. split; [unfold cnt; lia|]. split; [exact FCC|]. split; [|split; [|split; [|auto]]].
  - intros c c' C C' Q L. destruct (ORD c C) as (t & T & <-). destruct (ORD c' C') as (t' & T' & <-).
    assert (SM : forall u, u < mx -> F (ord cf u) < single -> u < sigma /\ F (ord cf u) = u). { intros u U FU. destruct (Nat.lt_ge_cases u sigma) as [X|X]; [|rewrite (as_n _ _ _ _ _ _ A2) in FU; [unfold cnt in FU; lia|apply (ord_lt cf mx sigma single LEN SNM INJ SG); auto|]]. 2: { intros v V Z. apply (ord_inj cf mx sigma single LEN SNM INJ SG) in Z; lia. } split; auto. destruct (Nat.lt_ge_cases u single) as [Y|Y]; [apply (as_s _ _ _ _ _ _ A2); auto|]. destruct (as_c _ _ _ _ _ _ A2 u X Y). lia. }
    destruct (SM t T L) as (_ & M1). destruct (SM t' T' ltac:(lia)) as (_ & M2). f_equal. lia.
  - intros c C NI. apply (as_n _ _ _ _ _ _ A2); auto. intros t T Q. apply NI. rewrite <- Q. apply POS; auto. lia.
  - rewrite farr_repeat. replace (Nat.log2 (sigma - single + 1)) with (cnt - single) by (unfold cnt; lia). pose proof (write_ok mx single cnt F ltac:(unfold cnt; lia) s [] FCC) as WR. cbn [map app] in WR. unfold W.
    change (farr (cnt - single) (fun _ => [])) with (farr (cnt - single) (offs single F [])). rewrite WR. reflexivity.
Qed.
(** ** the statement's counters *)
Lemma R_occ : forall s c i, i <= length s -> R s c i = count_occ Nat.eq_dec (firstn i s) c.
Proof.
  intros s c. induction i; intros I; [reflexivity|]. unfold R in *. rewrite rank_of_S, IHi by lia. rewrite (BitsProofs3.firstn_S_nth _ s i 0) by lia. rewrite count_occ_app. f_equal. cbn [count_occ]. destruct (Nat.eq_dec (nth i s 0) c), (Nat.eqb_spec (nth i s 0) c); auto; congruence.
Qed.
Lemma npos_nodup : forall s mx, (forall c, In c s -> c < mx) -> npos (occ s) mx = length (nodup Nat.eq_dec s).
Proof.
  intros s mx MX. unfold npos. apply Permutation_length. apply NoDup_Permutation; [apply NoDup_filter, seq_NoDup|apply NoDup_nodup|]. intros x. rewrite filter_In, nodup_In, in_seq. unfold occ. split.
  - intros (_ & N). apply (count_occ_In Nat.eq_dec). destruct (Nat.eqb_spec (count_occ Nat.eq_dec s x) 0); [discriminate|lia].
  - intros I. pose proof (MX x I). split; [lia|]. apply (count_occ_In Nat.eq_dec) in I. destruct (Nat.eqb_spec (count_occ Nat.eq_dec s x) 0); [lia|reflexivity].
Qed.
Lemma nodup_small : forall s k, (forall c, In c s -> c < 2 ^ k) -> length (nodup Nat.eq_dec s) <= 2 ^ k.
Proof.
  intros s k B. rewrite <- (seq_length (2 ^ k) 0). apply NoDup_incl_length; [apply NoDup_nodup|]. intros x X. apply nodup_In in X. apply in_seq. pose proof (B x X). split; [apply Nat.le_0_l|exact H].
Qed.
Lemma log2_small : forall a k, a <= 2 ^ k -> Nat.log2 a <= k.
Proof. intros a k A. apply Nat.log2_le_mono in A. rewrite Nat.log2_pow2 in A by apply Nat.le_0_l. exact A. Qed.
Lemma cnt_small : forall s sigma single cnt, sigma = length (nodup Nat.eq_dec s) -> single = Nat.log2 sigma -> cnt = Nat.log2 (sigma - single + 1) + single ->
  (forall c, In c s -> c < 2 ^ 64) -> cnt <= 129.
Proof.
  intros s sigma single cnt E1 E2 E3 B. pose proof (nodup_small s 64 B) as N. rewrite <- E1 in N. pose proof (log2_small _ _ N) as L. rewrite <- E2 in L.
  assert (L2 : Nat.log2 (sigma - single + 1) <= 65). { apply log2_small. change 65 with (S 64). rewrite Nat.pow_succ_r'. pose proof (Nat.pow_nonzero 2 64 ltac:(discriminate)) as NZ. generalize dependent (2 ^ 64). intros. lia. } lia.
Qed.
