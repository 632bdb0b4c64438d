(** * child, edge, suffix links and Weiner links of cst_sct3 *)
From Coq Require Import NArith List Bool Arith Lia Permutation.
From Verif Require Import Base SpecBits RankSelect AbsVec WtBase WtProofs SpecCsa Alphabet AlphabetProofs Csa CsaProofs CsaProofs2 SpecLcp LcpProofs Bp BpRmq SpecCst SpecCstText Cst CstProofs CstProofs2 CstProofs5 CstProofs4 CstProofs6 CstProofs7 CstText CstTextProofs.
Import ListNotations.
Open Scope nat_scope.

Section X.
Variables T sa L : list nat.
Hypothesis TOK : text_ok T.
Hypothesis SA : is_sa T sa.
Hypothesis LC : is_lcp T sa L.
Variable M : nat.
Variable x : csa.
Hypothesis COK : csa_ok M T sa x.
Hypothesis MT : forall c, In c T -> c < M.
Variable dens : nat.
Notation n := (CsaProofs.n T). Notation tx := (tx T). Notation sx := (sx T). Notation row := (row sa). Notation isa := (isa T).
Local Notation Lv k := (nth k L 0).
Local Notation A := (map N.of_nat L).
Let AO := co_al _ _ _ _ COK.

(** ** symbols *)
Lemma walk_ok : forall d i, i < n -> row i + d < n -> walk (c_psi x) d i = Some (isa (row i + d)).
Proof.
  induction d; intros i I R; cbn [walk]; [rewrite Nat.add_0_r, (isa_row T sa SA) by auto; auto|]. rewrite (co_psi _ _ _ _ COK) by auto. cbn [obind].
  assert (E : row (psiv T sa i) = row i + 1). { rewrite (row_psiv T sa SA) by auto. unfold nx. destruct (Nat.eqb_spec (row i) (n - 1)); lia. }
  rewrite IHd; [|apply psiv_lt; auto|rewrite E; lia]. rewrite E. do 2 f_equal. lia.
Qed.
Lemma char_pos_ok : forall i d, i < n -> row i + d < n -> get_char_pos x dens i d = Some (isa (row i + d)).
Proof.
  intros i d I R. unfold get_char_pos. destruct (Nat.eqb_spec d 0) as [->|NZ]; [rewrite Nat.add_0_r, (isa_row T sa SA) by auto; auto|]. destruct (2 * d + 2 <? dens); [apply walk_ok; auto|].
  rewrite (co_sa _ _ _ _ COK) by auto. cbn [obind]. apply (co_isa _ _ _ _ COK). auto.
Qed.
Lemma isa_sym : forall p, p < n -> less T (tx p) <= isa p < less T (S (tx p)).
Proof. intros p P. pose proof (first_col T sa TOK SA (isa p) (isa_lt T sa SA p P)) as F. rewrite (row_isa T sa SA p P) in F. auto. Qed.
Lemma less_mono : forall a b, a <= b -> less T a <= less T b.
Proof. intros a b AB. rewrite !less_T. induction (CsaProofs.n T) as [|m IH]; [rewrite !rank_of_0; auto|]. rewrite !rank_of_S. destruct (Nat.ltb_spec (tx m) a), (Nat.ltb_spec (tx m) b); cbn [b2nat]; lia. Qed.
Lemma pos_lo : forall p ch, p < n -> (isa p < less T ch <-> tx p < ch).
Proof.
  intros p ch P. pose proof (isa_sym p P) as SY. destruct (Nat.lt_ge_cases (tx p) ch) as [G|G].
  - pose proof (less_mono (S (tx p)) ch ltac:(lia)). lia.
  - pose proof (less_mono ch (tx p) ltac:(lia)). lia.
Qed.
Lemma pos_hi : forall p ch, p < n -> (less T (S ch) <= isa p <-> ch < tx p).
Proof.
  intros p ch P. pose proof (isa_sym p P) as SY. destruct (Nat.lt_ge_cases ch (tx p)) as [G|G].
  - pose proof (less_mono (S ch) (tx p) ltac:(lia)). lia.
  - pose proof (less_mono (S (tx p)) (S ch) ltac:(lia)). lia.
Qed.
Lemma occ_snoc : forall P ch p, occurs_at T (P ++ [ch]) p <-> occurs_at T P p /\ p + length P < n /\ tx (p + length P) = ch.
Proof.
  intros P ch p. unfold occurs_at. rewrite app_length. cbn [length]. set (m := length P).
  assert (E : forall s, m < length s -> firstn (m + 1) s = firstn m s ++ [nth m s 0]).
  { clear. induction m; intros [|a s] H; cbn [length] in *; try lia; [reflexivity|]. cbn [Nat.add firstn nth app]. rewrite IHm by lia. reflexivity. }
  assert (NT : nth m (skipn p T) 0 = tx (p + m)). { unfold CsaProofs.tx. clear. revert T. induction p; intros T; [reflexivity|]. destruct T; [destruct m; reflexivity|]. cbn [skipn Nat.add nth]. apply IHp. }
  split.
  - intros H. assert (LN : length (firstn (m + 1) (skipn p T)) = m + 1) by (rewrite H, app_length; reflexivity). rewrite firstn_length, skipn_length in LN. assert (m < length (skipn p T)) by (rewrite skipn_length; lia).
    rewrite E in H by auto. apply app_inj_tail in H. destruct H as (H1 & H2). rewrite NT in H2. split; auto. split; auto. unfold CsaProofs.n. lia.
  - intros (H1 & H2 & H3). rewrite E by (rewrite skipn_length; unfold CsaProofs.n in H2; lia). rewrite H1, NT, H3. reflexivity.
Qed.

(** ** the symbols behind the string of an inner node *)
Section I.
Variables i j l : nat.
Hypothesis IN : inner A i j (N.of_nat l).
Lemma room : forall k, i <= k <= j -> row k + l < n.
Proof. intros k K. pose proof (inner_room T sa L TOK SA LC i j _ k IN K) as R. rewrite Nat2N.id in R. auto. Qed.
Lemma jn : i < j < n.
Proof. destruct IN as (H & _). rewrite (A_len T sa L LC) in H. auto. Qed.
Lemma sy_nth : forall k, nth l (sx k) 0 = tx (k + l).
Proof. intros p. unfold CsaProofs.tx, CsaProofs.sx. generalize T. induction p; intros U; [reflexivity|]. destruct U; [destruct l; reflexivity|]. cbn [skipn Nat.add nth]. apply IHp. Qed.
Lemma sx_len : forall p, length (sx p) = n - p.
Proof. intros. unfold CsaProofs.sx. apply skipn_length. Qed.
Lemma lcp_ge_l : forall a b, i <= a < b -> b <= j -> l <= lcp (sx (row a)) (sx (row b)).
Proof. intros a b AB BJ. pose proof jn. apply (rows_ge T sa L SA LC); [lia|]. intros k K. destruct IN as (_ & H2 & _). specialize (H2 k ltac:(lia)). unfold av in H2. rewrite A_at in H2. lia. Qed.
Lemma sy_eq : forall a b, i <= a <= b -> b <= j -> (forall k, a < k <= b -> Lv k <> l) -> tx (row a + l) = tx (row b + l).
Proof.
  intros a b AB BJ H. destruct (Nat.eq_dec a b) as [->|NE]; auto. pose proof jn as JN. pose proof (row_lt T sa SA a ltac:(lia)). pose proof (row_lt T sa SA b ltac:(lia)).
  destruct (lcp_bound T sa TOK SA n (Nat.lt_le_incl _ _ (Nat.pow_gt_lin_r 2 n Nat.lt_1_2)) (n - row a) (row a) (row b) (le_n _)) as (_ & _ & _ & K); auto. { intros E. apply NE. apply (row_inj T sa SA); auto; lia. }
  apply K. apply (rows_ge T sa L SA LC); [lia|]. intros k KK. specialize (H k KK). destruct IN as (_ & H2 & _). specialize (H2 k ltac:(lia)). unfold av in H2. rewrite A_at in H2. lia.
Qed.
Lemma sy_lt : forall a b k, i <= a < k -> k <= b <= j -> Lv k = l -> tx (row a + l) < tx (row b + l).
Proof.
  intros a b k AB BJ E. pose proof jn as JN. pose proof (lcp_ge_l a b ltac:(lia) ltac:(lia)) as G.
  assert (LE : lcp (sx (row a)) (sx (row b)) = l). { apply Nat.le_antisymm; auto. rewrite <- E. apply (proj1 (rows_ge T sa L SA LC _ b a ltac:(lia)) (le_n _)). lia. }
  pose proof (lex_at _ _ (row_sx T sa SA a b ltac:(lia))) as X. rewrite LE, !sy_nth, !sx_len in X. pose proof (room a ltac:(lia)). pose proof (room b ltac:(lia)). apply X; lia.
Qed.
Variable P : list nat.
Hypothesis PO : occurs_at T P (row i).
Hypothesis PL : length P = l.
Lemma P_iv : sa_interval T sa P i (j + 1).
Proof. apply (inner_label T sa L SA LC i j (N.of_nat l) P IN PO). rewrite Nat2N.id. auto. Qed.
Lemma child_iv : forall a b, bord A i j (N.of_nat l) a b -> sa_interval T sa (P ++ [tx (row a + l)]) a b.
Proof.
  intros a b (B1 & B2 & B3 & B4 & B5). pose proof jn as JN. pose proof P_iv as (PB & PI). split; [fold n; lia|]. intros k K. rewrite occ_snoc, <- PI by auto. fold (row k). rewrite PL. split.
  - intros KK. split; [lia|]. split; [apply room; lia|]. symmetry. apply sy_eq; try lia. intros y Y. specialize (B5 y ltac:(lia)). unfold av in B5. rewrite A_at in B5. lia.
  - intros (K1 & K2 & K3). destruct (Nat.lt_ge_cases k a) as [LT|GE].
    + exfalso. destruct B3 as [->|B3]; [lia|]. unfold av in B3. rewrite A_at in B3. pose proof (sy_lt k a a ltac:(lia) ltac:(lia) ltac:(lia)). lia.
    + split; auto. destruct (Nat.lt_ge_cases k b) as [G|G]; auto. exfalso. destruct B4 as [->|B4]; [lia|]. unfold av in B4. rewrite A_at in B4. pose proof (sy_lt a k b ltac:(lia) ltac:(lia) ltac:(lia)). lia.
Qed.
Local Notation bo q := (nth q (borders A i j (N.of_nat l)) 0).
Local Notation dg := (length (borders A i j (N.of_nat l)) - 1).
Local Notation ss q := (tx (row (bo (q - 1)) + l)).
Lemma bo_bord : forall q, 1 <= q <= dg -> bord A i j (N.of_nat l) (bo (q - 1)) (bo q).
Proof. intros. apply bo_child; auto. Qed.
Lemma ss_step : forall q, 1 <= q < dg -> ss q < ss (q + 1).
Proof.
  intros q Q. destruct (bo_bord q ltac:(lia)) as (B1 & B2 & B3 & B4 & B5). destruct (bo_bord (q + 1) ltac:(lia)) as (C1 & C2 & C3 & C4 & C5). replace (q + 1 - 1) with q in * by lia. destruct C3 as [E|E]; [lia|]. unfold av in E. rewrite A_at in E. apply (sy_lt _ _ (bo q)); lia.
Qed.
Lemma ss_mono : forall q q', 1 <= q < q' -> q' <= dg -> ss q < ss q'.
Proof.
  intros q q' Q. induction q'; intros D; [lia|]. destruct (Nat.eq_dec q q') as [->|NE].
  - pose proof (ss_step q' ltac:(lia)) as X. rewrite Nat.add_1_r in X. exact X.
  - pose proof (IHq' ltac:(lia) ltac:(lia)). pose proof (ss_step q' ltac:(lia)) as X. rewrite Nat.add_1_r in X. lia.
Qed.
Lemma ss_all : forall ch k, k < n -> occurs_at T (P ++ [ch]) (row k) -> exists q, 1 <= q <= dg /\ ss q = ch.
Proof.
  intros ch k K O. pose proof jn as JN. rewrite occ_snoc in O. destruct O as (O1 & O2 & O3). apply (proj2 P_iv) in O1; auto. rewrite PL in *. 
  destruct (proj2 (bo_step A i j (N.of_nat l) (j - i) i IN ltac:(lia) ltac:(lia) ltac:(auto)) k ltac:(lia)) as (q & Q & R). exists q. rewrite bo_len. split; auto. change (i :: fl A (N.of_nat l) i j ++ [j + 1]) with (borders A i j (N.of_nat l)) in R.
  destruct (bo_bord q ltac:(rewrite bo_len; lia)) as (B1 & B2 & B3 & B4 & B5). rewrite <- O3. apply sy_eq; try lia. intros y Y. specialize (B5 y ltac:(lia)). unfold av in B5. rewrite A_at in B5. lia.
Qed.
Lemma last_bo : bo dg = j + 1.
Proof. unfold borders. cbn [length]. rewrite Nat.sub_0_r || idtac. rewrite app_length. cbn [length]. replace (S (length (min_positions A i j (N.of_nat l)) + 1) - 1) with (S (length (min_positions A i j (N.of_nat l)))) by lia. cbn [nth]. rewrite app_nth2, Nat.sub_diag by lia. reflexivity. Qed.
Lemma ss_last : 2 <= dg -> tx (row j + l) = ss dg.
Proof.
  intros D. destruct (bo_bord dg ltac:(lia)) as (B1 & B2 & B3 & B4 & B5). rewrite last_bo in *. symmetry. apply sy_eq; try lia. intros y Y. specialize (B5 y ltac:(lia)). unfold av in B5. rewrite A_at in B5. lia.
Qed.
End I.
End X.
