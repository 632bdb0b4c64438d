(** * csa_wt, csa_sada and csa_bitcompressed satisfy the object invariant *)
From Coq Require Import List Arith Bool Lia Permutation.
From Verif Require Import Base SpecBits RankSelect AbsVec FnArr WtBase WtProofs SpecCsa Alphabet AlphabetProofs AlphabetProofs2 Csa CsaSample CsaProofs CsaProofs2 CsaProofs3.
Import ListNotations.

(** binary search on an increasing stretch [a, b) of psi, K entries of which are below i *)
Lemma bs_psi_ok : forall (psi : nat -> option nat) a b i K l0 u0,
  (forall q, a <= q < b -> exists x, psi q = Some x /\ (x < i <-> q < a + K)) ->
  forall f lo up, a <= lo -> lo < up -> up <= b -> l0 <= lo -> (lo = l0 \/ lo < a + K) -> (up = u0 \/ a + K <= up) -> up - lo <= f ->
  exists l, bs_psi f psi i lo up = Some l /\ l0 <= l < up /\ (l = l0 \/ l < a + K) /\ (S l = u0 \/ a + K <= S l).
Proof.
  intros psi a b i K l0 u0 H. induction f; intros lo up A L B L0 X Y F; [lia|]. cbn [bs_psi]. destruct (Nat.ltb_spec (lo + 1) up).
  - set (mid := (lo + up) / 2). assert (M : lo < mid < up). { unfold mid. split; [apply Nat.div_le_lower_bound; lia | apply Nat.div_lt_upper_bound; lia]. }
    clearbody mid. destruct (H mid ltac:(lia)) as (x & E & Q). rewrite E. cbn [obind]. destruct (Nat.leb_spec i x).
    + destruct (IHf lo mid) as (l & R & R1 & R2); auto; try lia. exists l. split; auto. split; [lia|auto].
    + apply IHf; auto; lia.
  - exists lo. split; auto. assert (up = S lo) by lia. subst up. split; [lia|]. split; auto.
Qed.
Lemma bs_finish_ok : forall (psi : nat -> option nat) a b i K l0 u0,
  (forall q, a <= q < b -> exists x, psi q = Some x /\ (x < i <-> q < a + K)) -> K <= b - a ->
  a <= l0 -> l0 < u0 -> u0 <= b -> (l0 = a \/ l0 < a + K) -> (u0 = b \/ a + K <= u0) -> bs_finish psi a i l0 u0 = Some K.
Proof.
  intros psi a b i K l0 u0 H KB A L B X Y. unfold bs_finish.
  destruct (bs_psi_ok psi a b i K l0 u0 H (S u0) l0 u0) as (l & R & R1 & R2 & R3); auto; try lia. rewrite R. cbn [obind].
  destruct (Nat.ltb_spec a l). { f_equal. lia. } destruct (H l ltac:(lia)) as (x & E & Q). rewrite E. cbn [obind]. f_equal. destruct (Nat.ltb_spec x i); lia.
Qed.
Lemma bs_smp_ok : forall (psi : nat -> option nat) a b i K sd l0 u0,
  (forall q, a <= q < b -> exists x, psi q = Some x /\ (x < i <-> q < a + K)) ->
  (forall k, l0 <= k < u0 -> a <= k * sd < b) ->
  forall f lo up, l0 <= lo -> lo <= up -> up <= u0 -> (lo = up -> l0 = u0) -> (lo = l0 \/ lo * sd < a + K) -> (up = u0 \/ a + K <= up * sd) -> up - lo < f ->
  exists l u, bs_smp f psi sd i lo up = Some (l, u) /\ l0 <= l /\ u <= u0 /\ (u = S l \/ (l = u /\ l0 = u0)) /\ (l = l0 \/ l * sd < a + K) /\ (u = u0 \/ a + K <= u * sd).
Proof.
  intros psi a b i K sd l0 u0 H S0. induction f; intros lo up L0 L U E X Y F; [lia|]. cbn [bs_smp]. destruct (Nat.ltb_spec (lo + 1) up).
  - set (mid := (lo + up) / 2). assert (M : lo < mid < up). { unfold mid. split; [apply Nat.div_le_lower_bound; lia | apply Nat.div_lt_upper_bound; lia]. }
    clearbody mid. pose proof (S0 mid ltac:(lia)) as SM. destruct (H (mid * sd) SM) as (x & E' & Q). rewrite E'. cbn [obind]. destruct (Nat.leb_spec i x); apply IHf; auto; lia.
  - exists lo, up. split; auto. split; auto. split; auto. split; auto. destruct (Nat.eq_dec lo up) as [-> | N]; [right; auto|left; lia].
Qed.
Lemma lin_buf_ok : forall (psi : nat -> option nat) a b i K m lb e,
  (forall q, a <= q < b -> exists x, psi q = Some x /\ (x < i <-> q < a + K)) -> i <= m ->
  a <= lb -> lb + e <= b -> a + K <= lb + e -> lb <= a + K ->
  forall f k, e < f + k -> lb + k <= a + K -> lin_buf f psi m lb e i k = Some (a + K - lb).
Proof.
  intros psi a b i K m lb e H IM A B C D. induction f; intros k F KK; [lia|]. cbn [lin_buf]. destruct (Nat.eqb_spec k e) as [-> | N].
  - cbn [obind]. replace (m <? i) with false by (symmetry; apply Nat.ltb_ge; auto). f_equal. lia.
  - destruct (H (lb + k) ltac:(lia)) as (x & E & Q). rewrite E. cbn [obind]. destruct (Nat.ltb_spec x i).
    + apply IHf; lia.
    + f_equal. lia.
Qed.

Section Obj.
Variables (M : nat) (T sa : list nat) (al : alph).
Hypothesis TOK : text_ok T.
Hypothesis SA : is_sa T sa.
Hypothesis AO : alph_ok M T al.

Lemma zero_in' : In 0 T. Proof. destruct TOK as (U & E & _). rewrite E. apply in_app_iff. right. left. auto. Qed.
Lemma bw_in : forall i, i < n T -> In (bw T sa i) T.
Proof. intros. apply nth_In. apply pv_lt, row_lt; auto. Qed.

(** *** csa_wt *)
Let s := bwt T sa.
Lemma s_len : length s = n T. Proof. apply bwt_len. Qed.
Lemma w_rank_ok : forall i c, i <= n T -> w_rank s i c = Some (rank_of (fun j => bw T sa j =? c) i).
Proof. intros. unfold w_rank. rewrite s_len. replace (i <=? n T) with true by (symmetry; apply Nat.leb_le; auto). f_equal. apply rank_bw; auto. Qed.
Lemma w_sel_ok : forall i c p, is_select (fun j => bw T sa j =? c) i p -> p < n T -> w_select s i c = Some p.
Proof.
  intros i c p [A B] L. apply w_select_some; [|rewrite s_len; auto]. split. { unfold s. rewrite is_sym_bw; auto. } rewrite <- B. f_equal. apply rank_bw; lia.
Qed.
Lemma w_isel_ok : forall i, i < n T -> w_isel s i = Some (rank_of (fun j => bw T sa j =? bw T sa i) i, bw T sa i).
Proof. intros. unfold w_isel, s. rewrite bwt_at by auto. cbn [obind]. f_equal. f_equal. apply rank_bw. lia. Qed.
Lemma wt_lf_ok : forall i, i < n T -> wt_lf s al i = Some (lfv T sa i).
Proof. intros. unfold wt_lf. rewrite w_isel_ok by auto. cbn [obind fst snd]. rewrite (begin_ok M T al AO) by (apply bw_in; auto). cbn [obind]. f_equal. symmetry. apply lf_formula; auto. Qed.
Lemma frs_al : forall i, i < n T -> first_row_symbol al i = Some (tx T (row sa i)).
Proof. intros i I. apply (frs_ok M T al AO). { apply nth_In, row_lt; auto. } apply first_col; auto. Qed.
Lemma wt_psi_ok : forall i, i < n T -> wt_psi s al i = Some (psiv T sa i).
Proof.
  intros i I. unfold wt_psi. rewrite frs_al by auto. cbn [obind]. rewrite (begin_ok M T al AO) by (apply nth_In, row_lt; auto). cbn [obind].
  destruct (psi_select T sa TOK SA i I) as [S1 S2]. rewrite csub_le by auto. cbn [obind]. apply w_sel_ok; auto. apply psiv_lt; auto.
Qed.

(** suffix array values by walking left *)
Definition back p0 p := if p0 <=? p then p - p0 else p + n T - p0.
Definition fwd p0 p := if p <=? p0 then p0 - p else p0 + n T - p.
Lemma wt_sa_ok : forall lf sm p0, (forall i, i < n T -> lf i = Some (lfv T sa i)) -> smp_ok T sa sm -> (exists i, i < n T /\ sm_is sm i = Some true /\ row sa i = p0) ->
  forall f i off, i < n T -> off + back p0 (row sa i) < n T -> back p0 (row sa i) < f ->
  wt_sa_loop f lf sm (n T) i off = Some (if row sa i + off <? n T then row sa i + off else row sa i + off - n T).
Proof.
  intros lf sm p0 LF [S1 _] (i0 & I0 & S0 & P0). induction f; intros i off I O F; [lia|]. cbn [wt_sa_loop].
  destruct (S1 i I) as (b & E & V). rewrite E. cbn [obind]. destruct b. { rewrite V by auto. auto. }
  pose proof (row_lt T sa SA i I) as RL. pose proof (row_lt T sa SA i0 I0) as RL0. rewrite P0 in RL0.
  assert (NE : row sa i <> p0). { intros X. rewrite <- X in P0. apply (row_inj T sa SA) in P0; auto. congruence. }
  rewrite LF by auto. cbn [obind]. pose proof (row_lfv T sa SA i I) as RE.
  assert (B : back p0 (pv T (row sa i)) + 1 = back p0 (row sa i)).
  { unfold back, pv. destruct (Nat.eqb_spec (row sa i) 0) as [Zq|Zq], (Nat.leb_spec p0 (row sa i)); destruct (Nat.leb_spec p0 (n T - 1)), (Nat.leb_spec p0 (row sa i - 1)); lia. }
  rewrite IHf; rewrite ?RE; try lia. 2: { apply lfv_lt; auto. }
  f_equal. unfold pv. destruct (Nat.eqb_spec (row sa i) 0) as [Z|Z].
  - destruct (Nat.ltb_spec (n T - 1 + (off + 1)) (n T)), (Nat.ltb_spec (row sa i + off) (n T)); lia.
  - destruct (Nat.ltb_spec (row sa i - 1 + (off + 1)) (n T)), (Nat.ltb_spec (row sa i + off) (n T)); lia.
Qed.
Lemma walk_lf : forall lf, (forall i, i < n T -> lf i = Some (lfv T sa i)) -> forall k p q, p < n T -> q < n T -> (q + k = p \/ q + k = p + n T) -> k < n T -> walk lf k (isa T p) = Some (isa T q).
Proof.
  intros lf LF. induction k; intros p q P Q E K; cbn [walk]. { replace q with p by lia. auto. }
  rewrite LF by (apply (isa_lt T sa); auto). cbn [obind]. unfold lfv. rewrite row_isa by auto. apply IHk; auto; [apply pv_lt; auto| |lia].
  unfold pv. destruct (Nat.eqb_spec p 0); lia.
Qed.
Lemma wt_isa_ok : forall lf im, (forall i, i < n T -> lf i = Some (lfv T sa i)) -> qeq_ok T im -> forall i, i < n T -> wt_isa lf im (n T) i = Some (isa T i).
Proof.
  intros lf im LF Q i I. destruct (Q i I) as (p & P & E). unfold wt_isa. rewrite E. cbn [obind fst snd]. destruct (Nat.ltb_spec p i); rewrite csub_le by lia; cbn [obind]; apply walk_lf; auto; lia.
Qed.
Theorem csa_wt_ok : forall sm im, smp_ok T sa sm -> qeq_ok T im -> csa_ok M T sa (csa_wt s al sm im).
Proof.
  intros sm im SM IM. constructor; cbn [csa_wt c_n c_al c_rank c_lf c_psi c_sa c_isa]; auto.
  - apply s_len.
  - intros. apply w_rank_ok. auto.
  - apply wt_lf_ok.
  - apply wt_psi_ok.
  - intros i I. rewrite s_len. pose proof SM as [_ (i0 & I0 & S0)]. pose proof (row_lt T sa SA i I) as RL. pose proof (row_lt T sa SA i0 I0) as RL0.
    assert (B : back (row sa i0) (row sa i) < n T) by (unfold back; destruct (Nat.leb_spec (row sa i0) (row sa i)); lia).
    rewrite (wt_sa_ok (wt_lf s al) sm (row sa i0)); auto; try (clear - B; lia). 2: { apply wt_lf_ok. } 2: { exists i0. auto. }
    rewrite Nat.add_0_r. replace (row sa i <? n T) with true by (symmetry; apply Nat.ltb_lt; auto). auto.
  - intros p P. rewrite s_len. apply wt_isa_ok; auto. apply wt_lf_ok.
Qed.

(** extract, lf based *)
Theorem extract_lf_ok : forall x, csa_ok M T sa x -> forall b e, b <= e < n T -> extract_lf s x b e = Some (firstn (e + 1 - b) (skipn b T)).
Proof.
  intros x CO b e L. pose proof (co_al _ _ _ _ CO) as AX. unfold extract_lf. rewrite csub_le by lia. cbn [obind]. destruct (Nat.eqb_spec (e + 1 - b) 0) as [Z|Z]; [lia|].
  rewrite (co_isa _ _ _ _ CO) by (unfold n in L; lia). cbn [obind]. pose proof (isa_lt T sa SA e ltac:(lia)) as IL.
  assert (F : first_row_symbol (c_al x) (isa T e) = Some (tx T e)).
  { rewrite (frs_ok M T (c_al x) AX (tx T e)); auto. { apply nth_In. apply L. } pose proof (first_col T sa TOK SA (isa T e) IL) as FC. rewrite row_isa in FC by (auto; lia). auto. }
  rewrite F. cbn [obind].
  assert (H : forall k p acc, k <= p -> p < n T -> ex_lf_loop s (c_al x) k (isa T p) acc = Some (firstn k (skipn (p - k) T) ++ acc)).
  { induction k; intros p acc K P; cbn [ex_lf_loop]; auto. rewrite w_isel_ok by (apply (isa_lt T sa); auto). cbn [obind fst snd].
    assert (BE : bw T sa (isa T p) = tx T (p - 1)). { unfold bw. rewrite row_isa by auto. unfold pv. destruct (Nat.eqb_spec p 0); [lia|auto]. }
    assert (LE : less T (bw T sa (isa T p)) + rank_of (fun j => bw T sa j =? bw T sa (isa T p)) (isa T p) = isa T (p - 1)).
    { rewrite <- lf_formula by (auto; apply (isa_lt T sa); auto). unfold lfv. rewrite row_isa by auto. unfold pv. destruct (Nat.eqb_spec p 0); [lia|auto]. }
    rewrite (begin_ok M T (c_al x) AX) by (apply bw_in, (isa_lt T sa); auto). cbn [obind]. rewrite LE, BE, IHk by lia. f_equal.
    replace (p - 1 - k) with (p - S k) by lia. change (tx T (p - 1) :: acc) with ([tx T (p - 1)] ++ acc). rewrite app_assoc. f_equal.
    replace (S k) with (k + 1) by lia. assert (SP : forall (l : list nat) a b, firstn (a + b) l = firstn a l ++ firstn b (skipn a l)).
    { clear. intros l a. revert l. induction a; intros; auto. destruct l; cbn [firstn skipn plus app]. { rewrite firstn_nil. auto. } f_equal. apply IHa. }
    rewrite SP. f_equal. assert (S2 : forall a b (q : list nat), skipn a (skipn b q) = skipn (b + a) q).
    { clear. intros a b. revert a. induction b; intros; auto. destruct q; cbn [skipn plus]; [apply skipn_nil|]. apply IHb. }
    rewrite S2. replace (p - (k + 1) + k) with (p - 1) by lia. fold (sx T (p - 1)). rewrite sx_cons by lia. auto. }
  rewrite H by lia. f_equal. replace (e - (e + 1 - b - 1)) with b by lia. replace (e + 1 - b) with (e + 1 - b - 1 + 1) at 2 by lia.
  assert (SP : forall (l : list nat) a b, firstn (a + b) l = firstn a l ++ firstn b (skipn a l)).
  { clear. intros l a. revert l. induction a; intros; auto. destruct l; cbn [firstn skipn plus app]. { rewrite firstn_nil. auto. } f_equal. apply IHa. }
  rewrite SP. f_equal. assert (S2 : forall a b (q : list nat), skipn a (skipn b q) = skipn (b + a) q).
  { clear. intros a b'. revert a. induction b'; intros; auto. destruct q; cbn [skipn plus]; [apply skipn_nil|]. apply IHb'. }
  rewrite S2. replace (b + (e + 1 - b - 1)) with e by lia. fold (sx T e). rewrite sx_cons by lia. auto.
Qed.

(** *** the rows of one symbol: psi is increasing and counts its occurrences in the BWT *)
Lemma psi_rows : forall c i, In c T -> i <= n T -> let K := rank_of (fun j => bw T sa j =? c) i in
  K <= less T (S c) - less T c /\ forall q, less T c <= q < less T (S c) -> (psiv T sa q < i <-> q < less T c + K).
Proof.
  intros c i C I K. pose proof (rank_total T sa SA c) as RT. pose proof (rank_of_mono (fun j => bw T sa j =? c) i (n T) I) as RM. fold K in RM.
  split; [lia|]. intros q Q. assert (QN : q < n T) by (pose proof (less_le T (S c)); unfold n; lia).
  assert (E : tx T (row sa q) = c).
  { pose proof (first_col T sa TOK SA q QN) as FC. destruct (Nat.lt_trichotomy (tx T (row sa q)) c) as [L|[L|L]]; auto; exfalso.
    - pose proof (less_mono T (S (tx T (row sa q))) c ltac:(lia)). lia.
    - pose proof (less_mono T (S c) (tx T (row sa q)) ltac:(lia)). lia. }
  destruct (psi_select T sa TOK SA q QN) as [[S1 S2] _]. rewrite E in *. split.
  - intros L. pose proof (rank_of_mono (fun j => bw T sa j =? c) (S (psiv T sa q)) i ltac:(lia)) as R. rewrite rank_of_S, S1 in R. cbn [b2nat] in R. fold K in R. lia.
  - intros L. destruct (Nat.lt_ge_cases (psiv T sa q) i) as [|G]; auto. exfalso. pose proof (rank_of_mono (fun j => bw T sa j =? c) i (psiv T sa q) G) as R. fold K in R. lia.
Qed.
Lemma psi_stretch : forall (psi : nat -> option nat) c i, (forall q, q < n T -> psi q = Some (psiv T sa q)) -> In c T -> i <= n T ->
  forall q, less T c <= q < less T (S c) -> exists y, psi q = Some y /\ (y < i <-> q < less T c + rank_of (fun j => bw T sa j =? c) i).
Proof.
  intros psi c i PS C I q Q. assert (QN : q < n T) by (pose proof (less_le T (S c)); unfold n; lia). exists (psiv T sa q). split; auto. apply psi_rows; auto.
Qed.
Lemma absent_rank : forall c i, ~ In c T -> i <= n T -> rank_of (fun j => bw T sa j =? c) i = 0.
Proof. intros c i N I. apply rank_none. intros j J. apply Nat.eqb_neq. intros E. apply N. rewrite <- E. apply bw_in. lia. Qed.
Lemma less_lt : forall c, In c T -> less T c < less T (S c).
Proof.
  intros c C. rewrite <- (rank_total T sa SA c). assert (0 < rank_of (fun j => bw T sa j =? c) (n T)); [|lia].
  apply In_nth with (d := 0) in C. destruct C as (p & P & E). pose proof (isa_lt T sa SA (nx T p) (nx_lt T p P)) as IL.
  pose proof (rank_of_mono (fun j => bw T sa j =? c) (S (isa T (nx T p))) (n T) ltac:(lia)) as R. rewrite rank_of_S in R.
  assert (B : bw T sa (isa T (nx T p)) = c) by (unfold bw; rewrite row_isa, pv_nx by (auto; apply nx_lt; auto); auto). rewrite B, Nat.eqb_refl in R. cbn in R. lia.
Qed.
Lemma c2c_cases : forall c, c < M -> (In c T /\ al_c2c al c = Some (dless T c) /\ (dless T c =? 0) && negb (c =? 0) = false) \/ (~ In c T /\ al_c2c al c = Some 0 /\ negb (c =? 0) = true).
Proof.
  intros c C. destruct (in_dec Nat.eq_dec c T) as [I|I].
  - left. split; auto. split. { apply (ao_c2c _ _ _ AO). auto. } destruct c; [apply andb_false_r|]. replace (dless T (S c) =? 0) with false; auto. symmetry. apply Nat.eqb_neq.
    pose proof (proj2 (dless_lt_iff T 0 (S c) zero_in' I)). lia.
  - right. split; auto. split. { apply (ao_abs _ _ _ AO); auto. } destruct c; auto. exfalso. apply I, zero_in'.
Qed.
Theorem sada_rank_ok : forall psi sd buf, 0 < sd -> (forall q, q < n T -> psi q = Some (psiv T sa q)) ->
  forall i c, i <= n T -> c < M -> sada_rank al psi (n T) sd buf i c = Some (rank_of (fun j => bw T sa j =? c) i).
Proof.
  intros psi sd buf SD PS i c I CM. unfold sada_rank. destruct (c2c_cases c CM) as [(IN & E1 & E2) | (IN & E1 & E2)].
  2: { rewrite E1. cbn [obind Nat.eqb andb]. rewrite E2. cbn [negb]. f_equal. symmetry. apply absent_rank; auto. }
  rewrite E1. cbn [obind]. rewrite E2. destruct (Nat.eqb_spec i 0) as [-> | I0]. { rewrite rank_of_0. auto. }
  rewrite (ao_C _ _ _ AO), (C_next _ _ _ AO) by auto. cbn [obind].
  pose proof (psi_stretch psi c i PS IN I) as ST. pose proof (psi_rows c i IN I) as [KB _]. cbv zeta in KB.
  set (K := rank_of (fun j => bw T sa j =? c) i) in *. pose proof (less_lt c IN) as AB. set (a := less T c) in *. set (b := less T (S c)) in *.
  set (lo0 := (a + sd - 1) / sd). set (hi0 := (b + sd - 1) / sd).
  assert (CB : forall k, lo0 <= k < hi0 -> a <= k * sd < b).
  { intros k [X Y]. split. { destruct (Nat.le_gt_cases a (k * sd)) as [|G]; auto. apply (proj2 (ceil_lt sd a k SD)) in G. fold lo0 in G. lia. } apply ceil_lt; auto. }
  assert (LH : lo0 <= hi0) by (apply Nat.div_le_mono; lia).
  destruct (bs_smp_ok psi a b i K sd lo0 hi0 ST CB (S hi0) lo0 hi0) as (lo & hi & R & R1 & R2 & R3 & R4 & R5); auto; try lia.
  rewrite R. cbn [obind]. destruct (Nat.eqb_spec lo hi) as [EQ|NE].
  { apply (bs_finish_ok psi a b i K); auto; lia. }
  destruct R3 as [-> | [R3 _]]; [|lia].
  assert (L0 : a <= lo * sd < b) by (apply CB; lia).
  assert (HE : S lo * sd = lo * sd + sd) by (cbn [Nat.mul]; lia). rewrite HE in *.
  assert (UB : Nat.min (lo * sd + sd) b = b \/ a + K <= Nat.min (lo * sd + sd) b).
  { destruct R5 as [R5|R5]. { left. assert (~ S lo * sd < b); [|lia]. intros X. apply (proj2 (ceil_lt sd b (S lo) SD)) in X. fold hi0 in X. lia. } right. lia. }
  destruct (Nat.ltb_spec lo0 lo) as [LL|LL].
  - assert (LK : lo * sd < a + K) by lia. assert (AL : a < lo * sd).
    { pose proof (CB lo0 ltac:(lia)). pose proof (Nat.mul_le_mono_r (S lo0) lo sd LL). cbn [Nat.mul] in *. lia. }
    destruct buf; cbn [negb].
    + set (e := if b <=? lo * sd + sd then b - lo * sd else sd).
      assert (EB : lo * sd + e <= b /\ e <= sd /\ a + K <= lo * sd + e) by (unfold e; destruct (Nat.leb_spec b (lo * sd + sd)); lia). clearbody e.
      rewrite (lin_buf_ok psi a b i K (n T) (lo * sd) e); auto; try lia. cbn [obind]. apply csub_some. lia.
    + apply (bs_finish_ok psi a b i K); auto; lia.
  - destruct (ST (lo * sd) L0) as (y & EY & QY). rewrite EY. cbn [obind]. destruct (Nat.leb_spec i y).
    + apply (bs_finish_ok psi a b i K); auto; lia.
    + apply (bs_finish_ok psi a b i K); auto; try lia.
Qed.

(** *** construction of psi *)
Lemma psi_loop_ok : forall k i g, i + k = n T -> (forall c, In c T -> g (dless T c) = less T c + rank_of (fun j => bw T sa j =? c) i) ->
  psi_loop (map (bw T sa) (seq i k)) al i (farr (dist T) g) (farr (n T) (fun q => if psiv T sa q <? i then psiv T sa q else 0)) = Some (farr (n T) (psiv T sa)).
Proof.
  induction k; intros i g IK G; cbn [seq map psi_loop].
  - f_equal. apply farr_ext. intros q Q. pose proof (psiv_lt T sa SA q Q). replace (psiv T sa q <? i) with true; auto. symmetry. apply Nat.ltb_lt. lia.
  - assert (I : i < n T) by lia. pose proof (bw_in i I) as BI. rewrite (ao_c2c _ _ _ AO) by auto. cbn [obind]. pose proof (dless_lt T _ BI) as DL.
    rewrite farr_nth_error by auto. cbn [obind]. rewrite farr_aset by auto. cbn [obind]. rewrite G by auto. rewrite <- lf_formula by auto.
    pose proof (lfv_lt T sa SA i I) as LL. rewrite farr_aset by auto. cbn [obind].
    rewrite (farr_ext _ (n T) _ (fun q => if psiv T sa q <? S i then psiv T sa q else 0)).
    + apply IHk; [lia|]. intros c C. rewrite rank_of_S. destruct (Nat.eqb_spec (bw T sa i) c) as [<- | N].
      * rewrite Nat.eqb_refl. cbn [b2nat]. rewrite lf_formula by auto. lia.
      * replace (dless T c =? dless T (bw T sa i)) with false. { rewrite G by auto. cbn [b2nat]. lia. } symmetry. apply Nat.eqb_neq. intros X. apply dless_inj in X; auto.
    + intros q Q. destruct (Nat.eqb_spec q (lfv T sa i)) as [-> | N].
      * rewrite psiv_lfv by auto. replace (i <? S i) with true; auto. symmetry. apply Nat.ltb_lt. lia.
      * assert (psiv T sa q <> i) by (intros <-; apply N; rewrite lfv_psiv; auto). destruct (Nat.ltb_spec (psiv T sa q) i), (Nat.ltb_spec (psiv T sa q) (S i)); auto; lia.
Qed.
Theorem construct_psi_ok : construct_psi s al = Some (farr (n T) (psiv T sa)).
Proof.
  unfold construct_psi. rewrite s_len, (ao_sigma _ _ _ AO).
  assert (LC : dist T <= length (al_C al)). { pose proof (ao_C1 _ _ _ AO) as X. assert (dist T < length (al_C al)) by (apply nth_error_Some; congruence). lia. }
  assert (FC : firstn (dist T) (al_C al) = farr (dist T) (fun k => nth k (al_C al) 0)).
  { rewrite (farr_of_list nat (al_C al) 0) at 1. apply firstn_farr. auto. }
  rewrite FC, farr_repeat.
  assert (H : forall c, In c T -> nth (dless T c) (al_C al) 0 = less T c + rank_of (fun j => bw T sa j =? c) 0).
  { intros c C. rewrite rank_of_0, Nat.add_0_r. apply nth_error_nth. apply (ao_C _ _ _ AO). auto. }
  rewrite <- (psi_loop_ok (n T) 0 (fun k => nth k (al_C al) 0)); auto.
Qed.

(** suffix array values by walking right *)
Lemma sada_sa_ok : forall psi sm p0, (forall i, i < n T -> psi i = Some (psiv T sa i)) -> smp_ok T sa sm -> (exists i, i < n T /\ sm_is sm i = Some true /\ row sa i = p0) ->
  forall f i off, i < n T -> off + fwd p0 (row sa i) < n T -> fwd p0 (row sa i) < f ->
  sada_sa_loop f psi sm (n T) i off = Some (if row sa i <? off then n T - (off - row sa i) else row sa i - off).
Proof.
  intros psi sm p0 PS [S1 _] (i0 & I0 & S0 & P0). induction f; intros i off I O F; [lia|]. cbn [sada_sa_loop].
  destruct (S1 i I) as (b & E & V). rewrite E. cbn [obind]. pose proof (row_lt T sa SA i I) as RL. pose proof (row_lt T sa SA i0 I0) as RL0. rewrite P0 in RL0. destruct b.
  { rewrite V by auto. cbn [obind]. destruct (Nat.ltb_spec (row sa i) off); auto. rewrite csub_le by lia. cbn [obind]. apply csub_le. lia. }
  assert (NE : row sa i <> p0). { intros X. rewrite <- X in P0. apply (row_inj T sa SA) in P0; auto. congruence. }
  rewrite PS by auto. cbn [obind]. pose proof (row_psiv T sa SA i I) as RE.
  assert (B : fwd p0 (nx T (row sa i)) + 1 = fwd p0 (row sa i)).
  { unfold fwd, nx. destruct (Nat.eqb_spec (row sa i) (n T - 1)) as [Zq|Zq], (Nat.leb_spec (row sa i) p0); destruct (Nat.leb_spec 0 p0), (Nat.leb_spec (row sa i + 1) p0); lia. }
  rewrite IHf; rewrite ?RE; try lia. 2: { apply psiv_lt; auto. }
  f_equal. unfold nx. destruct (Nat.eqb_spec (row sa i) (n T - 1)) as [Z|Z].
  - destruct (Nat.ltb_spec 0 (off + 1)), (Nat.ltb_spec (row sa i) off); lia.
  - destruct (Nat.ltb_spec (row sa i + 1) (off + 1)), (Nat.ltb_spec (row sa i) off); lia.
Qed.
Lemma walk_psi : forall psi, (forall i, i < n T -> psi i = Some (psiv T sa i)) -> forall k p, p + k < n T -> walk psi k (isa T p) = Some (isa T (p + k)).
Proof.
  intros psi PS. induction k; intros p P; cbn [walk]. { rewrite Nat.add_0_r. auto. }
  rewrite PS by (apply (isa_lt T sa); auto; lia). cbn [obind]. unfold psiv. rewrite row_isa by (auto; lia). unfold nx. replace (p =? n T - 1) with false by (symmetry; apply Nat.eqb_neq; lia). rewrite IHk by lia. f_equal. f_equal. lia.
Qed.
Lemma psi_isa_ok : forall psi im, (forall i, i < n T -> psi i = Some (psiv T sa i)) -> leq_ok T im -> forall i, i < n T -> psi_isa psi im i = Some (isa T i).
Proof.
  intros psi im PS Q i I. destruct (Q i I) as (p & P & E). unfold psi_isa. rewrite E. cbn [obind fst snd]. rewrite csub_le by auto. cbn [obind]. rewrite walk_psi by (auto; lia). f_equal. f_equal. lia.
Qed.
Lemma saisa_ok : forall f g, (forall i, i < n T -> f i = Some (row sa i)) -> (forall p, p < n T -> g p = Some (isa T p)) ->
  forall i, i < n T -> lf_saisa f g (n T) i = Some (lfv T sa i) /\ psi_saisa f g (n T) i = Some (psiv T sa i).
Proof.
  intros f g F G i I. unfold lf_saisa, psi_saisa. rewrite F by auto. cbn [obind]. replace (n T =? 0) with false by (symmetry; apply Nat.eqb_neq; lia).
  pose proof (row_lt T sa SA i I) as RL. rewrite <- pv_mod, <- nx_mod by auto. rewrite !G; auto. { apply nx_lt; auto. } apply pv_lt; auto.
Qed.
Theorem csa_sada_ok : forall sd buf sm im, 0 < sd -> smp_ok T sa sm -> leq_ok T im -> csa_ok M T sa (csa_sada (farr (n T) (psiv T sa)) al sd buf sm im).
Proof.
  intros sd buf sm im SD SM IM. set (ps := farr (n T) (psiv T sa)). assert (PL : length ps = n T) by apply farr_length. assert (PS : forall q, q < n T -> nth_error ps q = Some (psiv T sa q)) by (intros; apply farr_nth_error; auto).
  assert (SAV : forall i, i < n T -> sada_sa_loop (S (n T)) (nth_error ps) sm (n T) i 0 = Some (row sa i)).
  { intros i I. pose proof SM as [_ (i0 & I0 & S0)]. pose proof (row_lt T sa SA i I) as RL. pose proof (row_lt T sa SA i0 I0) as RL0.
    assert (B : fwd (row sa i0) (row sa i) < n T) by (unfold fwd; destruct (Nat.leb_spec (row sa i) (row sa i0)); lia).
    rewrite (sada_sa_ok (nth_error ps) sm (row sa i0)); auto; try (clear - B; lia). 2: { exists i0. auto. } destruct (Nat.ltb_spec (row sa i) 0); [lia|]. rewrite Nat.sub_0_r. auto. }
  assert (ISAV : forall p, p < n T -> psi_isa (nth_error ps) im p = Some (isa T p)) by (apply psi_isa_ok; auto).
  constructor; cbn [csa_sada c_n c_al c_rank c_lf c_psi c_sa c_isa]; rewrite ?PL; auto.
  - intros i c I C. apply sada_rank_ok; auto.
  - intros i I. apply saisa_ok; auto.
Qed.

(** *** csa_bitcompressed *)
Theorem csa_bc_ok : csa_ok M T sa (csa_bitcompressed sa (farr (n T) (isa T)) al).
Proof.
  assert (SL : length sa = n T) by (apply sa_len; auto).
  assert (F : forall i, i < n T -> nth_error sa i = Some (row sa i)) by (intros; apply nth_error_nth'; lia).
  assert (G : forall p, p < n T -> nth_error (farr (n T) (isa T)) p = Some (isa T p)) by (intros; apply farr_nth_error; auto).
  constructor; cbn [csa_bitcompressed c_n c_al c_rank c_lf c_psi c_sa c_isa]; rewrite ?SL; auto.
  - intros i c I C. unfold bc_rank. destruct (c2c_cases c C) as [(IN & E1 & E2) | (IN & E1 & E2)].
    + rewrite E1. cbn [obind]. rewrite E2. rewrite (ao_C _ _ _ AO) by auto. cbn [obind]. rewrite (Nat.add_comm 1), (C_next _ _ _ AO) by auto. cbn [obind].
      pose proof (psi_rows c i IN I) as [KB _]. cbv zeta in KB. pose proof (less_lt c IN) as AB.
      apply (bs_finish_ok _ _ (less T (S c))); auto. apply psi_stretch; auto. intros. apply saisa_ok; auto.
    + rewrite E1. cbn [obind Nat.eqb andb]. rewrite E2. f_equal. symmetry. apply absent_rank; auto.
  - intros i I. apply saisa_ok; auto.
  - intros i I. apply saisa_ok; auto.
Qed.

(** *** select on the BWT *)
Lemma sel_q : forall c i, In c T -> 1 <= i <= less T (S c) - less T c -> is_select (fun j => bw T sa j =? c) i (psiv T sa (less T c + i - 1)) /\ psiv T sa (less T c + i - 1) < n T.
Proof.
  intros c i C I. set (q := less T c + i - 1). assert (QB : less T c <= q < less T (S c)) by lia. assert (QN : q < n T) by (pose proof (less_le T (S c)); unfold n; lia).
  split; [|apply psiv_lt; auto].
  assert (E : tx T (row sa q) = c).
  { pose proof (first_col T sa TOK SA q QN) as FC. destruct (Nat.lt_trichotomy (tx T (row sa q)) c) as [L|[L|L]]; auto; exfalso.
    - pose proof (less_mono T (S (tx T (row sa q))) c ltac:(lia)). lia.
    - pose proof (less_mono T (S c) (tx T (row sa q)) ltac:(lia)). lia. }
  destruct (psi_select T sa TOK SA q QN) as [[S1 S2] _]. rewrite E in *. split; auto. lia.
Qed.
Definition sel_spec (c i p : nat) : Prop :=
  if (1 <=? i) && (i <=? length (filter (Nat.eqb c) s)) then is_select (is_sym s c) i p /\ p < n T else p = n T.
Lemma cnt_less : forall c, length (filter (Nat.eqb c) s) = less T (S c) - less T c.
Proof.
  intros c. rewrite <- (rank_total T sa SA c). unfold s, bwt. rewrite (rank_map (Nat.eqb c) (bw T sa)). rewrite (rank_of_ext _ (fun j => bw T sa j =? c)); [lia|]. intros. apply Nat.eqb_sym.
Qed.
Theorem select_bwt_ok : forall psi, (forall q, q < n T -> psi q = Some (psiv T sa q)) -> forall i c, 1 <= i -> c < M ->
  (exists p, wt_select_bwt s al i c = Some p /\ sel_spec c i p) /\ (exists p, psi_select_bwt al psi (n T) i c = Some p /\ sel_spec c i p).
Proof.
  intros psi PS i c I CM. unfold wt_select_bwt, psi_select_bwt, sel_spec. rewrite s_len, cnt_less. replace (1 <=? i) with true by (symmetry; apply Nat.leb_le; auto). cbn [andb].
  destruct (c2c_cases c CM) as [(IN & E1 & E2) | (IN & E1 & E2)]; rewrite E1; cbn [obind Nat.eqb andb]; rewrite E2.
  - rewrite (ao_C _ _ _ AO), (C_next _ _ _ AO) by auto. cbn [obind]. rewrite csub_le by lia. cbn [obind]. pose proof (less_lt c IN).
    destruct (Nat.leb_spec i (less T (S c) - less T c)) as [L|L].
    + replace (less T c + i - 1 <? less T (S c)) with true by (symmetry; apply Nat.ltb_lt; lia). destruct (sel_q c i IN ltac:(lia)) as [[Q1 Q2] Q3].
      assert (QS : is_select (is_sym s c) i (psiv T sa (less T c + i - 1))). { split. { unfold s. rewrite is_sym_bw; auto. } transitivity (rank_of (fun j => bw T sa j =? c) (psiv T sa (less T c + i - 1)) + 1); [|exact Q2]. f_equal. apply rank_bw. lia. }
      split; exists (psiv T sa (less T c + i - 1)); (split; [|auto]). { apply w_sel_ok; auto. split; auto. } apply PS. pose proof (less_le T (S c)). unfold n. lia.
    + replace (less T c + i - 1 <? less T (S c)) with false by (symmetry; apply Nat.ltb_ge; lia). split; eauto.
  - assert (Z : less T (S c) - less T c = 0). { rewrite <- cnt_less. rewrite filter_nil; auto. intros x X. apply Nat.eqb_neq. intros <-. apply IN. apply (Permutation_in _ (bwt_perm T sa SA)). auto. }
    rewrite Z. replace (i <=? 0) with false by (symmetry; apply Nat.leb_gt; lia). split; eauto.
Qed.
Theorem psi_bwt_ok : forall lf, (forall i, i < n T -> lf i = Some (lfv T sa i)) -> forall i, i < n T -> psi_bwt al lf i = Some (bw T sa i).
Proof. intros lf LF i I. unfold psi_bwt. rewrite LF by auto. cbn [obind]. rewrite frs_al by (apply lfv_lt; auto). rewrite row_lfv; auto. Qed.
End Obj.
