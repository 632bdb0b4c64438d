(** * LCP construction: Kasai and PHI *)
From Coq Require Import NArith List Arith Bool Lia Permutation.
From Verif Require Import Base SpecBits RankSelect AbsVec FnArr WtBase WtProofs SpecCsa Csa CsaSample CsaProofs CsaProofs6 SpecLcp Lcp.
Import ListNotations.

Lemma lcp_comm : forall a b, lcp a b = lcp b a.
Proof. induction a as [|x a IH]; intros [|y b]; auto. cbn [lcp]. rewrite Nat.eqb_sym. destruct (y =? x); auto. Qed.
Lemma lcp_mid : forall a b c, lex_lt a b -> lex_lt b c -> lcp a c <= lcp b c.
Proof.
  induction a as [|x a IH]; intros [|y b] [|z c]; cbn [lex_lt lcp]; try tauto; intros; try lia. destruct (Nat.eqb_spec x z) as [E|E]; [|lia]. subst z.
  destruct H as [H|[-> H]], H0 as [K|[K1 K]]; try lia. rewrite Nat.eqb_refl. specialize (IH _ _ H K). lia.
Qed.
Lemma tr_small : forall w v, v < 2 ^ w -> tr w v = v. Proof. intros. apply Nat.mod_small. auto. Qed.

Section L.
Variables T sa : list nat.
Hypothesis TOK : text_ok T.
Hypothesis SA : is_sa T sa.
Variable w : nat.
Hypothesis W : length T <= 2 ^ w.
Notation n := (n T). Notation tx := (tx T). Notation sx := (sx T). Notation row := (row sa). Notation isa := (isa T).
Lemma np : 0 < n. Proof. apply n_pos; auto. Qed.

(* two different suffixes differ before the end of the text *)
Lemma lcp_bound : forall m i j, n - i <= m -> i < n -> j < n -> i <> j -> i + lcp (sx i) (sx j) < n /\ j + lcp (sx i) (sx j) < n /\ tx (i + lcp (sx i) (sx j)) <> tx (j + lcp (sx i) (sx j)) /\
  forall k, k < lcp (sx i) (sx j) -> tx (i + k) = tx (j + k).
Proof.
  induction m as [|m IH]; intros i j M I J D; [lia|]. rewrite (sx_cons T i I), (sx_cons T j J). cbn [lcp]. destruct (Nat.eqb_spec (tx i) (tx j)) as [E|E].
  - assert (I1 : S i < n). { destruct (Nat.eq_dec (S i) n) as [Q|]; [|lia]. exfalso. apply D. assert (i = n - 1) by lia. pose proof (tx_last T TOK) as L. rewrite <- H in L. rewrite L in E. symmetry in E. apply (tx_zero T sa TOK SA) in E; auto. lia. }
    assert (J1 : S j < n). { destruct (Nat.eq_dec (S j) n) as [Q|]; [|lia]. exfalso. apply D. assert (j = n - 1) by lia. pose proof (tx_last T TOK) as L. rewrite <- H in L. rewrite L in E. apply (tx_zero T sa TOK SA) in E; auto. lia. }
    destruct (IH (S i) (S j)) as (A & B & C & K); try lia. set (l := lcp (sx (S i)) (sx (S j))) in *. split; [lia|]. split; [lia|]. split. { replace (i + S l) with (S i + l) by lia. replace (j + S l) with (S j + l) by lia. auto. }
    intros [|k] X. { rewrite !Nat.add_0_r. auto. } replace (i + S k) with (S i + k) by lia. replace (j + S k) with (S j + k) by lia. apply K. lia.
  - rewrite !Nat.add_0_r. split; auto. split; auto. split; auto. intros. lia.
Qed.
Lemma tx_get : forall p, p < n -> nth_error T p = Some (tx p).
Proof. intros. apply nth_error_nth'. auto. Qed.
Lemma scan_ok : forall i j l, i < n -> j < n -> i <> j -> l <= lcp (sx i) (sx j) -> scan (S (length T)) T i j l = Some (lcp (sx i) (sx j)).
Proof.
  intros i j l I J D L. destruct (lcp_bound (n - i) i j (le_n _) I J D) as (A & B & C & K). set (m := lcp (sx i) (sx j)) in *. clearbody m.
  assert (G : forall fuel l, l <= m -> m - l < fuel -> scan fuel T i j l = Some m).
  { induction fuel as [|f IH]; intros x X F; [lia|]. cbn [scan]. rewrite (tx_get (i + x)), (tx_get (j + x)) by lia. cbn [obind]. destruct (Nat.eq_dec x m) as [-> |Q].
    - destruct (Nat.eqb_spec (tx (i + m)) (tx (j + m))); [congruence|auto].
    - rewrite K by lia. rewrite Nat.eqb_refl. apply IH; lia. }
  apply G; auto. change (length T) with n. lia.
Qed.

(** the permuted LCP array *)
Definition PL (p : nat) : nat := if isa p =? 0 then 0 else lcp (sx p) (sx (row (isa p - 1))).
Lemma PL_row : forall i, 1 <= i < n -> PL (row i) = lcp (sx (row (i - 1))) (sx (row i)).
Proof. intros i I. unfold PL. rewrite (isa_row T sa SA) by lia. destruct (Nat.eqb_spec i 0); [lia|]. apply lcp_comm. Qed.
Lemma phi_ne : forall p, p < n -> isa p <> 0 -> row (isa p - 1) < n /\ row (isa p - 1) <> p.
Proof.
  intros p P Z. pose proof (isa_lt T sa SA p P). split. { apply (row_lt T sa SA). lia. } intros E. pose proof (row_isa T sa SA p P) as R. rewrite <- E in R at 2. apply (row_inj T sa SA) in R; lia.
Qed.
Lemma PL_lt : forall p, p < n -> p + PL p < n.
Proof. intros p P. unfold PL. destruct (Nat.eqb_spec (isa p) 0) as [Z|Z]; [lia|]. destruct (phi_ne p P Z). apply (lcp_bound (n - p)); auto. Qed.
Lemma row0 : row 0 = n - 1.
Proof.
  pose proof np. assert (L : isa (n - 1) = 0). { destruct (Nat.eq_dec (isa (n - 1)) 0) as [|Z]; auto. exfalso. assert (X : lex_lt (sx (row 0)) (sx (n - 1))). { replace (sx (n - 1)) with (sx (row (isa (n - 1)))) by (f_equal; apply (row_isa T sa SA); lia). apply (row_lex T sa SA); try lia. { apply (isa_lt T sa SA). lia. } }
    pose proof (row_lt T sa SA 0 H). rewrite (sx_cons T (n - 1)) in X by lia. rewrite (sx_cons T (row 0)) in X by lia. rewrite (tx_last T TOK) in X. replace (sx (S (n - 1))) with (@nil nat) in X. 2: { unfold CsaProofs.sx. rewrite skipn_all2; auto. unfold CsaProofs.n. lia. }
    cbn [lex_lt] in X. destruct X as [X|[_ X]]; [lia|]. destruct (sx (S (row 0))); exact X. }
  pose proof (row_isa T sa SA (n - 1) ltac:(lia)) as R. rewrite L in R. auto.
Qed.
Lemma PL_step : forall p, p + 1 < n -> PL p <= PL (p + 1) + 1.
Proof.
  intros p P. replace (p + 1) with (S p) in * by lia. unfold PL at 1. destruct (Nat.eqb_spec (isa p) 0) as [|Z]; [lia|]. destruct (phi_ne p) as [Q D]; [lia|auto|]. set (q := row (isa p - 1)) in *.
  assert (LX : lex_lt (sx q) (sx p)). { replace (sx p) with (sx (row (isa p))) by (f_equal; apply (row_isa T sa SA); lia). pose proof (isa_lt T sa SA p). apply (row_lex T sa SA); lia. }
  rewrite (sx_cons T p), (sx_cons T q) in * by lia. cbn [lcp]. destruct (Nat.eqb_spec (tx p) (tx q)) as [E|E]; [|lia]. cbn [lex_lt] in LX. destruct LX as [LX|[_ LX]]; [lia|].
  assert (Q1 : S q < n). { destruct (Nat.eq_dec (S q) n) as [R|]; [|lia]. exfalso. assert (q = n - 1) by lia. pose proof (tx_last T TOK) as L. rewrite <- H in L. rewrite L in E. apply (tx_zero T sa TOK SA) in E; lia. }
  replace (sx (S p)) with (sx (row (isa (S p)))) in LX by (f_equal; apply (row_isa T sa SA); lia). replace (sx (S q)) with (sx (row (isa (S q)))) in LX by (f_equal; apply (row_isa T sa SA); lia). apply (row_lex T sa SA) in LX; try (apply (isa_lt T sa SA); lia).
  unfold PL. destruct (Nat.eqb_spec (isa (S p)) 0); [lia|]. pose proof (isa_lt T sa SA (S p) P) as IP.
  assert (M : lcp (sx (S q)) (sx (S p)) <= lcp (sx (row (isa (S p) - 1))) (sx (S p))).
  { destruct (Nat.eq_dec (isa (S q)) (isa (S p) - 1)) as [R|R]. { rewrite <- R, (row_isa T sa SA) by lia. auto. }
    replace (sx (S q)) with (sx (row (isa (S q)))) by (f_equal; apply (row_isa T sa SA); lia). apply lcp_mid. { apply (row_sx T sa SA). lia. } replace (sx (S p)) with (sx (row (isa (S p)))) by (f_equal; apply (row_isa T sa SA); lia). apply (row_sx T sa SA). lia. }
  rewrite (lcp_comm (sx (S p)) (sx (S q))), (lcp_comm (sx (S p)) (sx (row _))). lia.
Qed.

(** ** Kasai *)
(* the contents of the array when the positions below [i] are done *)
Definition kst (i r : nat) : nat := if (r + 1 <? n) && (row (r + 1) <? i) then PL (row (r + 1)) else if (r =? n - 1) && (n - 1 <? i) then 0 else row r.
Lemma kasai_loop_ok : forall k i l, i + k = n -> l = (if i =? 0 then 0 else PL (i - 1)) -> kasai_loop k i l T (farr n isa) (farr n (kst i)) w = Some (farr n (kst n)).
Proof.
  pose proof np as NP. induction k as [|k IH]; intros i l E L; cbn [kasai_loop]. { replace i with n by lia. auto. }
  rewrite (farr_nth_error nat n isa i) by lia. cbn [obind]. pose proof (isa_lt T sa SA i ltac:(lia)) as IL. destruct (Nat.eqb_spec (isa i) 0) as [Z|Z]; cbn [negb].
  - assert (i = n - 1). { rewrite <- row0. rewrite <- Z. symmetry. apply (row_isa T sa SA). lia. } rewrite farr_length. rewrite (csub_some _ _ (n - 1)) by lia. cbn [obind]. rewrite farr_aset by lia. cbn [obind].
    rewrite <- (IH (i + 1) 0) by (try lia; replace (i + 1 =? 0) with false by lia; replace (i + 1 - 1) with i by lia; unfold PL; rewrite Z; auto). f_equal. apply farr_ext. intros r R. unfold kst.
    destruct (Nat.eqb_spec r (n - 1)) as [-> |X]. { replace (n - 1 + 1 <? n) with false by lia. replace (n - 1 <? i + 1) with true by lia. auto. } cbn [andb].
    destruct (Nat.ltb_spec (r + 1) n); [|lia]. cbn [andb]. assert (row (r + 1) <> n - 1). { rewrite <- row0. intros Y. apply (row_inj T sa SA) in Y; lia. } pose proof (row_lt T sa SA (r + 1) ltac:(lia)). replace (row (r + 1) <? i) with true by lia. replace (row (r + 1) <? i + 1) with true by lia. auto.
  - rewrite (farr_nth_error nat n (kst i)) by lia. cbn [obind]. destruct (phi_ne i) as [Q D]; [lia|auto|].
    assert (KV : kst i (isa i - 1) = row (isa i - 1)). { unfold kst. replace (isa i - 1 + 1) with (isa i) by lia. rewrite (row_isa T sa SA) by lia. rewrite Nat.ltb_irrefl, andb_false_r. replace (isa i - 1 =? n - 1) with false by lia. auto. } rewrite KV.
    assert (PV : PL i = lcp (sx i) (sx (row (isa i - 1)))). { unfold PL. destruct (Nat.eqb_spec (isa i) 0); [lia|auto]. }
    rewrite scan_ok; auto; try lia. 2: { rewrite <- PV, L. destruct (Nat.eqb_spec i 0); [cbn; lia|]. pose proof (PL_step (i - 1) ltac:(lia)) as ST. replace (i - 1 + 1) with i in ST by lia. destruct (Nat.eqb_spec (PL (i - 1)) 0); cbn [negb]; lia. }
    cbn [obind]. rewrite <- PV. pose proof (PL_lt i ltac:(lia)). rewrite tr_small by (change (length T) with n in W; lia). rewrite farr_aset by lia. cbn [obind].
    rewrite <- (IH (i + 1) (PL i)) by (try lia; replace (i + 1 =? 0) with false by lia; f_equal; lia). f_equal. apply farr_ext. intros r R. unfold kst. destruct (Nat.eqb_spec r (isa i - 1)) as [-> |X].
    + replace (isa i - 1 + 1) with (isa i) by lia. rewrite (row_isa T sa SA) by lia. replace (isa i <? n) with true by lia. replace (i <? i + 1) with true by lia. auto.
    + assert (IN : i <> n - 1). { intros ->. apply Z. rewrite <- row0. apply (isa_row T sa SA). auto. } replace (n - 1 <? i + 1) with (n - 1 <? i) by lia. destruct (Nat.ltb_spec (r + 1) n) as [Y|Y]; auto. cbn [andb]. assert (row (r + 1) <> i). { intros U. apply X. rewrite <- U, (isa_row T sa SA) by lia. lia. } replace (row (r + 1) <? i + 1) with (row (r + 1) <? i) by lia. auto.
Qed.
Lemma shift_ok : forall m k f, k <= m -> shift_loop k (farr m f) = Some (farr m (fun j => if (1 <=? j) && (j <? k) then f (j - 1) else f j)).
Proof.
  intros m. induction k as [|k IH]; intros f K; cbn [shift_loop]. { f_equal. apply farr_ext. intros j J. replace (j <? 0) with false by lia. rewrite andb_false_r. auto. }
  destruct (Nat.eqb_spec k 0) as [-> |Z]. { f_equal. apply farr_ext. intros j J. destruct j; auto. }
  rewrite farr_nth_error by lia. cbn [obind]. rewrite farr_aset by lia. cbn [obind]. rewrite IH by lia. f_equal. apply farr_ext. intros j J. replace (S k - 1) with k by lia. replace (S k - 2) with (k - 1) by lia.
  destruct (Nat.eqb_spec j k) as [-> |X].
  - rewrite Nat.ltb_irrefl, andb_false_r. replace (1 <=? k) with true by lia. replace (k <? S k) with true by lia. auto.
  - destruct (Nat.leb_spec 1 j) as [Y|Y]; auto. cbn [andb]. destruct (Nat.ltb_spec j k). { replace (j - 1 =? k) with false by lia. replace (j <? S k) with true by lia. auto. } replace (j <? S k) with false by lia. auto.
Qed.
Definition LC (i : nat) : nat := if i =? 0 then 0 else PL (row i).
Lemma LC_is : is_lcp T sa (farr n LC).
Proof. pose proof np. split. { apply farr_length. } split. { rewrite farr_nth; auto. } intros i I. change (length T) with n in I. rewrite farr_nth by lia. unfold LC. destruct (Nat.eqb_spec i 0); [lia|]. apply PL_row. auto. Qed.
Lemma is_LC : forall L, is_lcp T sa L -> L = farr n LC.
Proof.
  intros L (A & B & C). apply list_eq_nth with 0. { rewrite farr_length. auto. } intros i I. rewrite A in I. change (length T) with n in *. rewrite farr_nth by auto. unfold LC. destruct (Nat.eqb_spec i 0) as [-> |Z]; auto. rewrite C by lia. symmetry. apply PL_row. lia.
Qed.
Theorem kasai_ok : lcp_kasai T sa w = Some (farr n LC).
Proof.
  pose proof np as NP. unfold lcp_kasai. rewrite (construct_isa_ok T sa SA). cbn [obind]. rewrite farr_length. replace sa with (farr n (kst 0)) at 1.
  2: { rewrite <- (row_map T sa SA). apply farr_ext. intros r R. unfold kst. replace (row (r + 1) <? 0) with false by lia. rewrite andb_false_r. replace (n - 1 <? 0) with false by lia. rewrite andb_false_r. auto. }
  rewrite kasai_loop_ok by auto. cbn [obind]. rewrite farr_length. rewrite shift_ok by auto. cbn [obind]. rewrite farr_aset by auto. f_equal. apply farr_ext. intros j J. unfold LC. destruct (Nat.eqb_spec j 0) as [|Z]; auto.
  replace (1 <=? j) with true by lia. replace (j <? n) with true by lia. cbn [andb]. unfold kst. replace (j - 1 + 1) with j by lia. replace (j <? n) with true by lia. pose proof (row_lt T sa SA j J). replace (row j <? n) with true by lia. auto.
Qed.

(** ** PHI *)
Definition phi p := if isa p =? 0 then 0 else row (isa p - 1).
Lemma phi_loop_ok : forall k r, r + k = n -> phi_loop (map row (seq r k)) (if r =? 0 then 0 else row (r - 1)) (farr n (fun p => if isa p <? r then phi p else 0)) w = Some (farr n phi).
Proof.
  induction k as [|k IH]; intros r R; cbn [seq map phi_loop].
  - f_equal. apply farr_ext. intros p P. pose proof (isa_lt T sa SA p P). replace (isa p <? r) with true by lia. auto.
  - pose proof (row_lt T sa SA r ltac:(lia)) as RL. rewrite farr_aset by auto. cbn [obind]. rewrite <- (IH (S r)) by lia. replace (S r =? 0) with false by auto. replace (S r - 1) with r by lia. f_equal. apply farr_ext. intros p P.
    destruct (Nat.eqb_spec p (row r)) as [-> |X].
    + rewrite (isa_row T sa SA) by lia. replace (r <? S r) with true by lia. unfold phi. rewrite (isa_row T sa SA) by lia. apply tr_small. change (length T) with n in W. destruct (Nat.eqb_spec r 0); [pose proof np; lia|]. pose proof (row_lt T sa SA (r - 1) ltac:(lia)). lia.
    + assert (isa p <> r). { intros <-. apply X. symmetry. apply (row_isa T sa SA). auto. } replace (isa p <? S r) with (isa p <? r) by lia. auto.
Qed.
Lemma isa_last : isa (n - 1) = 0. Proof. rewrite <- row0. apply (isa_row T sa SA). apply np. Qed.
Lemma isa_pos : forall p, p < n - 1 -> isa p <> 0.
Proof. intros p P Z. pose proof (row_isa T sa SA p ltac:(lia)) as R. rewrite Z, row0 in R. lia. Qed.
Lemma plcp_loop_ok : forall k i l m, i + k = n - 1 -> l = (if i =? 0 then 0 else PL (i - 1) - 1) -> (forall p, p < i -> PL p <= m) ->
  exists m', plcp_loop k i l m T (farr n (fun p => if p <? i then PL p else phi p)) w = Some (farr n PL, m') /\ forall p, p < n -> PL p <= m'.
Proof.
  pose proof np as NP. induction k as [|k IH]; intros i l m E L M; cbn [plcp_loop].
  - exists m. split. { f_equal. f_equal. apply farr_ext. intros p P. destruct (Nat.ltb_spec p i); auto. assert (p = n - 1) by lia. subst p. unfold phi, PL. rewrite isa_last. auto. }
    intros p P. destruct (Nat.lt_ge_cases p i); auto. assert (p = n - 1) by lia. subst p. unfold PL. rewrite isa_last. cbn. lia.
  - rewrite farr_nth_error by lia. cbn [obind]. rewrite Nat.ltb_irrefl. pose proof (isa_pos i ltac:(lia)) as Z. destruct (phi_ne i) as [Q D]; [lia|auto|].
    assert (PV : PL i = lcp (sx i) (sx (phi i))). { unfold PL, phi. destruct (Nat.eqb_spec (isa i) 0); [lia|auto]. } assert (QV : phi i < n /\ phi i <> i). { unfold phi. destruct (Nat.eqb_spec (isa i) 0); [lia|auto]. }
    rewrite scan_ok; try lia. 2: { rewrite <- PV, L. destruct (Nat.eqb_spec i 0); [lia|]. pose proof (PL_step (i - 1) ltac:(lia)) as ST. replace (i - 1 + 1) with i in ST by lia. lia. }
    cbn [obind]. rewrite <- PV. pose proof (PL_lt i ltac:(lia)). rewrite tr_small by (change (length T) with n in W; lia). rewrite farr_aset by lia. cbn [obind].
    assert (FE : farr n (fun j => if j =? i then PL i else if j <? i then PL j else phi j) = farr n (fun p => if p <? i + 1 then PL p else phi p)).
    { apply farr_ext. intros p P. destruct (Nat.eqb_spec p i) as [-> |X]. { replace (i <? i + 1) with true by lia. auto. } replace (p <? i + 1) with (p <? i) by lia. auto. } rewrite FE.
    assert (MM : forall x p, m <= x -> PL i <= x -> p < i + 1 -> PL p <= x). { intros x p X Y P. destruct (Nat.eq_dec p i) as [-> |]; auto. specialize (M p ltac:(lia)). lia. }
    destruct (Nat.eqb_spec (PL i) 0) as [Y|Y]; cbn [negb]; apply IH; try lia; try (replace (i + 1 =? 0) with false by lia; replace (i + 1 - 1) with i by lia; lia); intros p P; apply MM; auto; lia.
Qed.
Lemma perm_ok : forall lw l, (forall p, In p l -> p < n) -> (forall p, p < n -> PL p < 2 ^ lw) -> perm_loop l (farr n PL) lw = Some (map PL l).
Proof.
  intros lw l H B. induction l as [|s l IH]; auto. cbn [perm_loop map]. rewrite farr_nth_error by (apply H; left; auto). cbn [obind]. rewrite IH by (intros; apply H; right; auto). cbn [obind]. rewrite tr_small by (apply B; apply H; left; auto). auto.
Qed.
Theorem phi_ok : lcp_PHI T sa w = Some (farr n LC).
Proof.
  pose proof np as NP. unfold lcp_PHI. rewrite (sa_len T sa SA). destruct (Nat.eqb_spec n 1) as [E|E]. { rewrite E. auto. }
  rewrite farr_repeat. pose proof (phi_loop_ok n 0 eq_refl) as P0. rewrite (row_map T sa SA) in P0. cbn [Nat.eqb] in P0. rewrite (farr_ext nat n (fun _ => 0) (fun p => if isa p <? 0 then phi p else 0)) by auto. rewrite P0. cbn [obind].
  rewrite (csub_some _ _ (n - 1)) by lia. cbn [obind]. destruct (plcp_loop_ok (n - 1) 0 0 0) as (m & P & M); auto; [intros; lia|]. rewrite (farr_ext nat n phi (fun p => if p <? 0 then PL p else phi p)) by auto. rewrite P. cbn [obind].
  assert (TL : tl sa = map row (seq 1 (n - 1))). { rewrite <- (row_map T sa SA) at 1. destruct n as [|k] eqn:N; [lia|]. cbn [seq map tl]. replace (S k - 1) with k by lia. auto. }
  rewrite (perm_ok (Nat.log2 m + 1) (tl sa)).
  2: { intros p I. rewrite TL in I. apply in_map_iff in I. destruct I as (j & <- & J). apply in_seq in J. apply (row_lt T sa SA). lia. }
  2: { intros p L. specialize (M p L). destruct (Nat.eq_dec m 0) as [-> |Z]. { cbn. lia. } pose proof (Nat.log2_spec m ltac:(lia)). replace (Nat.log2 m + 1) with (S (Nat.log2 m)) by lia. lia. }
  cbn [obind]. f_equal. rewrite TL, map_map. unfold farr. destruct n as [|k] eqn:N; [lia|]. cbn [seq map]. f_equal. replace (S k - 1) with k by lia. apply map_ext_in. intros j J. apply in_seq in J. unfold LC. destruct (Nat.eqb_spec j 0); [lia|]. auto.
Qed.
(** ** Semi external PHI *)
Lemma PL_add : forall k p, p + k < n -> PL p <= PL (p + k) + k.
Proof. induction k as [|k IH]; intros p H. { replace (p + 0) with p by lia. lia. } specialize (IH p ltac:(lia)). pose proof (PL_step (p + k) ltac:(lia)) as ST. replace (p + S k) with (p + k + 1) by lia. lia. Qed.
Lemma PL_phi : 2 <= n -> forall p, p < n -> phi p < n /\ phi p <> p /\ PL p = lcp (sx p) (sx (phi p)).
Proof.
  intros N p P. unfold phi, PL. destruct (Nat.eqb_spec (isa p) 0) as [Z|Z].
  - assert (p = n - 1). { rewrite <- row0, <- Z. symmetry. apply (row_isa T sa SA). auto. } subst p. split; [lia|]. split; [lia|]. rewrite (sx_cons T (n - 1)), (sx_cons T 0) by lia. cbn [lcp]. destruct (Nat.eqb_spec (tx (n - 1)) (tx 0)) as [E|]; auto. exfalso. rewrite (tx_last T TOK) in E. symmetry in E. apply (tx_zero T sa TOK SA) in E; lia.
  - destruct (phi_ne p P Z). auto.
Qed.
Section Semi.
Variable q : nat.
Hypothesis Q : q <> 0.
Notation sz := ((n - 1 + q) / q).
Lemma slot : forall p, p < n -> p / q < sz.
Proof. intros p P. apply Nat.div_lt_upper_bound; auto. pose proof (Nat.div_mod (n - 1 + q) q Q) as D. pose proof (Nat.mod_upper_bound (n - 1 + q) q Q). nia. Qed.
Lemma slot_lt : forall i, i < sz -> i * q < n.
Proof. intros i I. pose proof (Nat.div_mod (n - 1 + q) q Q) as D. pose proof (Nat.mod_upper_bound (n - 1 + q) q Q). pose proof np. nia. Qed.
Lemma mul_slot : forall p, p mod q = 0 -> p / q * q = p.
Proof. intros p H. pose proof (Nat.div_mod p q Q). lia. Qed.
Lemma semi_phi_ok : forall k r, r + k = n -> semi_phi q (map row (seq r k)) (if r =? 0 then 0 else row (r - 1)) (farr sz (fun i => if isa (i * q) <? r then phi (i * q) else 0)) = Some (farr sz (fun i => phi (i * q))).
Proof.
  induction k as [|k IH]; intros r R; cbn [seq map semi_phi].
  - f_equal. apply farr_ext. intros i I. pose proof (isa_lt T sa SA (i * q) (slot_lt i I)). replace (isa (i * q) <? r) with true by lia. auto.
  - pose proof (row_lt T sa SA r ltac:(lia)) as RL. specialize (IH (S r) ltac:(lia)). cbn [Nat.eqb] in IH. replace (S r - 1) with r in IH by lia. destruct (Nat.eqb_spec (row r mod q) 0) as [Z|Z].
    + rewrite farr_aset by (apply slot; auto). cbn [obind]. rewrite <- IH. f_equal. apply farr_ext. intros i I. destruct (Nat.eqb_spec i (row r / q)) as [-> |X].
      * rewrite mul_slot by auto. rewrite (isa_row T sa SA) by lia. replace (r <? S r) with true by lia. unfold phi. rewrite (isa_row T sa SA) by lia. auto.
      * assert (isa (i * q) <> r). { intros E. apply X. rewrite <- E, (row_isa T sa SA) by (apply slot_lt; auto). rewrite Nat.div_mul; auto. } replace (isa (i * q) <? S r) with (isa (i * q) <? r) by lia. auto.
    + cbn [obind]. rewrite <- IH. f_equal. apply farr_ext. intros i I. assert (isa (i * q) <> r). { intros E. apply Z. rewrite <- E, (row_isa T sa SA) by (apply slot_lt; auto). apply Nat.mod_mul; auto. } replace (isa (i * q) <? S r) with (isa (i * q) <? r) by lia. auto.
Qed.
Lemma semi_plcp_ok : 2 <= n -> forall k i l, i + k = sz -> l = (if i =? 0 then 0 else PL ((i - 1) * q) - q) -> semi_plcp q k i l T (farr sz (fun j => if j <? i then PL (j * q) else phi (j * q))) = Some (farr sz (fun j => PL (j * q))).
Proof.
  intros N. induction k as [|k IH]; intros i l E L; cbn [semi_plcp]. { f_equal. apply farr_ext. intros j J. replace (j <? i) with true by lia. auto. }
  rewrite farr_nth_error by lia. cbn [obind]. rewrite Nat.ltb_irrefl. pose proof (slot_lt i ltac:(lia)) as IQ. destruct (PL_phi N (i * q) IQ) as (A & B & C). rewrite scan_ok; auto.
  2: { rewrite <- C, L. destruct (Nat.eqb_spec i 0); [lia|]. pose proof (PL_add q ((i - 1) * q)) as ST. replace ((i - 1) * q + q) with (i * q) in ST by (destruct i; [lia|]; replace (S i - 1) with i by lia; lia). lia. }
  cbn [obind]. rewrite <- C. rewrite farr_aset by lia. cbn [obind]. rewrite <- (IH (i + 1) (if q <=? PL (i * q) then PL (i * q) - q else 0)).
  2: lia. 2: { replace (i + 1 =? 0) with false by lia. replace (i + 1 - 1) with i by lia. destruct (Nat.leb_spec q (PL (i * q))); lia. }
  f_equal. apply farr_ext. intros j J. destruct (Nat.eqb_spec j i) as [-> |X]. { replace (i <? i + 1) with true by lia. auto. } replace (j <? i + 1) with (j <? i) by lia. auto.
Qed.
Lemma semi_out_ok : 2 <= n -> forall k r, r + k = n -> semi_out q (map row (seq r k)) (if r =? 0 then 0 else row (r - 1)) T (farr sz (fun j => PL (j * q))) w = Some (map LC (seq r k)).
Proof.
  intros N. induction k as [|k IH]; intros r R; cbn [seq map semi_out]; auto. pose proof (row_lt T sa SA r ltac:(lia)) as RL. specialize (IH (S r) ltac:(lia)). cbn [Nat.eqb] in IH. replace (S r - 1) with r in IH by lia.
  rewrite farr_nth_error by (apply slot; auto). cbn [obind]. assert (LV : LC r = PL (row r)). { unfold LC, PL. rewrite (isa_row T sa SA) by lia. destruct (Nat.eqb_spec r 0); auto. }
  pose proof (PL_lt (row r) RL) as PB. change (length T) with n in W. destruct (Nat.eqb_spec (row r mod q) 0) as [Z|Z].
  - cbn [obind]. rewrite IH. cbn [obind]. rewrite mul_slot by auto. rewrite tr_small by lia. rewrite <- LV. auto.
  - destruct (PL_phi N (row r) RL) as (A & B & C). assert (PH : phi (row r) = if r =? 0 then 0 else row (r - 1)). { unfold phi. rewrite (isa_row T sa SA) by lia. auto. } rewrite <- PH.
    pose proof (Nat.div_mod (row r) q Q) as D. set (s := row r) in *. set (iq := s / q * q). assert (IQ : iq + s mod q = s) by (unfold iq; lia). pose proof (PL_add (s mod q) iq ltac:(lia)) as ST. rewrite IQ in ST.
    rewrite scan_ok; auto. 2: { rewrite <- C. destruct (Nat.ltb_spec (s - iq) (PL iq)); lia. } cbn [obind]. rewrite IH. cbn [obind]. rewrite <- C, tr_small by lia. rewrite <- LV. auto.
Qed.
End Semi.
Theorem semi_ok : lcp_semi T sa w = Some (farr n LC).
Proof.
  pose proof np as NP. unfold lcp_semi. rewrite (sa_len T sa SA). destruct (Nat.eqb_spec n 1) as [E|E]. { rewrite E. auto. } assert (Q : 64 <> 0) by discriminate. set (q := 64) in *. clearbody q. cbv zeta.
  rewrite farr_repeat. pose proof (semi_phi_ok q Q n 0 eq_refl) as P0. rewrite (row_map T sa SA) in P0. cbn [Nat.eqb] in P0. rewrite (farr_ext nat ((n - 1 + q) / q) (fun _ => 0) (fun i => if isa (i * q) <? 0 then phi (i * q) else 0)) by auto. rewrite P0. cbn [obind].
  pose proof (semi_plcp_ok q Q ltac:(lia) ((n - 1 + q) / q) 0 0 eq_refl eq_refl) as P1. rewrite (farr_ext nat ((n - 1 + q) / q) (fun i => phi (i * q)) (fun j => if j <? 0 then PL (j * q) else phi (j * q))) by auto. rewrite P1. cbn [obind].
  pose proof (semi_out_ok q Q ltac:(lia) n 0 eq_refl) as P2. rewrite (row_map T sa SA) in P2. exact P2.
Qed.
End L.
