(** * The operations of cst_sct3 on the parentheses: leaves, previous smaller values, first indices *)
From Coq Require Import NArith ZArith List Bool Arith Lia.
From Verif Require Import Base SpecBits SpecBp SpecRmq AbsVec RankSelect WtBase WtProofs CsaProofs2 Bp BpRmq BpProofs BpRmqProofs4 BpRmqProofs5 BpRmqProofs6 BpRmqProofs7 SpecCst Cst CstProofs CstProofs2 CstProofs3 CstProofs5.
Import ListNotations.
Open Scope nat_scope.

Section N.
Variable g : padding.
Variables B deg : nat.
Hypothesis HB : B mod 8 = 0.
Hypothesis HB0 : 0 < B.
Hypothesis Hd : 2 <= deg.
Variable v : list N.
Local Notation n := (length v).
Local Notation av := (av v).
Local Notation lt := (ilt true v).
Local Notation pos := (spos lt).
Local Notation d := (depth lt).
Local Notation zi := (zi v).
Local Notation ns := (ns v).
Local Notation cl := (cl v).
Hypothesis N0 : 0 < n.
Hypothesis A0 : av 0 = 0%N.
Variable bp : list bool.
Variable t : bps.
Variable fc : list bool.
Variable nodes : nat.
Variable sa : list nat.
Hypothesis BITS : bits true v bp n.
Hypothesis T : bp_make B deg bp = Some t.
Hypothesis FL : length fc = n.
Hypothesis FB : forall k, k < n -> nth (zi k) fc false = firstb v k.
Local Notation c := (mkcst bp t fc nodes (cnt0 v n) sa v).
Local Notation is_pe := (is_pe v).
Local Notation first := (first v).
Local Notation is_ps := (is_ps v).
Local Notation inner := (inner v).
Local Notation psn := (psn v).
Local Notation fl := (fl v).

Lemma k_bsize : bsize c = 2 * n.
Proof. unfold bsize. cbn [c_bp]. apply (bp_len v bp BITS). Qed.
Lemma k_csize : csize c = n.
Proof. unfold csize. rewrite k_bsize. rewrite Nat.mul_comm. apply Nat.div_mul. discriminate. Qed.
Lemma k_sel : forall k, k < n -> bsel c (k + 1) = Some (pos k).
Proof. intros. apply (r_sel true v bp BITS). auto. Qed.
Lemma k_close : forall k, k < n -> fclose g B deg c (pos k) = Some (cl k).
Proof. intros. apply (t_close g B deg HB HB0 Hd bp t T), (mt v A0 bp BITS). auto. Qed.
Lemma k_open : forall k, k < n -> fopen g B deg c (cl k) = Some (pos k).
Proof. intros. apply (t_open g B deg HB HB0 Hd bp t T), (mt v A0 bp BITS). auto. Qed.
Lemma k_rpos : forall k, k < n -> brank c (pos k) = Some (k + 1).
Proof. intros. apply (r_rank true v bp BITS). auto. Qed.
Lemma k_rcl : forall k, k < n -> brank c (cl k) = Some (ns k).
Proof. intros. apply (rank_cl v A0 bp BITS). auto. Qed.
Lemma k_idx : forall k, k < n -> idx c (pos k) = Some k.
Proof. intros. unfold idx. rewrite k_rpos by auto. cbn [obind]. rewrite csub_le by lia. f_equal. lia. Qed.
Lemma k_nsv : forall k, k < n -> nsv g B deg c (pos k) = Some (ns k).
Proof. intros. unfold nsv. rewrite k_close by auto. cbn [obind]. apply k_rcl. auto. Qed.
Lemma k_encl : forall p k, k < n -> is_pe p k -> encl_ g B deg c (pos k) = Some (pos p).
Proof.
  intros p k K P. apply (t_enclose g B deg HB HB0 Hd bp t T).
  - rewrite (bp_len v bp BITS). pose proof (cl_lt v A0 bp BITS k K). lia.
  - apply (r_open true v bp BITS g k K).
  - apply (encl_pe v A0 bp BITS); auto.
Qed.
Lemma k_bpos : forall k, k < n -> t_get (c_bp c) (pos k) = Some true.
Proof. intros. apply (bit_pos v A0 bp BITS). auto. Qed.
Lemma k_bcl : forall k, k < n -> t_get (c_bp c) (cl k) = Some false.
Proof. intros. apply (bit_cl v A0 bp BITS). auto. Qed.
Lemma k_fc : forall k, k < n -> t_get (c_fc c) (zi k) = Some (firstb v k).
Proof. intros k K. cbn [c_fc]. rewrite t_get_some by (rewrite FL; apply (zi_lt v A0); auto). unfold t_bit. rewrite FB; auto. Qed.
Lemma k_czi : forall k, k < n -> csub (cl k) (ns k) = Some (zi k).
Proof. intros k K. rewrite csub_le; rewrite (cl_zi v A0 k K); [f_equal|]; lia. Qed.
(** the position of the opening parenthesis of q, the end for q = n *)
Definition np (q : nat) : nat := if q <? n then pos q else 2 * n.
Lemma np_lt : forall q, q < n -> np q = pos q.
Proof. intros q H. unfold np. rewrite (proj2 (Nat.ltb_lt _ _) H). auto. Qed.
Lemma np_n : np n = 2 * n.
Proof. unfold np. rewrite Nat.ltb_irrefl. auto. Qed.
Definition nd (i j : nat) : node := mknd i j (pos i) (cl i) (np (j + 1)).
Lemma k_jp1 : forall j, j < n -> jp1_of c j = Some (np (j + 1)).
Proof.
  intros j J. unfold jp1_of. rewrite k_csize, k_bsize, csub_le by lia. cbn [obind]. destruct (Nat.eqb_spec j (n - 1)) as [->|NE].
  - replace (n - 1 + 1) with n by lia. rewrite np_n. auto.
  - rewrite np_lt by lia. replace (j + 2) with (j + 1 + 1) by lia. apply k_sel. lia.
Qed.
Lemma root_ok : root c = Some (nd 0 (n - 1)).
Proof.
  unfold root. rewrite k_csize, k_bsize, !csub_le by lia. cbn [obind]. unfold nd. rewrite (pos0 v), (cl_root v A0 bp BITS N0). replace (n - 1 + 1) with n by lia. rewrite np_n. auto.
Qed.
Lemma mknode_ok : forall i j, i < n -> j < n -> mknode g B deg c i j = Some (nd i j).
Proof.
  intros i j I J. unfold mknode. rewrite k_sel by auto. cbn [obind]. pose proof (k_jp1 j J) as H. unfold jp1_of in H. destruct (csub (csize c) 1) as [s1|]; [|discriminate]. cbn [obind] in *. rewrite H. cbn [obind]. rewrite k_close by auto. reflexivity.
Qed.
Lemma pos_lt : forall k k', k < k' < n -> pos k < pos k'.
Proof.
  intros k k' L. unfold spos. pose proof (mono_d v A0 k k' ltac:(lia)) as M. pose proof (d_le v k). pose proof (d_le v k'). lia.
Qed.
Lemma pos_inj : forall k k', k < n -> k' < n -> pos k = pos k' -> k = k'.
Proof. intros k k' K K' E. destruct (Nat.lt_trichotomy k k') as [L|[L|L]]; auto; [pose proof (pos_lt k k' ltac:(lia))|pose proof (pos_lt k' k ltac:(lia))]; lia. Qed.
Lemma select_leaf_ok : forall i, i < n -> select_leaf g B deg c (i + 1) = Some (nd i i).
Proof.
  intros i I. unfold select_leaf. rewrite k_sel by auto. cbn [obind]. rewrite k_csize, k_bsize.
  assert (J : (if i + 1 =? n then Some (2 * n) else let* b := t_get (c_bp c) (pos i + 1) in if b then Some (pos i + 1) else bsel c (i + 1 + 1)) = Some (np (i + 1))).
  { destruct (Nat.eqb_spec (i + 1) n) as [->|NE]; [rewrite np_n; auto|]. rewrite np_lt by lia. pose proof (pos_lt i (i + 1) ltac:(lia)) as PL. pose proof (cl_lt v A0 bp BITS (i + 1) ltac:(lia)) as CL.
    cbn [c_bp]. rewrite t_get_some by (rewrite (bp_len v bp BITS); lia). cbn [obind]. destruct (t_bit bp (pos i + 1)) eqn:E; [|apply k_sel; lia].
    f_equal. apply (r_ones true v bp BITS) in E; [|rewrite (bp_len v bp BITS); lia]. destruct E as (j & Jn & E). rewrite E. f_equal.
    destruct (Nat.lt_trichotomy j (i + 1)) as [L|[L|L]]; [|lia|pose proof (pos_lt (i + 1) j ltac:(lia)); lia].
    destruct (Nat.eq_dec j i) as [->|]; [lia|]. pose proof (pos_lt j i ltac:(lia)). lia. }
  rewrite J. cbn [obind]. rewrite csub_le by lia. replace (i + 1 - 1) with i by lia. cbn [obind]. rewrite k_close by auto. reflexivity.
Qed.

(** ** the previous strictly smaller value *)
Lemma psv_up_ok : forall p k, k < n -> is_pe p k -> psv_up g B deg c (pos k) = Some (p, pos p, cl p).
Proof. intros p k K P. unfold psv_up. rewrite (k_encl p k K P). cbn [obind]. assert (p < n) by (destruct P; lia). rewrite k_close by auto. cbn [obind]. rewrite k_idx by auto. reflexivity. Qed.
(** the parenthesis behind a closing one *)
Lemma behind : forall p k, k < n -> is_pe p k -> (ns k < n /\ (av p <= av (ns k))%N /\ pos (ns k) = cl k + 1 /\ t_get (c_bp c) (cl k + 1) = Some true) \/
  ((ns k < n -> (av (ns k) < av p)%N) /\ ns p = ns k /\ cl p = cl k + 1 /\ t_get (c_bp c) (cl k + 1) = Some false).
Proof.
  intros p k K P. assert (PN : p < n) by (destruct P; lia). destruct (Nat.lt_ge_cases (ns k) n) as [L|L]; [destruct (N.le_gt_cases (av p) (av (ns k))) as [M|M]|].
  - left. pose proof (next_open v A0 bp BITS p k K P L M) as E. rewrite Nat.add_1_r, <- E. repeat split; auto. apply k_bpos. auto.
  - right. destruct (ns_pe v A0 bp BITS p k K P (fun _ => M)) as (E1 & E2 & _). rewrite Nat.add_1_r, <- E2. repeat split; auto. apply k_bcl. auto.
  - right. destruct (ns_pe v A0 bp BITS p k K P ltac:(intros; lia)) as (E1 & E2 & _). rewrite Nat.add_1_r, <- E2. repeat split; auto; [lia|]. apply k_bcl. auto.
Qed.
Lemma psv_end_ok : forall p f, f < n -> is_pe p f -> psv_end g B deg c (cl f) = Some (p, pos p, cl p).
Proof.
  intros p f K P. assert (PN : p < n) by (destruct P; lia). unfold psv_end. destruct (behind p f K P) as [(L & M & E & Bt)|(M & E1 & E2 & Bt)]; rewrite Bt; cbn [obind].
  - rewrite k_open by auto. cbn [obind]. apply psv_up_ok; auto.
  - rewrite <- E2, k_open by auto. cbn [obind]. rewrite k_idx by auto. reflexivity.
Qed.
Lemma psv_ok : forall k, k < n -> exists x, psv g B deg c (pos k) (cl k) = Some (x, pos x, cl x) /\ x < n /\ psn x k.
Proof.
  intros k K. unfold CstProofs5.psn, psv. rewrite k_bsize. cbn [c_sigma]. destruct (Nat.leb_spec (2 * n) (cl k + cnt0 v n)) as [Z|Z].
  { apply (zero_cl v A0 bp BITS) in Z; auto. rewrite csub_le by lia. cbn [obind]. exists 0. rewrite (pos0 v), (cl_root v A0 bp BITS N0). auto. }
  assert (AK : av k <> 0%N) by (intros E; apply (zero_cl v A0 bp BITS) in E; auto; lia).
  assert (K0 : 0 < k) by (destruct k; [congruence|lia]).
  destruct (pe_ex v A0 k K0) as (p & P). assert (PN : p < n) by (destruct P; lia). destruct (behind p k K P) as [(L & M & E & Bt)|(M & E1 & E2 & Bt)]; rewrite Bt; cbn [obind].
  { exists p. split; [apply psv_up_ok; auto|]. split; auto. right. destruct (ns_spec v k K) as (S1 & S2 & S3). destruct P as (P1 & P2 & P3). split; auto. split; [specialize (S3 L); lia|]. intros y Y. apply N.lt_le_incl, P3. auto. }
  rewrite k_rcl by auto. cbn [obind]. rewrite k_czi by auto. cbn [obind].
  destruct (run_first v A0 bp BITS k k (le_n k) K) as (f & F1 & F2 & F3 & F4 & F5 & F6 & F7). assert (FN : f < n) by lia.
  assert (FF : f <> 0) by (intros ->; congruence). destruct (pe_ex v A0 f ltac:(lia)) as (q & Q). assert (QN : q < n) by (destruct Q; lia).
  assert (EN : psv_end g B deg c (cl f) = Some (q, pos q, cl q)) by (apply psv_end_ok; auto).
  pose proof (run_cl v A0 bp BITS k f K FN F4 F5) as CF. pose proof (zi_lt v A0 f FN) as ZF.
  assert (BF : nth (zi f) fc false = true) by (rewrite FB by auto; apply (firstb_ok v A0); auto).
  assert (BZ : forall z, zi k <= z < zi f -> nth z fc false = false).
  { intros z HZ. destruct (F7 z HZ) as (y & Y1 & Y2 & Y3). rewrite <- Y2, FB by auto. destruct (firstb v y) eqn:FY; auto. apply (firstb_ok v A0) in FY. contradiction. }
  exists q. split; [|split; auto; right].
  2: { destruct Q as (Q1 & Q2 & Q3). split; [lia|]. specialize (F2 q (conj Q1 (conj Q2 Q3))). split; [lia|]. intros y Y. destruct (Nat.lt_ge_cases y f) as [L|L]; [specialize (Q3 y ltac:(lia)); lia|apply F6; lia]. }
  destruct (div64 (zi k)) as (DE & DM). destruct (fword_some g c (zi k / 64)) as (w & W1 & W2 & W3); [cbn [c_fc]; rewrite FL; lia|]. cbn [c_fc] in W3. rewrite FL in W3.
  rewrite W1. cbn [obind]. set (p6 := zi k / 64) in *. set (off := zi k mod 64) in *. destruct (anyb (skipn off w)) eqn:AN.
  - destruct (lo_ok _ AN) as (H1 & H2 & H3). rewrite skipn_length, W2 in H1. rewrite nth_skipn in H2. set (lo := lo_of (skipn off w)) in *.
    assert (LE : zi k + lo = zi f).
    { destruct (Nat.lt_trichotomy (zi k + lo) (zi f)) as [L|[L|L]]; [|auto|].
      - rewrite W3 in H2 by lia. rewrite BZ in H2 by lia. discriminate.
      - specialize (H3 (zi f - zi k) ltac:(lia)). rewrite nth_skipn, W3 in H3 by lia. replace (64 * p6 + (off + (zi f - zi k))) with (zi f) in H3 by lia. congruence. }
    replace (cl k + lo) with (cl f) by lia. assert (B0 : (if cl k =? cl f then t_get (c_bp c) (cl f + 1) else Some false) = Some false).
    { destruct (Nat.eqb_spec (cl k) (cl f)) as [EE|]; auto. rewrite <- EE. exact Bt. }
    rewrite B0. cbn [obind]. exact EN.
  - assert (PZ : forall q, zi k <= q < 64 * (p6 + 1) -> nth q fc false = false).
    { intros z HZ. pose proof (anyb_false _ AN (z - zi k)) as H3. destruct (Nat.lt_ge_cases z n) as [L2|L2]; [|apply nth_overflow; lia].
      rewrite nth_skipn, W3 in H3 by lia. replace (64 * p6 + (off + (z - zi k))) with z in H3 by lia. exact H3. }
    assert (ZK : zi k < zi f). { destruct (Nat.lt_ge_cases (zi k) (zi f)); auto. rewrite PZ in BF by lia. discriminate. }
    rewrite (psv_scan_ok g c (zi k) (zi f)); auto; [|cbn [c_fc]; lia|lia]. cbn [obind]. replace (cl k + (zi f - zi k)) with (cl f) by lia. exact EN.
Qed.

(** ** l-indices *)
Lemma inside_ge : forall i j, lcp_interval v i j -> forall k, i < k <= j -> (av i <= av k)%N.
Proof.
  intros i j H k K. destruct (node_inner v i j H ltac:(lia)) as (l & H1 & H2 & H3 & H4 & H5). specialize (H2 k K). destruct H4 as [->|H4]; [rewrite A0; lia|lia].
Qed.
Lemma ns_ge : forall i j, lcp_interval v i j -> j + 1 <= ns i.
Proof.
  intros i j H. pose proof (node_lt _ _ _ H) as L. destruct (ns_spec v i ltac:(lia)) as (S1 & S2 & S3). destruct (Nat.le_gt_cases (j + 1) (ns i)); auto.
  specialize (S3 ltac:(lia)). pose proof (inside_ge i j H (ns i) ltac:(lia)). lia.
Qed.
(** the comparison of the two positions decides whether the node is a last child *)
Lemma jp1_case : forall i j, lcp_interval v i j ->
  (j + 1 < n /\ (av i <= av (j + 1))%N /\ j + 1 < ns i /\ np (j + 1) = pos (j + 1) /\ pos (j + 1) < cl i) \/
  ((j + 1 = n \/ (av (j + 1) < av i)%N) /\ ns i = j + 1 /\ cl i < np (j + 1)).
Proof.
  intros i j H. pose proof (node_lt _ _ _ H) as L. assert (I : i < n) by lia. destruct (ns_spec v i I) as (S1 & S2 & S3). pose proof (ns_ge i j H) as G. pose proof (d_le v i) as DI.
  destruct (Nat.eq_dec (ns i) (j + 1)) as [E|E].
  - right. split; [destruct (Nat.eq_dec (j + 1) n); auto; right; rewrite <- E; apply S3; lia|]. split; auto. destruct (Nat.eq_dec (j + 1) n) as [E2|E2].
    + rewrite E2, np_n. apply (cl_lt v A0 bp BITS i I).
    + rewrite np_lt by lia. unfold spos. pose proof (d_pop v A0 i I ltac:(lia)) as DP. rewrite E in DP. unfold CstProofs.cl. rewrite E. lia.
  - left. assert (AV : (av i <= av (j + 1))%N) by (apply S2; lia). split; [lia|]. split; auto. split; [lia|]. rewrite np_lt by lia. split; auto.
    pose proof (depth_spec lt (ilt_trans true v) i (j + 1) ltac:(lia)) as (_ & DS). specialize (DS ltac:(intros; apply lt_f, S2; lia) (j + 1) ltac:(lia)). unfold spos, CstProofs.cl. lia.
Qed.
Lemma l_first : forall i j l, inner i j l -> exists k1, i < k1 <= j /\ av k1 = l /\ (forall k, i < k < k1 -> (l < av k)%N) /\ ns k1 = j + 1 /\ is_pe i k1 /\ first_close (nd i j) = Some (cl k1).
Proof.
  intros i j l H. pose proof H as (H1 & H2 & (k0 & K0 & E0) & H4 & H5). destruct (next_border v l i j ltac:(lia)) as (k1 & B1 & B2 & B3).
  assert (K1J : k1 <= j). { destruct (Nat.le_gt_cases k1 j); auto. exfalso. apply (B3 k0); auto. lia. }
  assert (E1 : av k1 = l) by (destruct B2; auto; lia).
  assert (GT : forall k, i < k < k1 -> (l < av k)%N). { intros k K. specialize (H2 k ltac:(lia)). specialize (B3 k K). lia. }
  assert (NS : ns k1 = j + 1). { apply ns_uniq; [lia|intros y Y; rewrite E1; apply H2; lia|]. intros L. rewrite E1. destruct H5; [lia|auto]. }
  assert (P : is_pe i k1). { split; [lia|]. rewrite E1. split; auto. destruct H4 as [->|H4]; [rewrite A0|]; lia. }
  exists k1. split; [lia|]. split; auto. split; auto. split; auto. split; auto.
  assert (K1N : k1 < n) by lia. unfold first_close, nd. cbn [n_jp1 n_cipos]. destruct (jp1_case i j (inner_node _ _ _ _ H)) as [(C1 & C2 & C3 & C4 & C5)|(C1 & C2 & C3)].
  - rewrite C4. rewrite (proj2 (Nat.ltb_lt _ _) C5). pose proof (next_open v A0 bp BITS i k1 K1N P) as NO. rewrite NS in NO. rewrite NO by auto. rewrite csub_le by lia. f_equal. lia.
  - destruct (Nat.ltb_spec (np (j + 1)) (cl i)); [lia|]. destruct (ns_pe v A0 bp BITS i k1 K1N P) as (E2 & E3 & _). { rewrite NS. intros L. destruct C1; [lia|auto]. } rewrite E3, csub_le by lia. f_equal. lia.
Qed.
Lemma l_chain : forall i j l k1, inner i j l -> i < k1 <= j -> av k1 = l -> (forall k, i < k < k1 -> (l < av k)%N) -> ns k1 = j + 1 -> forall m, dspec c (zi k1) m ->
  forall s, s < m -> exists x, i < x <= j /\ av x = l /\ ns x = j + 1 /\ zi x + s = zi k1 /\ length (fl l i x) = S s /\ last (fl l i x) 0 = x /\ (forall r, r <= s -> zi (nth r (fl l i x) 0) + r = zi k1).
Proof.
  intros i j l k1 H K1 E1 GT NS m (D1 & D2 & D3). pose proof H as (H1 & H2 & _ & H4 & H5). cbn [c_fc] in *. induction s; intros SM.
  - exists k1. rewrite (fl_one v l i k1) by (auto; try lia; intros k K; specialize (GT k K); lia). cbn [length last nth]. repeat split; auto; try lia. intros r R. replace r with 0 by lia. cbn [nth]. lia.
  - destruct (IHs ltac:(lia)) as (x & X1 & X2 & X3 & X4 & X5 & X6 & X7). assert (XN : x < n) by lia. pose proof (zi_lt v A0 k1 ltac:(lia)) as ZL.
    destruct (zi_surj v A0 bp BITS (zi k1 - S s) ltac:(lia)) as (y & Y1 & Y2). specialize (D2 (zi y) ltac:(lia)). rewrite FB in D2 by auto.
    destruct (first_dec v A0 bp BITS y) as [F|(p & P & PE)]. { apply (firstb_ok v A0) in F. congruence. }
    destruct (eq_pe v A0 bp BITS p y Y1 P PE) as (Q1 & Q2 & Q3). assert (p < n) by (destruct P; lia). assert (p = x) by (apply (zi_inj v A0 bp BITS); auto; lia). subst p.
    destruct P as (P1 & P2 & P3). destruct (ns_spec v y Y1) as (S1 & _ & _). exists y. assert (F1 : fl l x y = [y]). { apply fl_one; [auto|congruence|]. intros k K. specialize (P3 k K). lia. }
    rewrite (fl_app v l i x y), F1 by lia. repeat split; try lia; try congruence.
    + rewrite app_length, X5. cbn [length]. lia.
    + apply last_last.
    + intros r R. destruct (Nat.eq_dec r (S s)) as [->|NE]; [rewrite app_nth2, X5, Nat.sub_diag by lia; cbn [nth]; lia|rewrite app_nth1 by lia; apply X7; lia].
Qed.
Lemma l_all : forall i j l, inner i j l -> exists k1 m, first_close (nd i j) = Some (cl k1) /\ ns k1 = j + 1 /\ is_pe i k1 /\ k1 = nth 0 (fl l i j) 0 /\ dspec c (zi k1) m /\ deg_of g c (zi k1) = Some (m + 1) /\
  length (fl l i j) = m /\ forall r, r < m -> let x := nth r (fl l i j) 0 in i < x <= j /\ av x = l /\ ns x = j + 1 /\ zi x + r = zi k1.
Proof.
  intros i j l H. pose proof H as (H1 & H2 & _ & H4 & H5). destruct (l_first i j l H) as (k1 & K1 & E1 & GT & NS & P & FC). assert (K1N : k1 < n) by lia.
  destruct (deg_of_ok g c (zi k1)) as (m & DO & DS). { cbn [c_fc]. rewrite FL. apply (zi_lt v A0). auto. }
  exists k1, m. pose proof DS as (D1 & D2 & D3). cbn [c_fc] in *. destruct (l_chain i j l k1 H K1 E1 GT NS m DS (m - 1) ltac:(lia)) as (x & X1 & X2 & X3 & X4 & X5 & X6 & X7). assert (XN : x < n) by lia.
  assert (NO : fl l x j = []).
  { destruct (next_border v l x j ltac:(lia)) as (y & Y1 & Y2 & Y3). destruct (Nat.le_gt_cases y j) as [L|L]; [exfalso|apply fl_nil; intros k K; apply Y3; lia].
    assert (YE : av y = l) by (destruct Y2; auto; lia). assert (YN : y < n) by lia. assert (PY : is_pe x y). { split; [lia|]. split; [lia|]. intros k K. rewrite YE. specialize (H2 k ltac:(lia)). specialize (Y3 k K). lia. }
    destruct (eq_pe v A0 bp BITS x y YN PY ltac:(congruence)) as (Q1 & Q2 & Q3). destruct D3 as [D3|D3]; [lia|]. replace (zi k1 - m) with (zi y) in D3 by lia. rewrite FB in D3 by auto. apply (firstb_ok v A0) in D3. specialize (D3 x PY). lia. }
  assert (FX : fl l i j = fl l i x). { rewrite (fl_app v l i x j), NO, app_nil_r by lia. auto. }
  rewrite FX. split; auto. split; auto. split; auto. split.
  { assert (ZE : zi (nth 0 (fl l i x) 0) = zi k1) by (specialize (X7 0 ltac:(lia)); lia). assert (IN : In (nth 0 (fl l i x) 0) (fl l i x)) by (apply nth_In; lia). apply fl_In in IN. symmetry. apply (zi_inj v A0 bp BITS); auto. lia. }
  split; auto. split; auto. split; [lia|]. intros r R. cbn zeta. assert (IN : In (nth r (fl l i x) 0) (fl l i x)) by (apply nth_In; lia). apply fl_In in IN. set (y := nth r (fl l i x) 0) in *.
  split; [lia|]. split; [tauto|]. split; [|apply X7; lia].
  apply ns_uniq; [lia|intros q Q; rewrite (proj2 IN); apply H2; lia|]. intros L. rewrite (proj2 IN). destruct H5; [lia|auto].
Qed.
Lemma leaf_nd : forall i j, is_leaf (nd i j) = (i =? j).
Proof. reflexivity. Qed.
Lemma degree_leaf : forall i, degree g c (nd i i) = Some 0.
Proof. intros. unfold degree. rewrite leaf_nd, Nat.eqb_refl. auto. Qed.
Lemma degree_ok : forall i j l, inner i j l -> degree g c (nd i j) = Some (length (fl l i j) + 1).
Proof.
  intros i j l H. destruct (l_all i j l H) as (k1 & m & FC & NS & P & KE & DS & DO & LM & _). pose proof H as (H1 & _). assert (K1N : k1 < n). { assert (In (nth 0 (fl l i j) 0) (fl l i j)) as IN by (apply nth_In; destruct DS; lia). apply fl_In in IN. lia. }
  unfold degree. rewrite leaf_nd. destruct (Nat.eqb_spec i j); [lia|]. rewrite FC. cbn [obind]. rewrite k_rcl by auto. cbn [obind]. rewrite k_czi by auto. cbn [obind]. unfold deg_of in DO. cbn zeta in DO. rewrite LM. exact DO.
Qed.
Lemma l_nth : forall i j l r, inner i j l -> r < length (fl l i j) -> i < nth r (fl l i j) 0 <= j.
Proof. intros i j l r H R. assert (IN : In (nth r (fl l i j) 0) (fl l i j)) by (apply nth_In; lia). apply fl_In in IN. lia. Qed.
(** select_l_index returns the i-th border, j+1 behind the last one *)
Lemma sel_l_ok : forall i j l q, inner i j l -> 1 <= q -> exists ck, select_l_index g B deg c (nd i j) q =
  Some (nth (q - 1) (fl l i j) (j + 1), np (nth (q - 1) (fl l i j) (j + 1)), ck) /\ (q <= length (fl l i j) -> ck = cl (nth (q - 1) (fl l i j) (j + 1))).
Proof.
  intros i j l q H Q. pose proof H as (H1 & _). pose proof (degree_ok i j l H) as DG. destruct (l_all i j l H) as (k1 & m & FC & NS & P & KE & DS & DO & LM & X).
  assert (M0 : 0 < m) by (destruct DS; lia). assert (K1 : i < k1 <= j) by (rewrite KE; apply l_nth; auto; lia). assert (K1N : k1 < n) by lia.
  unfold select_l_index. rewrite FC. cbn [obind]. destruct (Nat.eqb_spec q 1) as [->|NE].
  { rewrite k_open by auto. cbn [obind]. rewrite k_idx by auto. cbn [obind]. replace (1 - 1) with 0 by lia. rewrite (nth_indep _ (j + 1) 0) by lia. rewrite <- KE, np_lt by lia. eexists. split; [reflexivity|auto]. }
  rewrite k_rcl by auto. cbn [obind]. rewrite k_czi by auto. cbn [obind]. rewrite DG, LM. destruct (Nat.le_gt_cases q m) as [L|L].
  - destruct DS as (D1 & _). rewrite (proj2 (Nat.leb_le q (zi k1 + 1))) by lia. cbn [obind andb]. rewrite (proj2 (Nat.ltb_lt q (m + 1))) by lia.
    rewrite (nth_indep _ (j + 1) 0) by lia. destruct (X (q - 1) ltac:(lia)) as (X1 & X2 & X3 & X4). set (x := nth (q - 1) (fl l i j) 0) in *. assert (XN : x < n) by lia.
    rewrite (csub_some (cl k1) (q - 1) (cl x)) by (rewrite (cl_zi v A0 k1), (cl_zi v A0 x) by auto; lia). cbn [obind]. rewrite k_open by auto. cbn [obind]. rewrite k_idx by auto. cbn [obind]. rewrite np_lt by auto. eexists. split; [reflexivity|auto].
  - rewrite nth_overflow by lia. assert (FF : exists dd, (if q <=? zi k1 + 1 then Some (m + 1) else Some 0) = Some dd /\ (q <=? zi k1 + 1) && (q <? dd) = false).
    { destruct (q <=? zi k1 + 1) eqn:QE; [exists (m + 1)|exists 0]; split; auto. cbn [andb]. apply Nat.ltb_ge. lia. }
    destruct FF as (dd & -> & FF). cbn [obind]. rewrite FF. unfold nd. cbn [n_jp1 n_j]. rewrite k_bsize. destruct (Nat.lt_ge_cases (j + 1) n) as [JL|JL].
    + rewrite np_lt by lia. pose proof (cl_lt v A0 bp BITS (j + 1) JL). rewrite (proj2 (Nat.ltb_lt _ _)) by lia. rewrite k_close by auto. cbn [obind]. eexists. split; [reflexivity|lia].
    + replace (j + 1) with n by lia. rewrite np_n, Nat.ltb_irrefl. cbn [obind]. eexists. split; [reflexivity|lia].
Qed.
Lemma root_uniq_l : forall i j l q, inner i j l -> length (fl l i j) < q -> nth (q - 1) (fl l i j) (j + 1) = j + 1.
Proof. intros. apply nth_overflow. lia. Qed.
Lemma select_child_ok : forall i j l q, inner i j l -> 1 <= q <= length (fl l i j) + 1 ->
  select_child g B deg c (nd i j) q = Some (nd (nth (q - 1) (borders v i j l) 0) (nth q (borders v i j l) 0 - 1)).
Proof.
  intros i j l q H Q. pose proof H as (H1 & _). unfold select_child. rewrite leaf_nd. destruct (Nat.eqb_spec i j); [lia|].
  assert (BO : forall r, r <= length (fl l i j) -> nth (S r) (borders v i j l) 0 = nth r (fl l i j) (j + 1)).
  { intros r R. unfold borders. cbn [nth]. fold (fl l i j). destruct (Nat.lt_ge_cases r (length (fl l i j))) as [L|L].
    - rewrite app_nth1 by auto. apply nth_indep. auto.
    - rewrite app_nth2 by auto. replace (r - length (fl l i j)) with 0 by lia. cbn [nth]. rewrite nth_overflow by auto. auto. }
  assert (RNG : forall r, i < nth r (fl l i j) (j + 1) <= j + 1). { intros r. destruct (Nat.lt_ge_cases r (length (fl l i j))) as [L|L]; [rewrite (nth_indep _ (j + 1) 0) by auto; pose proof (l_nth i j l r H L); lia|rewrite nth_overflow by auto; lia]. }
  destruct (Nat.eqb_spec q 1) as [->|NE].
  - destruct (sel_l_ok i j l 1 H ltac:(lia)) as (ck & E & _). rewrite E. cbn [obind]. change (1 - 1) with 0. pose proof (RNG 0) as R0. rewrite csub_le by lia. cbn [obind]. rewrite (BO 0) by lia. cbn [borders nth]. unfold nd at 4. cbn [n_i n_ipos n_cipos nd].
    replace (nth 0 (fl l i j) (j + 1) - 1 + 1) with (nth 0 (fl l i j) (j + 1)) by lia. reflexivity.
  - rewrite csub_le by lia. cbn [obind]. destruct (sel_l_ok i j l (q - 1) H ltac:(lia)) as (ck & E & CE). rewrite E. cbn [obind]. cbn [nd n_j].
    pose proof (l_nth i j l (q - 1 - 1) H ltac:(lia)) as LN. rewrite (nth_indep _ (j + 1) 0) in * by lia. destruct (Nat.eqb_spec (nth (q - 1 - 1) (fl l i j) 0) (j + 1)) as [EE|_]; [lia|].
    destruct (sel_l_ok i j l q H ltac:(lia)) as (ck2 & E2 & _). rewrite E2. cbn [obind]. pose proof (RNG (q - 1)) as RR. rewrite csub_le by lia. cbn [obind]. rewrite CE by lia.
    assert (G1 : nth (q - 1) (borders v i j l) 0 = nth (q - 1 - 1) (fl l i j) 0). { replace (q - 1) with (S (q - 1 - 1)) at 1 by lia. rewrite BO by lia. apply nth_indep. lia. }
    assert (G2 : nth q (borders v i j l) 0 = nth (q - 1) (fl l i j) (j + 1)). { replace q with (S (q - 1)) at 1 by lia. apply BO. lia. }
    rewrite G1, G2.
    unfold nd. replace (nth (q - 1) (fl l i j) (j + 1) - 1 + 1) with (nth (q - 1) (fl l i j) (j + 1)) by lia. rewrite np_lt by lia. reflexivity.
Qed.
Lemma select_child_none : forall i j l q, inner i j l -> length (fl l i j) + 1 < q -> select_child g B deg c (nd i j) q = Some (nd 0 (n - 1)).
Proof.
  intros i j l q H Q. pose proof H as (H1 & _). unfold select_child. rewrite leaf_nd. destruct (Nat.eqb_spec i j); [lia|]. destruct (Nat.eqb_spec q 1); [lia|]. rewrite csub_le by lia. cbn [obind].
  destruct (sel_l_ok i j l (q - 1) H ltac:(lia)) as (ck & E & CE). rewrite E. cbn [obind]. rewrite nth_overflow by lia. cbn [nd n_j]. rewrite Nat.eqb_refl. apply root_ok.
Qed.

(** ** parent *)
Lemma parent_root : lcp_interval v 0 (n - 1) -> parent g B deg c (nd 0 (n - 1)) = Some (nd 0 (n - 1)).
Proof.
  intros H. unfold parent. destruct (jp1_case 0 (n - 1) H) as [(C1 & _)|(C1 & C2 & C3)]; [lia|]. cbn [nd n_jp1 n_cipos n_ipos n_j]. destruct (Nat.ltb_spec (np (n - 1 + 1)) (cl 0)); [lia|].
  destruct (psv_ok 0 N0) as (x & E & XN & XP). rewrite E. cbn [obind]. assert (x = 0) by (destruct XP as [(_ & ->)|(X1 & _)]; lia). subst x. reflexivity.
Qed.
Lemma parent_ok : forall i j, lcp_interval v i j -> (i, j) <> (0, n - 1) -> exists i' j', parent g B deg c (nd i j) = Some (nd i' j') /\ parent_of v i j i' j'.
Proof.
  intros i j H NR. pose proof (node_lt _ _ _ H) as L. unfold parent. cbn [nd n_jp1 n_cipos n_ipos n_j]. destruct (jp1_case i j H) as [(C1 & C2 & C3 & C4 & C5)|(C1 & C2 & C3)].
  - rewrite C4, (proj2 (Nat.ltb_lt _ _) C5), k_close by auto. cbn [obind]. destruct (psv_ok (j + 1) C1) as (x & E & XN & XP). rewrite E. cbn [obind]. rewrite k_nsv by auto. cbn [obind].
    destruct (ns_spec v (j + 1) C1) as (S1 & S2 & S3). rewrite csub_le by lia. cbn [obind]. rewrite k_jp1 by lia. cbn [obind]. exists x, (ns (j + 1) - 1). split; [reflexivity|].
    destruct (nodeof v (j + 1) x ltac:(lia) XP) as (NO & XM). split; [eapply inner_node; eauto|].
    assert (XI : x <= i). { destruct (Nat.eq_dec i j) as [->|NE]; [lia|]. destruct (node_inner v i j H ltac:(lia)) as (l & H1 & H2 & H3 & H4 & H5). destruct (Nat.le_gt_cases x i); auto. specialize (H2 x ltac:(lia)). destruct H5 as [H5|H5]; [lia|]. destruct XP as [(Z & ->)|(X1 & X2 & X3)]; lia. }
    split; [split; lia|]. split; [intros EE; injection EE; intros; lia|]. intros a b AB (I1 & I2) NE. pose proof (node_lt _ _ _ AB) as LB.
    assert (AB2 : a < b). { destruct (Nat.lt_ge_cases a b); auto. exfalso. apply NE. f_equal; lia. }
    destruct (node_inner v a b AB AB2) as (l2 & IN). destruct (Nat.le_gt_cases (j + 1) b) as [JB|JB]; [eapply around; eauto; lia|]. exfalso. assert (b = j) by lia. subst b.
    assert (AI : a < i). { destruct (Nat.lt_ge_cases a i); auto. exfalso. apply NE. f_equal; lia. }
    destruct IN as (_ & X2 & _ & _ & X5). specialize (X2 i ltac:(lia)). destruct X5; lia.
  - destruct (Nat.ltb_spec (np (j + 1)) (cl i)); [lia|]. assert (I0 : 0 < i). { destruct i; [|lia]. exfalso. destruct C1 as [C1|C1]; [apply NR; f_equal; lia|rewrite A0 in C1; lia]. }
    destruct (psv_ok i ltac:(lia)) as (x & E & XN & XP). rewrite E. cbn [obind]. exists x, j. split; [reflexivity|]. destruct (nodeof v i x ltac:(lia) XP) as (NO & XM). rewrite C2 in *. replace (j + 1 - 1) with j in * by lia.
    split; [eapply inner_node; eauto|]. split; [split; lia|]. split; [intros EE; injection EE; intros; lia|]. intros a b AB (I1 & I2) NE. pose proof (node_lt _ _ _ AB) as LB.
    assert (AB2 : a < b). { destruct (Nat.lt_ge_cases a b); auto. exfalso. apply NE. f_equal; lia. }
    destruct (node_inner v a b AB AB2) as (l2 & IN). destruct (Nat.lt_ge_cases a i) as [AI|AI].
    { pose proof (around v a b l2 i x IN ltac:(lia) XP) as R. rewrite C2 in R. replace (j + 1 - 1) with j in R by lia. exact R. }
    exfalso. assert (a = i) by lia. subst a. assert (BJ : j < b). { destruct (Nat.lt_ge_cases j b); auto. exfalso. apply NE. f_equal; lia. }
    destruct IN as (_ & X2 & _ & X4 & _). specialize (X2 (j + 1) ltac:(lia)). destruct X4, C1; lia.
Qed.
Lemma parent_uniq : forall i j a b x y, parent_of v i j a b -> parent_of v i j x y -> a = x /\ b = y.
Proof.
  intros i j a b x y (P1 & P2 & P3 & P4) (Q1 & Q2 & Q3 & Q4). destruct (P4 x y Q1 Q2 (not_eq_sym Q3)) as (R1 & R2). destruct (Q4 a b P1 P2 (not_eq_sym P3)) as (R3 & R4). lia.
Qed.
(** ** sibling *)
Lemma rank_cm : forall k, k < n -> brank c (cl k - 1) = Some (ns k).
Proof.
  intros k K. pose proof (k_rcl k K) as R. pose proof (k_bcl k K) as Bt. unfold brank, bp_rank in *. cbn [c_bp] in *. pose proof (cl_lt v A0 bp BITS k K) as CL.
  rewrite t_rank_some in * by (rewrite (bp_len v bp BITS); lia). replace (cl k - 1 + 1) with (cl k) by lia. replace (cl k + 1) with (S (cl k)) in R by lia. rewrite rank_of_S in R.
  rewrite t_get_some in Bt by (rewrite (bp_len v bp BITS); lia). injection Bt as Bt. rewrite Bt in R. cbn [b2nat] in R. rewrite <- R. f_equal. lia.
Qed.
Lemma sibling_last : forall i j, lcp_interval v i j -> (forall i' j', parent_of v i j i' j' -> j = j') -> (i, j) <> (0, n - 1) -> sibling g B deg c (nd i j) = Some (nd 0 (n - 1)).
Proof.
  intros i j H LP NR. unfold sibling. cbn [nd n_cipos n_jp1]. destruct (jp1_case i j H) as [(C1 & C2 & C3 & C4 & C5)|(C1 & C2 & C3)].
  - exfalso. destruct (parent_ok i j H NR) as (i' & j' & E & P). pose proof (LP i' j' P). subst j'. unfold parent in E. cbn [nd n_jp1 n_cipos n_ipos n_j] in E. rewrite C4, (proj2 (Nat.ltb_lt _ _) C5), k_close in E by auto. cbn [obind] in E.
    destruct (psv_ok (j + 1) C1) as (x & E2 & XN & XP). rewrite E2 in E. cbn [obind] in E. rewrite k_nsv in E by auto. cbn [obind] in E. destruct (ns_spec v (j + 1) C1) as (S1 & _). rewrite csub_le in E by lia. cbn [obind] in E. rewrite k_jp1 in E by lia. cbn [obind] in E. injection E. intros. lia.
  - rewrite (proj2 (Nat.ltb_lt _ _) C3). apply root_ok.
Qed.
Lemma sibling_ok : forall i j x y, lcp_interval v i j -> (i, j) <> (0, n - 1) -> parent_of v i j x y -> j < y ->
  exists e, sibling g B deg c (nd i j) = Some (nd (j + 1) e) /\ parent_of v (j + 1) e x y /\ lcp_interval v (j + 1) e.
Proof.
  intros i j x y H NR P JY. pose proof (node_lt _ _ _ H) as L. unfold sibling. cbn [nd n_cipos n_jp1 n_j]. destruct (jp1_case i j H) as [(C1 & C2 & C3 & C4 & C5)|(C1 & C2 & C3)].
  2: { exfalso. destruct (parent_ok i j H NR) as (i' & j' & E & P'). destruct (parent_uniq _ _ _ _ _ _ P P') as (-> & ->). unfold parent in E. cbn [nd n_jp1 n_cipos n_ipos n_j] in E. destruct (Nat.ltb_spec (np (j + 1)) (cl i)); [lia|].
       destruct (psv_ok i ltac:(lia)) as (z & E2 & _). rewrite E2 in E. cbn [obind] in E. injection E. intros. lia. }
  rewrite C4. destruct (Nat.ltb_spec (cl i) (pos (j + 1))); [lia|]. rewrite k_close by auto. cbn [obind]. pose proof (cl_lt v A0 bp BITS (j + 1) C1) as CL. rewrite csub_le by lia. cbn [obind].
  assert (PE : exists p, psn p (j + 1) /\ x = p /\ y = ns (j + 1) - 1).
  { destruct (parent_ok i j H NR) as (i' & j' & E & P'). destruct (parent_uniq _ _ _ _ _ _ P P') as (-> & ->). unfold parent in E. cbn [nd n_jp1 n_cipos n_ipos n_j] in E. rewrite C4, (proj2 (Nat.ltb_lt _ _) C5), k_close in E by auto. cbn [obind] in E.
    destruct (psv_ok (j + 1) C1) as (p & E2 & XN & XP). rewrite E2 in E. cbn [obind] in E. rewrite k_nsv in E by auto. cbn [obind] in E. destruct (ns_spec v (j + 1) C1) as (S1 & _). rewrite csub_le in E by lia. cbn [obind] in E. rewrite k_jp1 in E by lia. cbn [obind] in E. exists p. injection E. auto. }
  destruct PE as (p & XP & -> & ->). destruct (nodeof v (j + 1) p ltac:(lia) XP) as (NO & XM). pose proof NO as (N1 & N2 & _). destruct (ns_spec v (j + 1) C1) as (S1 & S2 & S3).
  set (a := j + 1) in *. assert (RC : brank c (cl a - 1) = Some (ns a)) by (apply rank_cm; auto).
  assert (NX : forall e, a < e -> e <= ns a -> (e = ns a \/ av e = av a) -> (forall k, a < k < e -> av k <> av a) -> parent_of v a (e - 1) p (ns a - 1) /\ lcp_interval v a (e - 1)).
  { intros e E1 E2 E3 E4. assert (BDD : bord v p (ns a - 1) (av a) a e); [|split; [eapply bord_parent; eauto|eapply bord_node; eauto]]. split; [lia|]. split; [lia|]. split; auto. split; [destruct E3; [left; lia|auto]|]. intros k K. specialize (E4 k K). specialize (N2 k ltac:(lia)). lia. }
  destruct (next_border v (av a) a (ns a - 1) ltac:(lia)) as (e & E1 & E2 & E3). replace (ns a - 1 + 1) with (ns a) in * by lia.
  assert (SB : forall last, last = false -> (let* z := Some last in Some z) = Some last) by auto. clear SB.
  destruct (Nat.eq_dec e (ns a)) as [->|EN].
  - (* the last child *)
    assert (LT : (let* last := t_get (c_bp c) (cl a - 1) in if last then Some true else let* rk := brank c (cl a - 1) in let* fi := csub (cl a - 1) rk in t_get (c_fc c) fi) = Some true).
    { cbn [c_bp]. rewrite t_get_some by (rewrite (bp_len v bp BITS); lia). cbn [obind]. destruct (t_bit bp (cl a - 1)) eqn:Bt; auto. rewrite RC. cbn [obind]. rewrite (cl_zi v A0 a C1).
      assert (Z1 : 0 < zi a).
      { destruct (Nat.lt_ge_cases 0 (zi a)); auto. exfalso. pose proof (cl_zi v A0 a C1) as CZ. replace (zi a) with 0 in CZ by lia.
        assert (R1 : t_rank bp (cl a - 1 + 1) = Some (ns a)) by exact RC. rewrite t_rank_some in R1 by (rewrite (bp_len v bp BITS); lia). replace (cl a - 1 + 1) with (S (cl a - 1)) in R1 by lia. rewrite rank_of_S, Bt in R1. cbn [b2nat] in R1. injection R1 as R1.
        pose proof (rank_of_le (t_bit bp) (cl a - 1)). lia. }
      rewrite (csub_some _ _ (zi a - 1)) by lia. cbn [obind]. pose proof (zi_lt v A0 a C1) as ZL. destruct (zi_surj v A0 bp BITS (zi a - 1) ltac:(lia)) as (y & Y1 & Y2). rewrite <- Y2, k_fc by auto. f_equal.
      apply (firstb_ok v A0). destruct (first_dec v A0 bp BITS y) as [F|(q & Q & QE)]; auto. exfalso. destruct (eq_pe v A0 bp BITS q y Y1 Q QE) as (R1 & R2 & R3). assert (q < n) by (destruct Q; lia).
      assert (q = a) by (apply (zi_inj v A0 bp BITS); auto; lia). subst q. destruct Q as (Q1 & Q2 & Q3). destruct (ns_spec v y Y1) as (T1 & _ & _). apply (E3 y); [lia|auto]. }
    destruct (t_get (c_bp c) (cl a - 1)) as [lb|]; [|discriminate]. cbn [obind] in *. rewrite LT. cbn [obind]. rewrite k_nsv by auto. cbn [obind]. rewrite csub_le by lia. cbn [obind]. rewrite k_jp1 by lia. cbn [obind].
    exists (ns a - 1). split; [reflexivity|]. apply NX; auto. lia.
  - assert (EE : av e = av a) by (destruct E2; [contradiction|auto]). assert (EL : e < n) by lia. assert (PEE : is_pe a e). { split; [lia|]. split; [lia|]. intros k K. specialize (E3 k K). specialize (N2 k ltac:(lia)). lia. }
    destruct (eq_pe v A0 bp BITS a e EL PEE ltac:(auto)) as (R1 & R2 & R3). assert (CM : cl a - 1 = cl e) by lia. rewrite CM in *. rewrite k_bcl by auto. cbn [obind]. rewrite RC. cbn [obind]. rewrite R1, k_czi by auto. cbn [obind]. rewrite k_fc by auto.
    assert (FE : firstb v e = false). { destruct (firstb v e) eqn:FE; auto. apply (firstb_ok v A0) in FE. specialize (FE a PEE). lia. }
    rewrite FE. cbn [obind]. rewrite k_open by auto. cbn [obind]. rewrite k_rpos by auto. cbn [obind]. rewrite csub_le by lia. cbn [obind]. replace (e + 1 - 2 + 2) with (e + 1) by lia. rewrite k_sel by auto. cbn [obind].
    exists (e - 1). split; [|rewrite <- R1; apply NX; auto; lia]. unfold nd. replace (e - 1 + 1) with e by lia. rewrite np_lt by auto. replace (e + 1 - 2) with (e - 1) by lia. reflexivity.
Qed.
(** ** lowest common ancestor *)
Lemma crmq_ok : forall l r, l <= r < n -> exists m, crmq g B deg c l r = Some m /\ is_rmq true v l r m.
Proof.
  intros l r L. destruct (sct_query_ok true v bp BITS g B deg HB HB0 Hd t T l r L) as (m & E & R). exists m. split; auto. unfold sct_query in E. destruct (Nat.eqb_spec l r) as [->|NE].
  - injection E as <-. unfold crmq. rewrite k_sel by lia. cbn [obind]. rewrite k_close by lia. cbn [obind]. pose proof (cl_lt v A0 bp BITS r ltac:(lia)). rewrite (proj2 (Nat.ltb_lt _ _)) by lia. auto.
  - exact E.
Qed.
Lemma around_min_ok : forall l r, l < r < n -> exists x y, around_min g B deg c (l + 1) r = Some (nd x y) /\ lcp_interval v x y /\ x <= l /\ r <= y /\ forall a b, lcp_interval v a b -> a <= l -> r <= b -> inside x y a b.
Proof.
  intros l r L. unfold around_min. destruct (crmq_ok (l + 1) r ltac:(lia)) as (m & E & R). rewrite E. cbn [obind].
  assert (RM : l + 1 <= m <= r /\ forall k, l + 1 <= k <= r -> (av m <= av k)%N). { destruct R as (R1 & R2 & _). split; [lia|]. intros k K. exact (R2 k K). }
  destruct RM as (M1 & M2). assert (MN : m < n) by lia. rewrite k_sel by auto. cbn [obind]. rewrite k_close by auto. cbn [obind].
  assert (SG : cnt0 v n <= n). { unfold cnt0. generalize (fun x => N.eqb (av x) 0). intros f. assert (F : forall w : list nat, length (filter f w) <= length w) by (induction w as [|z w IH]; cbn [filter length]; auto; destruct (f z); cbn [length]; lia). specialize (F (seq 0 n)). rewrite seq_length in F. exact F. }
  rewrite k_bsize. cbn [c_sigma]. rewrite csub_le by lia. cbn [obind]. pose proof (zero_cl v A0 bp BITS m MN) as ZC.
  assert (TAIL : forall p, psn p m -> lcp_interval v p (ns m - 1) /\ p <= l /\ r <= ns m - 1 /\ forall a b, lcp_interval v a b -> a <= l -> r <= b -> inside p (ns m - 1) a b).
  { intros p XP. destruct (nodeof v m p ltac:(lia) XP) as (NO & XM). destruct (ns_spec v m MN) as (S1 & S2 & S3). split; [eapply inner_node; eauto|]. split.
    - destruct (Nat.le_gt_cases p l); auto. destruct XP as [(Z & ->)|(X1 & X2 & X3)]; [lia|]. specialize (M2 p ltac:(lia)). lia.
    - split; [|intros a b AB AL RB; destruct (node_inner v a b AB ltac:(lia)) as (l2 & IN); eapply around; eauto; lia].
      destruct (Nat.le_gt_cases (ns m) r) as [Q|Q]; [|lia]. specialize (M2 (ns m) ltac:(lia)). specialize (S3 ltac:(lia)). lia. }
  destruct (Nat.leb_spec (2 * n - cnt0 v n) (cl m)) as [Z|Z].
  - assert (ZM : av m = 0%N) by (apply ZC; lia). rewrite root_ok. exists 0, (n - 1). split; auto. pose proof (ns_zero v A0 bp BITS m MN ZM) as NS. specialize (TAIL 0 (or_introl (conj ZM eq_refl))). rewrite NS in TAIL. exact TAIL.
  - rewrite k_nsv by auto. cbn [obind]. destruct (ns_spec v m MN) as (S1 & _). rewrite csub_le by lia. cbn [obind]. destruct (psv_ok m MN) as (p & E2 & XN & XP). rewrite E2. cbn [obind]. rewrite k_csize, csub_le by lia. cbn [obind].
    assert (J : (if ns m - 1 <? n - 1 then bsel c (ns m - 1 + 2) else Some (2 * n)) = Some (np (ns m - 1 + 1))).
    { destruct (Nat.ltb_spec (ns m - 1) (n - 1)) as [Q|Q].
      - rewrite np_lt by lia. replace (ns m - 1 + 2) with (ns m - 1 + 1 + 1) by lia. apply k_sel. lia.
      - replace (ns m - 1 + 1) with n by lia. rewrite np_n. auto. }
    rewrite J. cbn [obind]. exists p, (ns m - 1). split; [reflexivity|]. apply TAIL; auto.
Qed.
Lemma lca_ok : forall i j k l, lcp_interval v i j -> lcp_interval v k l -> exists x y, lca g B deg c (nd i j) (nd k l) = Some (nd x y) /\ lca_of v i j k l x y.
Proof.
  assert (X : forall i j k l, lcp_interval v i j -> lcp_interval v k l -> i <= k -> (i = k -> l <= j) -> exists x y, (if l <=? j then Some (nd i j) else around_min g B deg c (i + 1) l) = Some (nd x y) /\ lca_of v i j k l x y).
  { intros i j k l H H' L1 L2. pose proof (node_lt _ _ _ H) as B1. pose proof (node_lt _ _ _ H') as B2. destruct (Nat.leb_spec l j) as [Q|Q].
    - exists i, j. split; auto. split; auto. split; [split; lia|]. split; [split; lia|]. auto.
    - destruct (around_min_ok i l ltac:(lia)) as (x & y & E & R1 & R2 & R3 & R4). exists x, y. split; auto. split; auto. split; [split; lia|]. split; [split; lia|]. intros a b AB (I1 & I2) (I3 & I4). apply R4; auto. }
  intros i j k l H H'. unfold lca. cbn [nd n_i n_j]. destruct ((k <? i) || ((i =? k) && (j <? l))) eqn:SW; cbn [n_i n_j].
  - destruct (X k l i j H' H) as (x & y & E & R1 & R2 & R3 & R4).
    + apply orb_true_iff in SW. destruct SW as [SW|SW]; [apply Nat.ltb_lt in SW; lia|]. apply andb_true_iff in SW. destruct SW as (SW & _). apply Nat.eqb_eq in SW. lia.
    + intros ->. rewrite Nat.ltb_irrefl, Nat.eqb_refl in SW. cbn in SW. apply Nat.ltb_lt in SW. lia.
    + exists x, y. split; [exact E|]. split; auto.
  - apply orb_false_iff in SW. destruct SW as (S1 & S2). apply Nat.ltb_ge in S1. apply X; auto. intros ->. rewrite Nat.eqb_refl in S2. cbn in S2. apply Nat.ltb_ge in S2. lia.
Qed.
(** ** depth *)
Lemma depth_leaf : forall i, i < n -> length sa = n -> nth i sa 0 <= n -> depth_ g B deg c (nd i i) = Some (N.of_nat (n - nth i sa 0)).
Proof.
  intros i I SL SN. unfold depth_. rewrite leaf_nd, Nat.eqb_refl. cbn [nd n_i c_sa]. rewrite (nth_error_nth' sa 0) by lia. cbn [obind]. rewrite k_csize, csub_le by lia. reflexivity.
Qed.
Lemma depth_inner : forall i j l, inner i j l -> depth_ g B deg c (nd i j) = Some (if (i =? 0) && (j =? n - 1) then 0%N else l).
Proof.
  intros i j l H. pose proof H as (H1 & _). unfold depth_. rewrite leaf_nd. destruct (Nat.eqb_spec i j) as [EQ|NEQ]; [lia|]. rewrite root_ok. cbn [obind]. unfold node_eqb. cbn [nd n_i n_j]. destruct ((i =? 0) && (j =? n - 1)); auto.
  destruct (sel_l_ok i j l 1 H ltac:(lia)) as (ck & E & _). rewrite E. cbn [obind c_lcp]. change (1 - 1) with 0.
  destruct (l_all i j l H) as (k1 & m & FC & NS & P & KE & DS & DO & LM & X). destruct (X 0) as (X1 & X2 & _); [destruct DS; lia|]. rewrite (nth_indep _ (j + 1) 0) by (destruct DS; lia).
  rewrite (nth_error_nth' v 0%N) by lia. f_equal. exact X2.
Qed.
Lemma node_eqb_root : forall i j, node_eqb (nd i j) (nd 0 (n - 1)) = true <-> (i, j) = (0, n - 1).
Proof.
  intros. unfold node_eqb. cbn [nd n_i n_j]. rewrite andb_true_iff, !Nat.eqb_eq. split; [intros (-> & ->); auto|intros E; injection E; auto].
Qed.
Lemma node_depth_ok : forall m i j, lcp_interval v i j -> n - (j - i) <= m -> exists e, node_depth g B deg c m (nd i j) = Some e /\ level v i j e.
Proof.
  induction m; intros i j H M. { pose proof (node_lt _ _ _ H). lia. }
  cbn [node_depth]. rewrite root_ok. cbn [obind]. destruct (node_eqb (nd i j) (nd 0 (n - 1))) eqn:E.
  - apply node_eqb_root in E. injection E as -> ->. exists 0. split; auto. constructor.
  - assert (NR : (i, j) <> (0, n - 1)) by (intros Q; apply node_eqb_root in Q; congruence). destruct (parent_ok i j H NR) as (x & y & EP & P). rewrite EP. cbn [obind].
    pose proof P as (P1 & (P2 & P2') & P3 & _). pose proof (node_lt _ _ _ P1) as L1. pose proof (node_lt _ _ _ H) as L2. destruct (IHm x y P1) as (e & E1 & E2). { assert (x < i \/ j < y) by (destruct (Nat.lt_ge_cases x i); auto; destruct (Nat.lt_ge_cases j y); auto; exfalso; apply P3; f_equal; lia). lia. }
    rewrite E1. cbn [obind]. exists (S e). split; auto. econstructor; eauto.
Qed.

(** ** identifiers *)
Lemma bsearch_ok : forall F f x fuel l r, (forall m, l < m < r -> f m = Some (F m)) -> F l < x -> x <= F r -> l < r -> r - l <= fuel ->
  exists p, bsearch fuel f x l r = Some p /\ l <= p < r /\ F p < x /\ x <= F (p + 1).
Proof.
  intros F f x. induction fuel; intros l r H HL HR LR FU; [lia|]. cbn [bsearch]. destruct (Nat.ltb_spec 1 (r - l)) as [L|L].
  - assert (M1 : 1 <= (r - l) / 2) by (apply Nat.div_le_lower_bound; lia). assert (M2 : (r - l) / 2 < r - l) by (apply Nat.div_lt; lia).
    rewrite H by lia. cbn [obind]. destruct (Nat.ltb_spec (F (l + (r - l) / 2)) x) as [Q|Q].
    + destruct (IHfuel (l + (r - l) / 2) r) as (p & E & P); try lia; [intros; apply H; lia|]. exists p. split; auto. lia.
    + destruct (IHfuel l (l + (r - l) / 2)) as (p & E & P); try lia; [intros; apply H; lia|]. exists p. split; auto. lia.
  - assert (r = l + 1) by lia. subst r. exists l. split; [reflexivity|lia].
Qed.
Lemma bsearch_S : forall fuel f x l r, 0 < fuel -> bsearch fuel f x l r =
  if 1 <? r - l then let* a := f (l + (r - l) / 2) in if a <? x then bsearch (fuel - 1) f x (l + (r - l) / 2) r else bsearch (fuel - 1) f x l (l + (r - l) / 2) else Some l.
Proof. intros. destruct fuel; [lia|]. replace (S fuel - 1) with fuel by lia. reflexivity. Qed.
Local Notation rf := (rank_of (t_bit fc)).
Lemma rf_one : forall z, nth z fc false = true -> rf (S z) = rf z + 1.
Proof. intros z H. rewrite rank_of_S. unfold t_bit at 2. rewrite H. reflexivity. Qed.
Lemma rf_mono : forall a b, a <= b -> rf a <= rf b.
Proof. intros a b L. induction L; auto. rewrite rank_of_S. lia. Qed.
Lemma rf_inj : forall a b, nth a fc false = true -> nth b fc false = true -> rf a = rf b -> a = b.
Proof.
  intros a b HA Hb E. destruct (Nat.lt_trichotomy a b) as [L|[L|L]]; auto.
  - pose proof (rf_one a HA). pose proof (rf_mono (S a) b ltac:(lia)). lia.
  - pose proof (rf_one b Hb). pose proof (rf_mono (S b) a ltac:(lia)). lia.
Qed.
Lemma rf_run : forall k, k < n -> exists f, f <= k /\ first f /\ av f = av k /\ rf (zi k) = rf (zi f) /\ nth (zi f) fc false = true.
Proof.
  intros k K. destruct (run_first v A0 bp BITS k k (le_n k) K) as (f & F1 & F2 & F3 & F4 & F5 & F6 & F7). exists f. split; auto. split; auto. split; auto. split.
  - pose proof (rank_zero g c (zi k) (zi f - zi k)) as R. cbn [c_fc] in R. replace (zi k + (zi f - zi k)) with (zi f) in R by lia. symmetry. apply R. intros z Z. destruct (F7 z ltac:(lia)) as (y & Y1 & Y2 & Y3). rewrite <- Y2, FB by auto. destruct (firstb v y) eqn:FY; auto. apply (firstb_ok v A0) in FY. contradiction.
  - rewrite FB by lia. apply (firstb_ok v A0). auto.
Qed.
Lemma tlcp_ok : forall k, k < n -> tlcp_idx g B deg c k = Some (rf (zi k)) /\ rf (zi k) < rf n.
Proof.
  intros k K. split.
  - unfold tlcp_idx. rewrite k_sel by auto. cbn [obind]. rewrite k_close by auto. cbn [obind].
    assert (E : (pos k + cl k - 1) / 2 = k + zi k). { replace (pos k + cl k - 1) with ((k + zi k) * 2); [apply Nat.div_mul; discriminate|]. unfold spos, CstProofs.cl, CstProofs.zi. destruct (ns_spec v k K) as (S1 & _). pose proof (d_le v k). lia. }
    rewrite E, (csub_some _ _ (zi k)) by lia. cbn [obind c_fc]. rewrite t_rank_some; auto. rewrite FL. pose proof (zi_lt v A0 k K). lia.
  - destruct (rf_run k K) as (f & F1 & F2 & F3 & F4 & F5). rewrite F4. pose proof (rf_one _ F5). pose proof (zi_lt v A0 f ltac:(lia)). pose proof (rf_mono (S (zi f)) n ltac:(lia)). lia.
Qed.
Lemma tlcp_inj : forall k k', k < n -> k' < n -> rf (zi k) = rf (zi k') -> av k = av k'.
Proof.
  intros k k' K K' E. destruct (rf_run k K) as (f & F1 & F2 & F3 & F4 & F5). destruct (rf_run k' K') as (f' & G1 & G2 & G3 & G4 & G5).
  assert (ZE : zi f = zi f') by (apply rf_inj; auto; lia). assert (f = f') by (apply (zi_inj v A0 bp BITS); auto; lia). subst f'. congruence.
Qed.
Lemma id_inner : forall i j l k, inner i j l -> i < k <= j -> av k = l -> (forall q, i < q < k -> (l < av q)%N) -> node_id c (nd i j) = Some (n + rf (zi k)).
Proof.
  intros i j l k H K E Q. pose proof H as (H1 & _). destruct (l_first i j l H) as (k1 & K1 & E1 & GT & NS & P & FC).
  assert (k1 = k). { destruct (Nat.lt_trichotomy k1 k) as [L|[L|L]]; auto; [specialize (Q k1 ltac:(lia))|specialize (GT k ltac:(lia))]; lia. }
  subst k1. unfold node_id. rewrite leaf_nd. destruct (Nat.eqb_spec i j) as [EQ|NEQ]; [lia|]. rewrite FC. cbn [obind]. rewrite k_rcl by lia. cbn [obind]. rewrite k_czi by lia. cbn [obind c_fc]. rewrite k_csize, t_rank_some; auto. rewrite FL. pose proof (zi_lt v A0 k ltac:(lia)). lia.
Qed.
Lemma first_inner : forall p k, k < n -> is_pe p k -> first k -> inner p (ns k - 1) (av k) /\ p < k <= ns k - 1 /\ (forall q, p < q < k -> (av k < av q)%N).
Proof.
  intros p k K P F. specialize (F p P). destruct P as (P1 & P2 & P3). destruct (nodeof v k p ltac:(lia)) as (NO & XM). { right. split; auto. split; auto. intros y Y. specialize (P3 y Y). lia. } auto.
Qed.
Lemma zeros_ok : forall k, k < n -> rank_of (t_bit bp) (cl k) = ns k /\ rank_of (t_bit bp) (cl k + 1) = ns k.
Proof.
  intros k K. pose proof (cl_lt v A0 bp BITS k K) as CL. pose proof (k_rcl k K) as R. unfold brank, bp_rank in R. cbn [c_bp] in R. rewrite t_rank_some in R by (rewrite (bp_len v bp BITS); lia). injection R as R. split; auto.
  rewrite <- R, Nat.add_1_r, rank_of_S. pose proof (k_bcl k K) as Bt. cbn [c_bp] in Bt. rewrite t_get_some in Bt by (rewrite (bp_len v bp BITS); lia). injection Bt as Bt. rewrite Bt. cbn [b2nat]. lia.
Qed.
Lemma inv_inner : forall x, x < rf n -> exists k, k < n /\ first k /\ rf (zi k) = x /\ nth (zi k) fc false = true /\
  (k = 0 /\ inv_id g B deg c (n + x) = Some (nd 0 (n - 1)) \/ 0 < k /\ exists p, is_pe p k /\ inv_id g B deg c (n + x) = Some (nd p (ns k - 1))).
Proof.
  intros x X. unfold inv_id. rewrite k_csize. destruct (Nat.ltb_spec (n + x) n); [lia|]. replace (n + x - n + 1) with (x + 1) by lia. rewrite k_bsize. cbn [c_fc].
  assert (S1 : exists r0, bsearch (2 * n) (fun m => t_rank fc m) (x + 1) 0 (2 * n) = Some r0 /\ 0 <= r0 < n /\ rf r0 < x + 1 /\ x + 1 <= rf (r0 + 1)).
  { rewrite bsearch_S by lia. rewrite (proj2 (Nat.ltb_lt 1 (2 * n - 0))) by lia. assert (DN : 0 + (2 * n - 0) / 2 = n). { rewrite Nat.sub_0_r, Nat.mul_comm. apply Nat.div_mul. discriminate. }
    rewrite DN, t_rank_some by lia. cbn [obind]. destruct (Nat.ltb_spec (rf n) (x + 1)); [lia|]. apply (bsearch_ok rf); try lia; [|rewrite rank_of_0; lia]. intros m M. apply t_rank_some. lia. }
  destruct S1 as (r0 & E1 & R1 & R2 & R3). rewrite E1. cbn [obind]. replace (r0 + 1) with (S r0) in R3 by lia. rewrite rank_of_S in R3.
  assert (BR : nth r0 fc false = true). { unfold t_bit in R3 at 2. destruct (nth r0 fc false); auto. cbn [b2nat] in R3. lia. }
  assert (RX : rf r0 = x). { unfold t_bit in R3 at 2. rewrite BR in R3. cbn [b2nat] in R3. lia. }
  destruct (zi_surj v A0 bp BITS r0 ltac:(lia)) as (k & K & Z). exists k. split; auto. assert (FK : first k). { apply (firstb_ok v A0). rewrite <- FB, Z by auto. auto. }
  split; auto. rewrite Z. split; auto. split; auto. cbn [c_bp]. pose proof (cl_lt v A0 bp BITS k K) as CL. destruct (zeros_ok k K) as (Z1 & Z2). pose proof (cl_zi v A0 k K) as CZ.
  assert (S2 : bsearch (2 * n) (fun m => let* r := t_rank bp m in csub m r) (r0 + 1) 0 (2 * n) = Some (cl k)).
  { assert (MO : forall a b, a <= b -> a - rank_of (t_bit bp) a <= b - rank_of (t_bit bp) b). { intros a b L. induction L; auto. rewrite rank_of_S. pose proof (rank_of_le (t_bit bp) m). destruct (t_bit bp m); cbn [b2nat]; lia. }
    destruct (bsearch_ok (fun m => m - rank_of (t_bit bp) m) (fun m => let* r := t_rank bp m in csub m r) (r0 + 1) (2 * n) 0 (2 * n)) as (p & E & P1 & P2 & P3); try lia.
    - intros m M. rewrite t_rank_some by (rewrite (bp_len v bp BITS); lia). cbn [obind]. apply csub_le, rank_of_le.
    - destruct (zeros_ok 0 N0) as (_ & W). rewrite (cl_root v A0 bp BITS N0), (ns_zero v A0 bp BITS 0 N0 A0) in W. replace (2 * n - 1 + 1) with (2 * n) in W by lia. rewrite W. lia.
    - rewrite E. f_equal. destruct (Nat.lt_trichotomy p (cl k)) as [L|[L|L]]; auto.
      + pose proof (MO (p + 1) (cl k) ltac:(lia)) as Q. rewrite Z1 in Q. lia.
      + pose proof (MO (cl k + 1) p ltac:(lia)) as Q. rewrite Z2 in Q. lia. }
  rewrite S2. cbn [obind]. destruct (Nat.eq_dec k 0) as [->|K0].
  - left. split; auto. rewrite (cl_root v A0 bp BITS N0). replace (2 * n - 1 + 1) with (2 * n) by lia. rewrite Nat.eqb_refl. apply root_ok.
  - right. split; [lia|]. destruct (pe_ex v A0 k ltac:(lia)) as (p & P). exists p. split; auto. assert (PN : p < n) by (destruct P; lia). destruct (Nat.eqb_spec (cl k + 1) (2 * n)) as [Q|Q].
    { exfalso. apply K0. apply (cl_inj v A0 bp BITS); auto. rewrite (cl_root v A0 bp BITS N0). lia. }
    destruct (ns_spec v k K) as (S3 & _). pose proof (rank_pos v A0 bp BITS p PN) as RP. destruct (behind p k K P) as [(L & M & E & Bt)|(M & E & E2 & Bt)]; cbn [c_bp] in Bt; rewrite Bt; cbn [obind].
    + rewrite <- E, (rank_pos v A0 bp BITS (ns k) L). cbn [obind]. rewrite csub_le by lia. cbn [obind]. rewrite k_open by auto. cbn [obind]. rewrite (k_encl p k K P). cbn [obind]. rewrite k_close by auto. cbn [obind]. rewrite RP. cbn [obind].
      unfold nd. replace (ns k - 1 + 1) with (ns k) by lia. rewrite np_lt by auto. reflexivity.
    + rewrite <- E2, k_open by auto. cbn [obind]. rewrite RP. cbn [obind]. rewrite k_nsv by auto. cbn [obind]. rewrite E, csub_le by lia. cbn [obind]. rewrite k_jp1 by lia. reflexivity.
Qed.
Hypothesis A1 : 2 <= n -> av 1 = 0%N.
Lemma root_zero : 2 <= n -> inner 0 (n - 1) 0%N /\ rf (zi 1) = rf (zi 0) /\ node_id c (nd 0 (n - 1)) = Some (n + rf (zi 0)).
Proof.
  intros N2. assert (IN : inner 0 (n - 1) 0%N). { split; [lia|]. split; [intros; lia|]. split; [exists 1; split; [lia|auto]|]. split; auto. left. lia. }
  assert (P : is_pe 0 1). { split; [lia|]. split; [rewrite A0; lia|]. intros; lia. }
  destruct (eq_pe v A0 bp BITS 0 1 ltac:(lia) P ltac:(rewrite A1; auto)) as (_ & _ & Z). assert (RZ : rf (zi 1) = rf (zi 0)).
  { rewrite Z, rank_of_S. unfold t_bit at 3. rewrite FB by lia. destruct (firstb v 1) eqn:F; [|cbn [b2nat]; lia]. apply (firstb_ok v A0) in F. specialize (F 0 P). rewrite A0, A1 in F by auto. lia. }
  split; auto. split; auto. rewrite <- RZ. apply (id_inner 0 (n - 1) 0%N); auto; lia.
Qed.
Lemma inv_id_ok : forall id, id < (if n =? 1 then 1 else n + rf n) -> exists i j, inv_id g B deg c id = Some (nd i j) /\ lcp_interval v i j /\ node_id c (nd i j) = Some id.
Proof.
  intros id I. destruct (Nat.lt_ge_cases id n) as [L|L].
  - exists id, id. split; [|split; [split; [lia|auto]|unfold node_id; rewrite leaf_nd, Nat.eqb_refl; reflexivity]]. unfold inv_id. rewrite k_csize, (proj2 (Nat.ltb_lt _ _) L). apply select_leaf_ok. auto.
  - destruct (Nat.eqb_spec n 1) as [E|NE]; [lia|]. destruct (inv_inner (id - n) ltac:(lia)) as (k & K & FK & RK & BK & C). replace (n + (id - n)) with id in C by lia. destruct C as [(-> & C)|(K0 & p & P & C)].
    + exists 0, (n - 1). split; auto. destruct (root_zero ltac:(lia)) as (IN & _ & ID). split; [eapply inner_node; eauto|]. rewrite ID, RK. f_equal. lia.
    + exists p, (ns k - 1). split; auto. destruct (first_inner p k K P FK) as (IN & PK & Q). split; [eapply inner_node; eauto|]. rewrite (id_inner p (ns k - 1) (av k) k IN PK eq_refl Q), RK. f_equal. lia.
Qed.
Lemma node_id_ok : forall i j, lcp_interval v i j -> exists id, node_id c (nd i j) = Some id /\ id < (if n =? 1 then 1 else n + rf n) /\ inv_id g B deg c id = Some (nd i j).
Proof.
  intros i j H. pose proof (node_lt _ _ _ H) as L. destruct (Nat.eq_dec i j) as [->|NE].
  { exists j. split; [unfold node_id; rewrite leaf_nd, Nat.eqb_refl; reflexivity|]. split; [destruct (Nat.eqb_spec n 1); lia|]. unfold inv_id. rewrite k_csize, (proj2 (Nat.ltb_lt _ _)) by lia. apply select_leaf_ok. lia. }
  destruct (Nat.eqb_spec n 1) as [E|N1]; [lia|]. destruct (node_inner v i j H ltac:(lia)) as (l & IN). pose proof IN as (_ & H2 & _ & H4 & H5).
  destruct (N.eq_dec l 0) as [->|L0].
  - assert (i = 0) by (destruct H4; lia). assert (j = n - 1) by (destruct H5; lia). subst i j. destruct (root_zero ltac:(lia)) as (_ & _ & ID). exists (n + rf (zi 0)). split; auto.
    assert (BZ : nth (zi 0) fc false = true). { rewrite FB by auto. apply (firstb_ok v A0). intros p (P & _). lia. }
    assert (RX : rf (zi 0) < rf n). { pose proof (rf_one _ BZ). pose proof (zi_lt v A0 0 N0). pose proof (rf_mono (S (zi 0)) n ltac:(lia)). lia. }
    split; [lia|]. destruct (inv_inner (rf (zi 0)) RX) as (k & K & FK & RK & BK & C). assert (k = 0) by (apply (zi_inj v A0 bp BITS); auto; apply rf_inj; auto). subst k. destruct C as [(_ & C)|(K0 & _)]; [auto|lia].
  - destruct (l_first i j l IN) as (k1 & K1 & E1 & GT & NS & P & FC). assert (FK : first k1). { intros p P'. rewrite (pe_uniq v p i k1 P' P), E1. destruct H4 as [->|H4]; auto. rewrite A0. lia. }
    assert (BZ : nth (zi k1) fc false = true). { rewrite FB by lia. apply (firstb_ok v A0). auto. }
    exists (n + rf (zi k1)). split; [apply (id_inner i j l); auto|]. assert (RX : rf (zi k1) < rf n). { pose proof (rf_one _ BZ). pose proof (zi_lt v A0 k1 ltac:(lia)). pose proof (rf_mono (S (zi k1)) n ltac:(lia)). lia. }
    split; [lia|]. destruct (inv_inner (rf (zi k1)) RX) as (k & K & FK' & RK & BK & C). assert (k = k1) by (apply (zi_inj v A0 bp BITS); auto; try lia; apply rf_inj; auto). subst k. destruct C as [(C0 & C)|(K0 & p & P' & C)]; [lia|].
    rewrite C. rewrite (pe_uniq v p i k1 P' P), NS. replace (j + 1 - 1) with j by lia. reflexivity.
Qed.
End N.
