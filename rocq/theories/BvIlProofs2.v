(** * bit_vector_il: the cache of rank samples, and the queries *)
From Coq Require Import NArith List Bool Arith Lia.
From Verif Require Import Base Bits SpecBits RankSelect BitsProofs BitsProofs3 IntVector SpecIntVector IntVectorProofs3 IntVectorProofs4 SpecRank RankSupportProofs RankSupportProofs2 BvIl BvIlProofs.
Import ListNotations.

(** node idx of the implicit search tree over [0, sb), at depth dp *)
Inductive hnode (sb : nat) : nat -> nat -> nat -> nat -> Prop :=
| hn0 : hnode sb 0 0 0 sb
| hnL : forall dp idx lb rb, hnode sb dp idx lb rb -> hnode sb (S dp) (2 * idx + 1) lb ((lb + rb) / 2)
| hnR : forall dp idx lb rb, hnode sb dp idx lb rb -> hnode sb (S dp) (2 * idx + 2) ((lb + rb) / 2 + 1) rb.

Lemma hnode_fun : forall sb idx dp lb rb, hnode sb dp idx lb rb -> forall dp' lb' rb', hnode sb dp' idx lb' rb' -> lb = lb' /\ rb = rb'.
Proof.
  intros sb idx. induction idx as [idx IH] using lt_wf_ind. intros dp lb rb H dp' lb' rb' H'.
  inversion H as [|? i1 l1 r1 X|? i1 l1 r1 X]; subst; inversion H' as [|? i2 l2 r2 Y|? i2 l2 r2 Y]; subst; try lia; auto;
    assert (i1 = i2) by lia; subst i2; destruct (IH i1 ltac:(lia) _ _ _ X _ _ _ Y); subst; auto.
Qed.

Lemma hnode_ok : forall sb H dp idx lb rb, 2 ^ H <= sb -> hnode sb dp idx lb rb -> idx < 2 ^ H ->
  2 ^ dp <= idx + 1 < 2 * 2 ^ dp /\ lb < rb /\ rb <= sb /\ sb + 1 < (rb - lb + 2) * 2 ^ dp /\ (idx + 1 = 2 ^ dp -> sb < (rb - lb + 1) * 2 ^ dp).
Proof.
  intros sb H dp idx lb rb HS HN. 
  assert (G : forall dp idx s, 2 ^ dp <= idx + 1 < 2 * 2 ^ dp -> sb + 1 < (s + 2) * 2 ^ dp -> (idx + 1 = 2 ^ dp -> sb < (s + 1) * 2 ^ dp) -> idx < 2 ^ H -> 1 <= s).
  { clear - HS. intros dp idx s H1 H2 H3 H4. destruct (Nat.le_gt_cases H dp) as [D|D].
    - assert (2 ^ H <= 2 ^ dp) by (apply Nat.pow_le_mono_r; lia). assert (E : idx + 1 = 2 ^ dp) by lia. specialize (H3 E). destruct s; lia.
    - assert (2 * 2 ^ dp <= 2 ^ H). { change (2 ^ S dp <= 2 ^ H). apply Nat.pow_le_mono_r; lia. } destruct s; lia. }
  induction HN as [|dp idx lb rb HN IH|dp idx lb rb HN IH]; intros HI.
  - pose proof (Nat.pow_nonzero 2 H). simpl. split; [lia|]. lia.
  - destruct IH as (A1 & A2 & A3 & A4 & A5); [lia|]. set (P := 2 ^ dp) in *. change (2 ^ S dp) with (2 * P).
    assert (B1 : 2 * P <= 2 * idx + 1 + 1 < 2 * (2 * P)) by lia.
    assert (B4 : sb + 1 < ((lb + rb) / 2 - lb + 2) * (2 * P)). { assert (rb - lb + 2 <= 2 * ((lb + rb) / 2 - lb + 2)) by lia. nia. }
    assert (B5 : 2 * idx + 1 + 1 = 2 * P -> sb < ((lb + rb) / 2 - lb + 1) * (2 * P)). { intros. specialize (A5 ltac:(lia)). assert (rb - lb + 1 <= 2 * ((lb + rb) / 2 - lb + 1)) by lia. nia. }
    split; auto. split; [|split; [lia|auto]]. assert (1 <= (lb + rb) / 2 - lb); [|lia]. apply (G (S dp) (2 * idx + 1)); auto.
  - destruct IH as (A1 & A2 & A3 & A4 & A5); [lia|]. set (P := 2 ^ dp) in *. change (2 ^ S dp) with (2 * P).
    assert (B1 : 2 * P <= 2 * idx + 2 + 1 < 2 * (2 * P)) by lia.
    assert (B4 : sb + 1 < (rb - ((lb + rb) / 2 + 1) + 2) * (2 * P)). { assert (rb - lb + 2 <= 2 * (rb - ((lb + rb) / 2 + 1) + 2)) by lia. nia. }
    assert (B5 : 2 * idx + 2 + 1 = 2 * P -> sb < (rb - ((lb + rb) / 2 + 1) + 1) * (2 * P)) by lia.
    split; auto. split; [|split; [lia|auto]]. assert (1 <= rb - ((lb + rb) / 2 + 1)); [|lia]. apply (G (S dp) (2 * idx + 2)); auto.
Qed.

Section S.
Variables (k : nat) (m : mem) (n : nat).
Hypothesis Hk : 6 <= k.
Hypothesis Hm : words_ok m.
Hypothesis HN : (N.of_nat n + 64 < W64)%N.
Notation blocks := ((n + 64) / 64).
Hypothesis HP : blocks <= length m.
Notation r := (il_rate k).
Notation sb := ((n + 2 ^ k) / 2 ^ k).
Notation R := (rank_of (mbit m)).

(** the cache: entry idx is the sum before the middle of node idx *)
Definition cache (smp : mem) (upto : nat) : Prop :=
  forall idx dp lb rb, idx < upto -> hnode sb dp idx lb rb -> nth_error smp idx = Some (N.of_nat (R ((lb + rb) / 2 * 2 ^ k))).

Lemma samples_ok : forall d, good k m n d -> forall H smp0, length smp0 <= 2 ^ H -> 2 ^ H <= sb ->
  exists smp, il_samples (2 * length smp0 + 2) k d [(0, sb)] smp0 0 = Some smp /\ length smp = length smp0 /\ cache smp (length smp).
Proof.
  intros d [_ GD] H smp0 HL HS.
  assert (DR : forall q f smp idx, length smp <= idx -> length q < f -> il_samples f k d q smp idx = Some smp).
  { induction q as [|[a b] q]; intros f smp idx Hi Hf; (destruct f; [simpl in Hf; lia|]); simpl; auto.
    destruct (Nat.ltb_spec idx (length smp)); [lia|]. apply IHq; auto. simpl in Hf; lia. }
  assert (G : forall t idx q smp f, length smp = length smp0 -> idx + t = length smp -> length q = idx + 1 ->
     (forall j lb rb, nth_error q j = Some (lb, rb) -> exists dp, hnode sb dp (idx + j) lb rb) -> cache smp idx -> 2 * t + idx + 2 <= f ->
     exists smp', il_samples f k d q smp idx = Some smp' /\ length smp' = length smp0 /\ cache smp' (length smp')).
  { induction t; intros idx q smp f L1 L2 L3 Q C F.
    - exists smp. rewrite DR by lia. split; auto. split; auto. replace (length smp) with idx by lia. auto.
    - destruct f as [|f]; [lia|]. destruct q as [|[lb rb] q]; [simpl in L3; lia|]. cbn [il_samples].
      destruct (Nat.ltb_spec idx (length smp)); [|lia].
      destruct (Q 0 lb rb eq_refl) as (dp & HNn). rewrite Nat.add_0_r in HNn. destruct (hnode_ok sb H dp idx lb rb) as (_ & B1 & B2 & _); auto; try lia.
      destruct (Nat.ltb_spec rb lb); [lia|]. cbn [obind]. replace (lb + (rb - lb) / 2) with ((lb + rb) / 2) by lia. unfold ld. rewrite GD by lia. cbn [obind].
      rewrite st_some by auto. cbn [obind]. apply IHt.
      + rewrite upd_length. auto.
      + rewrite upd_length. lia.
      + rewrite app_length. simpl in *. lia.
      + intros j lb' rb' Hj. simpl in L3. destruct (Nat.lt_ge_cases j (length q)).
        * rewrite nth_error_app1 in Hj by auto. destruct (Q (S j) lb' rb' Hj) as (dp' & X). exists dp'. replace (S idx + j) with (idx + S j) by lia. auto.
        * rewrite nth_error_app2 in Hj by auto. exists (S dp). destruct (j - length q) as [|[|z]] eqn:E; simpl in Hj.
          -- injection Hj as <- <-. replace (S idx + j) with (2 * idx + 1) by lia. constructor. auto.
          -- injection Hj as <- <-. replace (S idx + j) with (2 * idx + 2) by lia. constructor. auto.
          -- destruct z; discriminate.
      + intros i' dp' lb' rb' Hi' X. destruct (Nat.eq_dec i' idx) as [->|].
        * destruct (hnode_fun _ _ _ _ _ HNn _ _ _ X) as [<- <-]. rewrite nth_error_upd_eq; auto.
        * rewrite nth_error_upd_neq by auto. eapply C; eauto. lia.
      + lia. }
  apply (G (length smp0) 0); auto; try lia.
  - intros j lb rb Hj. destruct j as [|[|]]; try discriminate. injection Hj as <- <-. exists 0. constructor.
  - intros ? ? ? ? ?. lia.
Qed.

Variable v : il.
Hypothesis Hv : il_size v = n /\ il_super v = sb /\ good k m n (il_data v) /\ cache (il_smp v) (length (il_smp v)) /\
  n / 64 + n / 64 / r + 1 < length (il_data v).

Lemma val_ok : forall (b : bool) s, s * 2 ^ k <= n -> (if b then N.of_nat (R (s * 2 ^ k)) else wsub (N.of_nat (s * 2 ^ k)) (N.of_nat (R (s * 2 ^ k)))) = N.of_nat (rank_of (pf m b) (s * 2 ^ k)).
Proof.
  intros [|] s Hs; auto. change (rank_of (pf m false) (s * 2 ^ k)) with (rank_of (fun j => negb (mbit m j)) (s * 2 ^ k)). rewrite rank_of_negb.
  pose proof (rank_of_le (mbit m) (s * 2 ^ k)). set (x := s * 2 ^ k) in *. clearbody x. set (y := R x) in *. unfold wsub, W64 in *.
  replace (N.of_nat x + (18446744073709551616 - N.of_nat y))%N with (N.of_nat (x - y) + 1 * 18446744073709551616)%N by lia.
  rewrite N.mod_add, N.mod_small; lia.
Qed.
Lemma sb_le : forall s, s < sb -> s * 2 ^ k <= n.
Proof.
  intros s Hs. assert (P0 : 2 ^ k <> 0) by (apply Nat.pow_nonzero; lia). replace (n + 2 ^ k) with (n + 1 * 2 ^ k) in Hs by lia. rewrite Nat.div_add in Hs by auto.
  assert (s <= n / 2 ^ k) by lia. etransitivity; [apply Nat.mul_le_mono_r; eauto|]. rewrite Nat.mul_comm. apply Nat.mul_div_le. auto.
Qed.
Lemma sb_ge : n < sb * 2 ^ k.
Proof.
  assert (P0 : 2 ^ k <> 0) by (apply Nat.pow_nonzero; lia). replace (n + 2 ^ k) with (n + 1 * 2 ^ k) by lia. rewrite Nat.div_add by auto.
  pose proof (Nat.div_mod n (2 ^ k) P0). pose proof (Nat.mod_upper_bound n (2 ^ k) P0). nia.
Qed.

Lemma search_ok : forall (b : bool) i f lb rb idx, rb - lb < f -> lb <= rb -> rb <= sb ->
  (idx < length (il_smp v) -> exists dp, hnode sb dp idx lb rb) ->
  (lb = 0 \/ rank_of (pf m b) ((lb - 1) * 2 ^ k) < i) -> (rb = sb \/ i <= rank_of (pf m b) (rb * 2 ^ k)) ->
  exists x, il_search f b k v (N.of_nat i) lb rb idx = Some x /\ x <= sb /\ (x = 0 \/ rank_of (pf m b) ((x - 1) * 2 ^ k) < i) /\ (x = sb \/ i <= rank_of (pf m b) (x * 2 ^ k)).
Proof.
  destruct Hv as (_ & _ & [_ GD] & HC & _). intros b i. induction f; intros lb rb idx Hf H1 H2 HI IL IR; [lia|]. cbn [il_search].
  destruct (Nat.ltb_spec lb rb) as [X|X].
  2:{ exists rb. split; auto. split; auto. assert (lb = rb) by lia. subst. auto. }
  set (mid := (lb + rb) / 2). assert (M : lb <= mid < rb) by (unfold mid; lia).
  assert (VAL : forall x, x = N.of_nat (R (mid * 2 ^ k)) -> (N.of_nat i <=? (if b then x else wsub (N.of_nat (mid * 2 ^ k)) x))%N = (i <=? rank_of (pf m b) (mid * 2 ^ k))).
  { intros x ->. rewrite val_ok by (apply sb_le; lia). destruct (Nat.leb_spec i (rank_of (pf m b) (mid * 2 ^ k))), (N.leb_spec (N.of_nat i) (N.of_nat (rank_of (pf m b) (mid * 2 ^ k)))); auto; lia. }
  destruct (Nat.ltb_spec idx (length (il_smp v))) as [Y|Y].
  - destruct (HI Y) as (dp & Z). unfold ld. rewrite (HC idx dp lb rb Y Z). cbn [obind]. fold mid. rewrite VAL by auto.
    destruct (Nat.leb_spec i (rank_of (pf m b) (mid * 2 ^ k))); apply IHf; auto; try lia.
    + intros. exists (S dp). constructor. auto.
    + intros. exists (S dp). constructor. auto.
    + right. replace (mid + 1 - 1) with mid by lia. auto.
  - unfold ld. rewrite GD by lia. cbn [obind]. rewrite VAL by auto.
    destruct (Nat.leb_spec i (rank_of (pf m b) (mid * 2 ^ k))); apply IHf; auto; try lia.
    right. replace (mid + 1 - 1) with mid by lia. auto.
Qed.

Lemma scan_ok : forall (b : bool) i p s, is_select (pf m b) i p -> p < n -> s * 2 ^ k <= p < (s + 1) * 2 ^ k ->
  forall f w, p / 64 - w < f -> s * r <= w <= p / 64 -> 
  il_scan f b (il_data v) (w + s + 1) (N.of_nat (i - rank_of (pf m b) (64 * w))) (64 * w) = Some p.
Proof.
  destruct Hv as (_ & _ & [GW _] & _ & _). intros b i p s HSel Hp Hps. pose proof (r_pos k) as RP. pose proof (bs_eq k Hk) as BS.
  induction f; intros w Hf Hw; [lia|]. cbn [il_scan].
  assert (WR : w / r = s). { symmetry. apply (Nat.div_unique w r s (w - s * r)); [|nia]. assert (p / 64 < (s + 1) * r) by (rewrite BS in Hps; nia). nia. }
  assert (WB : w < blocks) by lia. replace (w + s + 1) with (w + w / r + 1) by lia. unfold ld. rewrite GW by auto. cbn [obind].
  rewrite (cnt_w m Hm b w) by lia.
  assert (M1 : rank_of (pf m b) (64 * w) < i).
  { destruct (rank_select _ _ _ HSel) as [Q _]. pose proof (is_select_pos _ _ _ HSel). assert (rank_of (pf m b) (64 * w) <= rank_of (pf m b) p) by (apply rank_of_mono; lia). lia. }
  assert (M2 : rank_of (pf m b) (64 * w) <= rank_of (pf m b) (64 * w + 64)) by (apply rank_of_mono; lia).
  assert (IB : i <= n). { pose proof (is_select_le_rank _ _ _ n HSel Hp). pose proof (rank_of_le (pf m b) n). lia. }
  destruct (N.ltb_spec (N.of_nat (rank_of (pf m b) (64 * w + 64) - rank_of (pf m b) (64 * w))) (N.of_nat (i - rank_of (pf m b) (64 * w)))) as [X|X].
  - assert (PW : w + 1 <= p / 64).
    { destruct (Nat.le_gt_cases (64 * w + 64) p) as [|G]; [lia|]. pose proof (is_select_le_rank _ _ _ (64 * w + 64) HSel G). lia. }
    assert (WS : wsub (N.of_nat (i - rank_of (pf m b) (64 * w))) (N.of_nat (rank_of (pf m b) (64 * w + 64) - rank_of (pf m b) (64 * w))) = N.of_nat (i - rank_of (pf m b) (64 * S w))).
    { replace (64 * S w) with (64 * w + 64) by lia. revert X M1 M2 IB. generalize (rank_of (pf m b) (64 * w)), (rank_of (pf m b) (64 * w + 64)). clear - HN. intros a c X M1 M2 IB. unfold wsub, W64 in *.
      replace (N.of_nat (i - a) + (18446744073709551616 - N.of_nat (c - a)))%N with (N.of_nat (i - c) + 1 * 18446744073709551616)%N by lia.
      rewrite N.mod_add, N.mod_small; lia. }
    rewrite WS. replace (S (w + w / r + 1)) with (S w + s + 1) by lia. replace (64 * w + 64) with (64 * S w) by lia. apply IHf; lia.
  - destruct (word_cnt m Hm b w ltac:(lia)) as [A B].
    assert (PC : popcount (il_w b (nth w m 0%N)) = rank_of (pf m b) (64 * w + 64) - rank_of (pf m b) (64 * w)).
    { apply Nat2N.inj. rewrite <- cnt_correct by auto. apply cnt_w; auto. lia. }
    destruct (sel_correct (il_w b (nth w m 0%N)) (i - rank_of (pf m b) (64 * w)) A) as (q & E & F). { rewrite PC. lia. }
    rewrite E. cbn [obind]. f_equal. rewrite Nat2N.id.
    apply (is_select_unique (pf m b) i); auto. replace i with (rank_of (pf m b) (64 * w) + (i - rank_of (pf m b) (64 * w))) by lia.
    apply is_select_shift. eapply is_select_ext; [|exact F]. intros j Hj. apply B.
    assert (q < 64); [|lia]. apply (is_select_lt _ _ _ 64 F). rewrite <- popcount_rank, PC. lia.
Qed.

Theorem il_select_ok : forall (b : bool) i, 1 <= i -> i <= rank_of (pf m b) n -> exists p, il_select b k v (N.of_nat i) = Some p /\ p < n /\ is_select (pf m b) i p.
Proof.
  intros b i H1 H2. destruct (select_exists (pf m b) n i) as (p & Hp & HSel); auto. exists p. split; [|auto].
  pose proof Hv as (_ & SB & [GW GD] & _ & LD). unfold il_select. rewrite SB.
  destruct (search_ok b i (sb + 1) 0 sb 0) as (x & E & X1 & X2 & X3); auto; try lia.
  { intros. exists 0. constructor. }
  rewrite E. cbn [obind]. destruct (Nat.eqb_spec x 0) as [Z|Z].
  { subst. exfalso. destruct X3 as [X3|X3]. { pose proof sb_ge. rewrite <- X3 in H. lia. } simpl in X3. rewrite rank_of_0 in X3. lia. }
  cbn [obind]. set (s := x - 1) in *. unfold ld. rewrite GD by lia. cbn [obind].
  assert (SL : s * 2 ^ k <= n) by (apply sb_le; lia). destruct X2 as [|X2]; [lia|].
  assert (IB : i <= n). { pose proof (rank_of_le (pf m b) n). lia. }
  assert (EI : (if b then wsub (N.of_nat i) (N.of_nat (R (s * 2 ^ k))) else wsub (N.of_nat i) (wsub (N.of_nat (s * 2 ^ k)) (N.of_nat (R (s * 2 ^ k))))) = N.of_nat (i - rank_of (pf m b) (s * 2 ^ k))).
  { pose proof (val_ok b s SL) as V. transitivity (wsub (N.of_nat i) (N.of_nat (rank_of (pf m b) (s * 2 ^ k)))). { destruct b; rewrite V; auto. }
    revert X2 IB. generalize (rank_of (pf m b) (s * 2 ^ k)). clear - HN. intros c X2 IB. unfold wsub, W64 in *.
    replace (N.of_nat i + (18446744073709551616 - N.of_nat c))%N with (N.of_nat (i - c) + 1 * 18446744073709551616)%N by lia.
    rewrite N.mod_add, N.mod_small; lia. }
  rewrite EI. pose proof (r_pos k) as RP. pose proof (bs_eq k Hk) as BS. unfold il_pos.
  replace (s * 2 ^ k) with (64 * (s * r)) by (rewrite BS; lia).
  assert (PS : s * 2 ^ k <= p < (s + 1) * 2 ^ k).
  { split.
    - apply Nat.nlt_ge. intros G. pose proof (is_select_le_rank _ _ _ _ HSel G). lia.
    - replace (s + 1) with x by lia. destruct X3 as [->|X3]. { pose proof sb_ge. lia. } apply (is_select_lt _ _ _ _ HSel X3). }
  apply (scan_ok b i p s); auto.
  - assert (PN : p / 64 <= n / 64) by (apply Nat.div_le_mono; lia). revert LD PN. generalize (n / 64 / r). generalize (n / 64), (p / 64), (s * r). clear. lia.
  - rewrite BS in PS. split; [lia|]. apply Nat.div_le_lower_bound; [lia|]. clear - PS. nia.
Qed.

Lemma rank_loop_ok : forall (b : bool) t w s, s * r <= w -> w + t < (s + 1) * r -> w + t < blocks -> 
  il_rank_loop b (il_data v) t (w + s + 1) (N.of_nat (rank_of (pf m b) (64 * w))) = Some (w + t + s + 1, N.of_nat (rank_of (pf m b) (64 * (w + t)))).
Proof.
  destruct Hv as (_ & _ & [GW _] & _ & _). pose proof (r_pos k) as RP. intros b. induction t; intros w s H1 H2 H3; cbn [il_rank_loop].
  { rewrite Nat.add_0_r. auto. }
  assert (WR : w / r = s). { symmetry. apply (Nat.div_unique w r s (w - s * r)); nia. }
  replace (w + s + 1) with (w + w / r + 1) by lia. unfold ld. rewrite GW by lia. cbn [obind]. rewrite (cnt_w m Hm b w) by lia.
  assert (M2 : rank_of (pf m b) (64 * w) <= rank_of (pf m b) (64 * w + 64)) by (apply rank_of_mono; lia).
  pose proof (rank_of_le (pf m b) (64 * w + 64)). replace (S (w + w / r + 1)) with (S w + s + 1) by lia.
  assert (WA : wadd (N.of_nat (rank_of (pf m b) (64 * w))) (N.of_nat (rank_of (pf m b) (64 * w + 64) - rank_of (pf m b) (64 * w))) = N.of_nat (rank_of (pf m b) (64 * S w))).
  { replace (64 * S w) with (64 * w + 64) by lia. unfold wadd, W64 in *. rewrite N.mod_small; lia. }
  rewrite WA. rewrite IHt by lia. replace (S w + t) with (w + S t) by lia. auto.
Qed.
Theorem il_rank_ok : forall (b : bool) i, i <= n -> il_rank b k v i = Some (N.of_nat (rank_of (pf m b) i)).
Proof.
  intros b i Hi. pose proof Hv as (_ & _ & [GW GD] & _ & _). pose proof (r_pos k) as RP. pose proof (bs_eq k Hk) as BS. unfold il_rank.
  assert (P0 : 2 ^ k <> 0) by lia. set (s := i / 2 ^ k). pose proof (Nat.div_mod i (2 ^ k) P0) as DM. pose proof (Nat.mod_upper_bound i (2 ^ k) P0) as MU. fold s in DM.
  assert (SS : s < sb). { replace (n + 2 ^ k) with (n + 1 * 2 ^ k) by lia. rewrite Nat.div_add by auto. assert (s <= n / 2 ^ k) by (apply Nat.div_le_mono; auto). lia. }
  unfold ld at 1. rewrite GD by auto. cbn [obind]. rewrite val_ok by (apply sb_le; auto). unfold il_pos. set (t := i mod 2 ^ k / 64).
  replace (s * 2 ^ k) with (64 * (s * r)) by (rewrite BS; lia).
  assert (WI : s * r + t = i / 64). { unfold t. rewrite DM at 2. rewrite BS at 2. replace (64 * r * s + i mod 2 ^ k) with (i mod 2 ^ k + s * r * 64) by lia. rewrite Nat.div_add by lia. lia. }
  rewrite rank_loop_ok; try lia.
  cbn [obind]. rewrite WI. assert (WR : i / 64 / r = s). { symmetry. apply div_bs. auto. }
  replace (i / 64 + s + 1) with (i / 64 + i / 64 / r + 1) by lia. unfold ld. rewrite GW by lia. cbn [obind].
  destruct (word_cnt m Hm b (i / 64) ltac:(lia)) as [A B].
  rewrite (cnt_rank _ (fun j => (j <? i mod 64) && pf m b (64 * (i / 64) + j))).
  2:{ apply is_word_land_l. auto. }
  2:{ intros. rewrite tb_land, tb_lo_set, B by auto. apply andb_comm. }
  pose proof (rank_of_head (fun j => pf m b (64 * (i / 64) + j)) (i mod 64) (64 - i mod 64)) as Q.
  replace (i mod 64 + (64 - i mod 64)) with 64 in Q by lia. rewrite Q. pose proof (rank_of_add (pf m b) (64 * (i / 64)) (i mod 64)) as Q2.
  replace (64 * (i / 64) + i mod 64) with i in Q2 by lia. pose proof (rank_of_le (pf m b) i). unfold wadd, W64 in *. rewrite N.mod_small; f_equal; lia.
Qed.
Theorem il_get_ok : forall i, i < n -> il_get k v i = Some (b2n (mbit m i)).
Proof.
  intros i Hi. pose proof Hv as (_ & _ & [GW GD] & _ & _). unfold il_get. rewrite (div_bs k Hk). replace (i / 64 / r + i / 64 + 1) with (i / 64 + i / 64 / r + 1) by lia.
  unfold ld. rewrite GW by lia. cbn [obind]. f_equal. unfold mbit. apply tb_ext. intros j. rewrite tb_land, tb_shr.
  change 1%N with (lo_set 1). rewrite tb_lo_set. destruct j as [|j]; simpl.
  - rewrite andb_true_r. destruct (tb _ _); reflexivity.
  - rewrite andb_false_r. destruct (tb _ (i mod 64)); [|now rewrite tb_0]. symmetry. apply (tb_high _ 1); [reflexivity|lia].
Qed.
Theorem il_get_int_ok : forall idx len, 1 <= len <= 64 -> idx + len <= n -> 
  exists x, il_get_int k v idx len = Some x /\ forall j, tb x j = (j <? len) && mbit m (idx + j).
Proof.
  intros idx len Hl Hi. pose proof Hv as (_ & _ & [GW GD] & _ & _). unfold il_get_int. rewrite !(div_bs k Hk).
  set (w := idx / 64). set (e := (idx + len - 1) / 64). rewrite (Nat.add_comm (w / r) w), (Nat.add_comm (e / r) e).
  set (a := idx mod 64) in *.
  assert (EI : idx = 64 * w + a) by (apply Nat.div_mod; lia). assert (Ha : a < 64) by (apply Nat.mod_upper_bound; lia).
  set (c := (idx + len - 1) mod 64) in *.
  assert (EE : idx + len - 1 = 64 * e + c) by (apply Nat.div_mod; lia). assert (Hc : c < 64) by (apply Nat.mod_upper_bound; lia).
  assert (NB : e < blocks). { unfold e. apply Nat.lt_le_trans with (n / 64 + 1); [|lia]. assert ((idx + len - 1) / 64 <= n / 64) by (apply Nat.div_le_mono; lia). lia. }
  clearbody w e a c. assert (We : w <= e) by lia. assert (Dl : w / r <= e / r) by (apply Nat.div_le_mono; [pose proof (r_pos k); lia|auto]).
  unfold ld. rewrite GW by lia. cbn [obind].
  unfold words_ok in Hm. rewrite Forall_forall in Hm. assert (WW : is_word (nth w m 0%N)) by (apply Hm, nth_In; lia).
  destruct (Nat.eqb_spec (w + w / r + 1) (e + e / r + 1)) as [E|E].
  - assert (w = e) by (revert E Dl We; clear; generalize (w / r), (e / r); lia). eexists. split; [reflexivity|]. intros j. rewrite tb_land, tb_shr, tb_lo_set. destruct (Nat.ltb_spec j len); [|now rewrite andb_false_r].
    rewrite andb_true_r. simpl. rewrite EI, <- Nat.add_assoc, mbit_wo by lia. f_equal. lia.
  - assert (w + 1 = e). { destruct (Nat.eq_dec w e) as [Q|Q]. rewrite Q in E. lia. lia. }
    rewrite GW by lia. cbn [obind]. unfold shl_c. destruct (Nat.ltb_spec (64 - a) 64) as [L|L]; [|lia]. cbn [obind].
    eexists. split; [reflexivity|]. intros j. rewrite tb_lor, tb_shr, tb_shl, tb_land, tb_lo_set.
    clear E Dl GW GD HN HP Hv NB. destruct (Nat.lt_ge_cases (j + a) 64) as [G|G].
    + replace (64 - a <=? j) with false by (symmetry; apply Nat.leb_gt; lia). rewrite ?andb_false_r, ?andb_false_l, orb_false_r.
      replace (j <? len) with true by (symmetry; apply Nat.ltb_lt; lia). simpl.
      rewrite EI, <- Nat.add_assoc, mbit_wo by lia. f_equal. lia.
    + rewrite (tb_word_high (nth w m 0%N)) by (auto; lia). cbn [orb]. replace (64 - a <=? j) with true by (symmetry; apply Nat.leb_le; lia).
      destruct (Nat.ltb_spec j len) as [J1|J1].
      * replace (idx + j) with (64 * e + (j - (64 - a))) by lia. rewrite mbit_wo by lia.
        replace (j <? 64) with true by (symmetry; apply Nat.ltb_lt; lia). replace (j - (64 - a) <? len - (64 - a)) with true by (symmetry; apply Nat.ltb_lt; lia).
        now rewrite ?andb_true_r, ?andb_true_l.
      * replace (j - (64 - a) <? len - (64 - a)) with false by (symmetry; apply Nat.ltb_ge; lia). cbn [andb]. now rewrite ?andb_false_r.
Qed.
End S.
