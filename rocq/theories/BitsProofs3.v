(** * Proofs about sel, cnt10/cnt01, cnt11, hi11, sel11 (Bits.v). *)
From Coq Require Import NArith ZArith List Lia Bool Arith.
From Verif Require Import Base Tables Bits SpecBits BitsProofs BitsProofs2 RankSelect.
Import ListNotations.
Local Open Scope N_scope.

(** ** sel *)
Lemma land_pow2_test : forall b k, negb (N.land b (2 ^ N.of_nat k) =? 0) = tb b k.
Proof.
  intros. destruct (tb b k) eqn:T.
  - apply negb_true_iff, N.eqb_neq. intro E.
    assert (tb (N.land b (2 ^ N.of_nat k)) k = false) by (rewrite E; apply tb_0).
    rewrite tb_land, T in H. unfold tb in H. rewrite N.pow2_bits_true in H. discriminate.
  - apply negb_false_iff, N.eqb_eq. apply tb_ext. intro j. rewrite tb_land, tb_0.
    unfold tb at 2. rewrite N.pow2_bits_eqb. destruct (N.eqb_spec (N.of_nat k) (N.of_nat j)); [|apply andb_false_r].
    replace j with k by lia. rewrite T. auto.
Qed.

Lemma nth_psums : forall l acc i, (i < length l)%nat ->
  nth i (psums acc l) 0 = acc + nsum (firstn (S i) l).
Proof.
  induction l; intros; simpl in *. lia.
  destruct i; cbn [nth firstn]; unfold nsum; cbn [fold_right].
  - lia.
  - rewrite IHl by lia. unfold nsum. cbn [firstn fold_right]. destruct l; [simpl in H; lia|].
    cbn [fold_right]. lia.
Qed.

(** positions of the one bits, byte by byte *)
Fixpoint bpos (o : nat) (l : list N) : list nat :=
  match l with
  | [] => []
  | b :: t => map (Nat.add o) (positions (tb b) 8) ++ bpos (o + 8) t
  end.

Lemma map_add_bpos : forall l o a, map (Nat.add a) (bpos o l) = bpos (a + o) l.
Proof.
  induction l; intros; cbn [bpos map]; auto. rewrite map_app, map_map, IHl. f_equal.
  - apply map_ext. intros. lia.
  - f_equal. lia.
Qed.

Lemma positions_bytes : forall l, digs_ok 8 l -> positions (tb (undig 8 l)) (8 * length l) = bpos 0 l.
Proof.
  induction 1; auto. cbn [undig bpos length].
  replace (8 * S (length l))%nat with (8 + 8 * length l)%nat by lia.
  rewrite positions_add. f_equal.
  - rewrite (positions_ext _ (tb x)).
    + rewrite <- (map_id (positions (tb x) 8)) at 1. apply map_ext. intros. lia.
    + intros. rewrite tb_cat by auto. apply Nat.ltb_lt in H1. rewrite H1. auto.
  - rewrite (positions_ext _ (tb (undig 8 l))).
    + rewrite IHForall. rewrite map_add_bpos. f_equal.
    + intros. rewrite tb_cat by auto. destruct (Nat.ltb_spec (8 + j) 8); try lia. f_equal. lia.
Qed.

Lemma pop8_positions : forall b, pop8 b = N.of_nat (length (positions (tb b) 8)).
Proof. intros. unfold pop8. f_equal. apply count_true_map. Qed.

Lemma nth_bpos : forall l o j i, (j < length l)%nat ->
  nsum (map pop8 (firstn j l)) <= N.of_nat i < nsum (map pop8 (firstn (S j) l)) ->
  nth i (bpos o l) 0%nat =
   (o + 8 * j + nth (i - N.to_nat (nsum (map pop8 (firstn j l)))) (positions (tb (nth j l 0%N)) 8) 0)%nat.
Proof.
  induction l; intros; simpl in H; [lia|].
  destruct j; cbn [firstn map nsum fold_right nth bpos] in *.
  - unfold nsum in H0. cbn [fold_right] in H0. rewrite pop8_positions in H0.
    rewrite app_nth1 by (rewrite map_length; lia).
    rewrite nth_indep with (d' := (o + 0)%nat) by (rewrite map_length; lia).
    rewrite map_nth. change (N.to_nat (nsum [])) with 0%nat. rewrite Nat.sub_0_r. lia.
  - unfold nsum in *. cbn [fold_right] in *.
    set (a1 := fold_right N.add 0 (map pop8 (firstn j l))) in *.
    rewrite app_nth2; rewrite map_length.
    + rewrite (IHl (o + 8)%nat j); [|lia|].
      * rewrite !pop8_positions in *. fold a1. rewrite Nat.mul_succ_r.
        replace (i - length (positions (tb a) 8) - N.to_nat a1)%nat with
          (i - N.to_nat (N.of_nat (length (positions (tb a) 8)) + a1))%nat by lia. lia.
      * rewrite !pop8_positions in *. cbn [firstn map fold_right] in *. fold a1. lia.
    + rewrite !pop8_positions in *. lia.
Qed.

Lemma lt_sel_ok : forall b k, b < 256 -> N.of_nat k < pop8 b ->
  lt_sel_at (N.of_nat k * 256 + b) = Some (N.of_nat (nth k (positions (tb b) 8) 0%nat)).
Proof.
  intros.
  pose (P := fun b => forallb (fun k => negb (N.of_nat k <? pop8 b) ||
     match lt_sel_at (N.of_nat k * 256 + b) with
     | Some v => v =? N.of_nat (nth k (positions (tb b) 8) 0%nat) | None => false end) (seq 0 8)).
  assert (HP : P b = true) by (apply forall_byte; auto; vm_compute; reflexivity).
  unfold P in HP. rewrite forallb_forall in HP. specialize (HP k).
  assert (pop8 b <= 8) by (apply byte_cnt; auto).
  assert (In k (seq 0 8)) by (apply in_seq; lia). apply HP in H2.
  apply N.ltb_lt in H0. rewrite H0 in H2. simpl in H2.
  destruct (lt_sel_at (N.of_nat k * 256 + b)); [|discriminate].
  apply N.eqb_eq in H2. subst. auto.
Qed.

Lemma ps_overflow_ok : forall i, (i <= 64)%nat ->
  nth_error tbl_ps_overflow i = Some ((128 - N.of_nat i) * m01).
Proof.
  intros.
  assert (forallb (fun i => match nth_error tbl_ps_overflow i with
     | Some v => v =? (128 - N.of_nat i) * m01 | None => false end) (seq 0 65) = true) by reflexivity.
  rewrite forallb_forall in H0. specialize (H0 i). assert (In i (seq 0 65)) by (apply in_seq; lia).
  apply H0 in H1. destruct (nth_error tbl_ps_overflow i); [|discriminate]. apply N.eqb_eq in H1. subst. auto.
Qed.

Lemma tb7_byte : forall a, a < 256 -> tb a 7 = (128 <=? a).
Proof.
  intros. apply eqb_prop. apply (forall_byte (fun a => eqb (tb a 7) (128 <=? a))); auto.
Qed.

Lemma tb_undig7 : forall l j s, digs_ok 8 l -> s = (8 * j + 7)%nat -> tb (undig 8 l) s = (128 <=? nth j l 0).
Proof.
  intros l j s O ->. rewrite <- (undig_digit 8 l j O).
  rewrite <- tb7_byte by (apply N.mod_lt; discriminate).
  rewrite tb_mod_pow2, <- shr_div, tb_shr. change (7 <? 8)%nat with true. simpl andb. f_equal. lia.
Qed.

Lemma firstn_S_nth : forall A (l : list A) j d, (j < length l)%nat -> firstn (S j) l = firstn j l ++ [nth j l d].
Proof.
  induction l; intros; simpl in H; [lia|]. destruct j; auto.
  change (firstn (S (S j)) (a :: l)) with (a :: firstn (S j) l). rewrite (IHl j d) by lia. reflexivity.
Qed.
Lemma nsum_app : forall a b, nsum (a ++ b) = nsum a + nsum b.
Proof. induction a; intros; unfold nsum in *; cbn [app fold_right]. lia. rewrite IHa. lia. Qed.

(** hides a hypothesis from [lia] *)
Definition boxed (P : Prop) : Prop := P.
Lemma box : forall P : Prop, P -> boxed P. Proof. auto. Qed.
Lemma unbox : forall P : Prop, boxed P -> P. Proof. auto. Qed.

Lemma sel_correct : forall x i, is_word x -> (1 <= i <= popcount x)%nat ->
  exists p, sel x (N.of_nat i) = Some (N.of_nat p) /\ is_select (tb x) i p.
Proof.
  intros x i Hx Hi. rewrite popcount_rank in Hi.
  exists (nth (i - 1) (positions (tb x) 64) 0%nat). split.
  2:{ destruct (nth_positions (tb x) 64 (i - 1) 0) as [A _]; [lia|].
      replace (i - 1 + 1)%nat with i in A by lia. auto. }
  rewrite <- popcount_rank in Hi.
  assert (Hi64 : (i <= 64)%nat).
  { rewrite popcount_rank in Hi. pose proof (rank_of_le (tb x) 64). lia. }
  assert (Hii : 1 <= N.of_nat i <= 64) by lia.
  destruct (word_bytes x Hx) as [l [[L O] ->]].
  pose proof (popcount_bytes l (conj L O)) as PB.
  assert (Pos : positions (tb (undig 8 l)) 64 = bpos 0 l) by (rewrite <- positions_bytes, L by auto; reflexivity).
  rewrite Pos. clear Pos.
  unfold sel. cbv zeta. rewrite swar123_bytes by (split; auto).
  assert (F8 : Forall (fun a => a <= 8) (map pop8 l)) by (apply pop8_le; auto).
  rewrite swar4_bytes; auto; [|rewrite map_length; auto].
  rewrite Nat2N.id, ps_overflow_ok by auto. cbn [obind].
  (* the table of candidate answers *)
  assert (Key : forall j, (j < 8)%nat ->
     nsum (map pop8 (firstn j l)) < N.of_nat i <= nsum (map pop8 (firstn (S j) l)) ->
     let ix := (N.of_nat i - 1 - nsum (map pop8 (firstn j l))) * 256 + nth j l 0 in
     lt_sel_at ix =
       Some (N.of_nat (nth (i - 1) (bpos 0 l) 0%nat) - 8 * N.of_nat j) /\
     8 * N.of_nat j <= N.of_nat (nth (i - 1) (bpos 0 l) 0%nat) /\ ix < 2048).
  { intros j Hj Hb ix. subst ix.
    assert (Bj : nth j l 0 < 256).
    { apply (proj1 (Forall_forall _ _) O). apply nth_In. lia. }
    rewrite (nth_bpos l 0 j (i - 1)) by lia.
    set (S0 := nsum (map pop8 (firstn j l))) in *.
    assert (D : nsum (map pop8 (firstn (S j) l)) = S0 + pop8 (nth j l 0)).
    { subst S0. rewrite (firstn_S_nth _ _ j 0) by lia. rewrite map_app, nsum_app.
      unfold nsum at 2. cbn [map fold_right]. lia. }
    replace (N.of_nat i - 1 - S0) with (N.of_nat (i - 1 - N.to_nat S0)) by lia.
    rewrite lt_sel_ok by (auto; lia).
    assert (pop8 (nth j l 0) <= 8) by (apply byte_cnt; auto).
    split; [f_equal; lia|]. lia. }
  destruct l as [|b0 [|b1 [|b2 [|b3 [|b4 [|b5 [|b6 [|b7 [|]]]]]]]]]; try discriminate.
  assert (K0 := Key 0%nat ltac:(lia)). assert (K1 := Key 1%nat ltac:(lia)).
  assert (K2 := Key 2%nat ltac:(lia)). assert (K3 := Key 3%nat ltac:(lia)).
  assert (K4 := Key 4%nat ltac:(lia)). assert (K5 := Key 5%nat ltac:(lia)).
  assert (K6 := Key 6%nat ltac:(lia)). assert (K7 := Key 7%nat ltac:(lia)). clear Key.
  set (ans := nth (i - 1) (bpos 0 [b0;b1;b2;b3;b4;b5;b6;b7]) 0%nat) in *. clearbody ans.
  cbv zeta in K0, K1, K2, K3, K4, K5, K6, K7.
  cbn [map firstn nsum fold_right nth] in K0, K1, K2, K3, K4, K5, K6, K7, F8, PB.
  unfold nsum in K0, K1, K2, K3, K4, K5, K6, K7, PB. cbn [fold_right] in K0, K1, K2, K3, K4, K5, K6, K7, PB.
  apply box in K0. apply box in K1. apply box in K2. apply box in K3.
  apply box in K4. apply box in K5. apply box in K6. apply box in K7.
  cbn [map psums].
  set (p0 := pop8 b0) in *. set (p1 := pop8 b1) in *. set (p2 := pop8 b2) in *. set (p3 := pop8 b3) in *.
  set (p4 := pop8 b4) in *. set (p5 := pop8 b5) in *. set (p6 := pop8 b6) in *. set (p7 := pop8 b7) in *.
  clearbody p0 p1 p2 p3 p4 p5 p6 p7.
  repeat match goal with H : Forall _ (_ :: _) |- _ => inversion H; clear H; subst end.
  set (ii := N.of_nat i) in *.
  set (c := 128 - ii) in *.
  set (B := [0 + p0 + c; 0 + p0 + p1 + c; 0 + p0 + p1 + p2 + c; 0 + p0 + p1 + p2 + p3 + c;
     0 + p0 + p1 + p2 + p3 + p4 + c; 0 + p0 + p1 + p2 + p3 + p4 + p5 + c;
     0 + p0 + p1 + p2 + p3 + p4 + p5 + p6 + c; 0 + p0 + p1 + p2 + p3 + p4 + p5 + p6 + p7 + c]).
  set (PS := [0 + p0; 0 + p0 + p1; 0 + p0 + p1 + p2; 0 + p0 + p1 + p2 + p3;
     0 + p0 + p1 + p2 + p3 + p4; 0 + p0 + p1 + p2 + p3 + p4 + p5;
     0 + p0 + p1 + p2 + p3 + p4 + p5 + p6; 0 + p0 + p1 + p2 + p3 + p4 + p5 + p6 + p7]).
  assert (Htot : ii <= p0 + (p1 + (p2 + (p3 + (p4 + (p5 + (p6 + (p7 + 0)))))))) by (subst ii; lia).
  clear PB Hi. clearbody ii.
  assert (EB : wadd (undig 8 PS) (c * m01) = undig 8 B).
  { unfold wadd, B, PS, m01. cbn [undig]. unfold cat. change (2 ^ N.of_nat 8) with 256. unfold W64.
    rewrite N.mod_small; lia. }
  assert (OB : digs_ok 8 B).
  { unfold B, digs_ok. change (2 ^ N.of_nat 8) with 256. repeat constructor; lia. }
  assert (OP : digs_ok 8 PS).
  { unfold PS, digs_ok. change (2 ^ N.of_nat 8) with 256. repeat constructor; lia. }
  pose proof O as OX. unfold digs_ok in O.
  repeat match goal with H : Forall _ (_ :: _) |- _ => inversion H; clear H; subst end.
  rewrite EB. clear EB. set (X := [b0;b1;b2;b3;b4;b5;b6;b7]) in *.
  change 0x80000000 with (2 ^ N.of_nat 31). change 0x8000 with (2 ^ N.of_nat 15). change 0x80 with (2 ^ N.of_nat 7).
  change 0x800000 with (2 ^ N.of_nat 23). change 0x800000000000 with (2 ^ N.of_nat 47).
  change 0x8000000000 with (2 ^ N.of_nat 39). change 0x80000000000000 with (2 ^ N.of_nat 55).
  rewrite !land_pow2_test.
  rewrite (tb_undig7 B 3 31), (tb_undig7 B 1 15), (tb_undig7 B 0 7), (tb_undig7 B 2 23), (tb_undig7 B 5 47),
    (tb_undig7 B 4 39), (tb_undig7 B 6 55) by auto.
  unfold B. cbn [nth].
  (* the (sum << 8) terms *)
  assert (FF : forall j s, s = (8 * j)%nat -> N.land (shr (undig 8 PS) s) 0xFF00 = 256 * nth (S j) PS 0).
  { intros j s ->. rewrite <- (undig_byte PS (S j) (8 * S j) eq_refl OP).
    change 0xFF00 with (N.shiftl 0xFF (N.of_nat 8)).
    apply tb_ext. intro k. change 256 with (2 ^ N.of_nat 8). rewrite N.mul_comm, <- N.shiftl_mul_pow2, tb_shiftl.
    rewrite !tb_land, tb_shiftl, !tb_shr.
    destruct (Nat.leb_spec 8 k); simpl; [|apply andb_false_r]. f_equal. f_equal. lia. }
  assert (FF0 : N.land (undig 8 PS) 0xFF00 = 256 * nth 1 PS 0).
  { rewrite <- (FF 0%nat 0%nat eq_refl). unfold shr. rewrite N.shiftr_0_r. auto. }
  assert (S8 : shl (N.land (undig 8 PS) 0xFF) 8 = 256 * nth 0 PS 0).
  { rewrite <- (undig_byte PS 0 0 eq_refl OP). unfold shr at 1. rewrite N.shiftr_0_r.
    rewrite shl_mul. change 255 with (lo_set 8). rewrite land_lo_set.
    change (2 ^ N.of_nat 8) with 256. rewrite N.mod_small; [lia|].
    assert (undig 8 PS mod 256 < 256) by (apply N.mod_lt; discriminate). unfold W64. lia. }
  assert (X0 : N.land (undig 8 X) 0xFF = b0).
  { change b0 with (nth 0 X 0). rewrite <- (undig_byte X 0 0 eq_refl OX). unfold shr. rewrite N.shiftr_0_r. auto. }
  rewrite FF0, S8, X0.
  rewrite (FF 1%nat 8%nat eq_refl), (FF 2%nat 16%nat eq_refl), (FF 3%nat 24%nat eq_refl), (FF 4%nat 32%nat eq_refl),
    (FF 5%nat 40%nat eq_refl).
  rewrite (undig_byte X 1 8 eq_refl OX), (undig_byte X 2 16 eq_refl OX), (undig_byte X 3 24 eq_refl OX),
    (undig_byte X 4 32 eq_refl OX), (undig_byte X 5 40 eq_refl OX), (undig_byte X 6 48 eq_refl OX),
    (undig_byte X 7 56 eq_refl OX).
  unfold X, PS. cbn [nth].
  assert (I8 : ((ii + (2 ^ 32 - 1)) mod 2 ^ 32 * 256) mod 2 ^ 32 = (ii - 1) * 256).
  { change (2 ^ 32) with 4294967296. replace (ii + (4294967296 - 1)) with (ii - 1 + 1 * 4294967296) by lia.
    rewrite N.mod_add by discriminate. rewrite (N.mod_small (ii - 1)) by lia. apply N.mod_small. lia. }
  rewrite I8.
  assert (IX : forall a d, a < 256 -> d <= ii - 1 -> (ii - 1 - d) * 256 + a < 2048 ->
     sel_ix a ((ii - 1) * 256) (256 * d) = (ii - 1 - d) * 256 + a).
  { intros. unfold sel_ix. rewrite wadd_small by (unfold W64; lia).
    rewrite wsub_small by (unfold is_word, W64; lia).
    change 2047 with (lo_set 11). rewrite land_lo_set. rewrite N.mod_small; [lia|].
    change (2 ^ N.of_nat 11) with 2048. lia. }
  change (2 ^ N.of_nat 8) with 256 in *.
  assert (C : c = 128 - ii) by reflexivity. clearbody c.
  repeat match goal with
  | |- context [if ?a <=? ?b then _ else _] => destruct (N.leb_spec a b)
  end.
  - apply unbox in K0. destruct K0 as [A1 [A2 A3]]; [lia|]. replace (b0 + (ii - 1) * 256) with ((ii - 1 - 0) * 256 + b0) by lia.
    rewrite A1. f_equal. lia.
  - apply unbox in K1. destruct K1 as [A1 [A2 A3]]; [lia|]. rewrite IX; try assumption; try lia.
    match goal with |- context [lt_sel_at ?e] => match type of A1 with lt_sel_at ?e' = _ => replace e with e' by lia end end.
    rewrite A1. cbn [obind]. f_equal. lia.
  - apply unbox in K2. destruct K2 as [A1 [A2 A3]]; [lia|]. rewrite IX; try assumption; try lia.
    match goal with |- context [lt_sel_at ?e] => match type of A1 with lt_sel_at ?e' = _ => replace e with e' by lia end end.
    rewrite A1. cbn [obind]. f_equal. lia.
  - apply unbox in K3. destruct K3 as [A1 [A2 A3]]; [lia|]. rewrite IX; try assumption; try lia.
    match goal with |- context [lt_sel_at ?e] => match type of A1 with lt_sel_at ?e' = _ => replace e with e' by lia end end.
    rewrite A1. cbn [obind]. f_equal. lia.
  - apply unbox in K4. destruct K4 as [A1 [A2 A3]]; [lia|]. rewrite IX; try assumption; try lia.
    match goal with |- context [lt_sel_at ?e] => match type of A1 with lt_sel_at ?e' = _ => replace e with e' by lia end end.
    rewrite A1. cbn [obind]. f_equal. lia.
  - apply unbox in K5. destruct K5 as [A1 [A2 A3]]; [lia|]. rewrite IX; try assumption; try lia.
    match goal with |- context [lt_sel_at ?e] => match type of A1 with lt_sel_at ?e' = _ => replace e with e' by lia end end.
    rewrite A1. cbn [obind]. f_equal. lia.
  - apply unbox in K6. destruct K6 as [A1 [A2 A3]]; [lia|]. rewrite IX; try assumption; try lia.
    match goal with |- context [lt_sel_at ?e] => match type of A1 with lt_sel_at ?e' = _ => replace e with e' by lia end end.
    rewrite A1. cbn [obind]. f_equal. lia.
  - apply unbox in K7. destruct K7 as [A1 [A2 A3]]; [lia|]. rewrite IX; try assumption; try lia.
    match goal with |- context [lt_sel_at ?e] => match type of A1 with lt_sel_at ?e' = _ => replace e with e' by lia end end.
    rewrite A1. cbn [obind]. f_equal. lia.
Qed.
