(** * API-level forms of the int_vector lemmas, in the shape used by PropIntVector.v *)
From Coq Require Import NArith ZArith List Bool Arith Lia.
From Verif Require Import Base Bits SpecBits RankSelect BitsMem
  IntVector SpecIntVector IntVectorProofs IntVectorProofs2 IntVectorProofs3.
Import ListNotations.

Ltac use_reads H := apply reads_unique in H; [|assumption]; rewrite H in *; clear H.

Lemma reads_exists : forall v, iv_ok v -> exists l, reads v l.
Proof. intros. exists (elems v). apply reads_elems. auto. Qed.

Lemma A_typed_get : forall k v l i, k = 8 \/ k = 16 \/ k = 32 \/ k = 64 -> iv_width v = k -> iv_ok v -> reads v l -> i < length l ->
  iv_get_sub k v i = Some (nth i l 0%N).
Proof.
  intros k v l i K W O R L. rewrite get_sub_ok; auto. apply R; auto. destruct R as [R _]. lia.
Qed.
Lemma A_typed_set : forall k v l i x, k = 8 \/ k = 16 \/ k = 32 \/ k = 64 -> iv_width v = k -> iv_ok v -> reads v l -> i < length l ->
  exists v', iv_set_sub k v i x = Some v' /\ iv_ok v' /\ iv_width v' = k /\ reads v' (upd l i (x mod 2 ^ N.of_nat k)%N).
Proof.
  intros k v l i x K W O R L. assert (L' : i < iv_len v) by (destruct R; lia). rewrite set_sub_ok; auto.
  destruct (ref_set_ok v i x O L') as [v' [E [O' [S' [W' [_ EL]]]]]]. exists v'. split; auto. split; auto. split; [congruence|].
  rewrite (reads_unique v l O R). rewrite <- W. rewrite <- EL. apply reads_elems. auto.
Qed.
Lemma A_bit_get : forall v l i, iv_width v = 1 -> iv_ok v -> reads v l -> i < length l ->
  exists b, bv_get v i = Some b /\ bv_ref_get v i = Some b /\ nth i l 0%N = b2n b.
Proof.
  intros v l i W O R L. assert (L' : i < iv_len v) by (destruct R; lia). rewrite (reads_unique v l O R).
  destruct (iv_elem_bound v i O L') as [B1 B2]. rewrite W in *. pose proof O as [A _].
  exists (mbit (iv_data v) i). rewrite bv_get_ok, bv_ref_get_ok by (auto; lia). repeat split; auto.
  rewrite nth_elems by auto. rewrite W. rewrite Nat.mul_1_r. apply field1.
Qed.
Lemma A_bit_set : forall v l i (b : bool), iv_width v = 1 -> iv_ok v -> reads v l -> i < length l ->
  exists v', bv_ref_set v i b = Some v' /\ iv_ok v' /\ iv_width v' = 1 /\ reads v' (upd l i (b2n b)).
Proof.
  intros v l i b W O R L. assert (L' : i < iv_len v) by (destruct R; lia). rewrite bv_ref_set_ok; auto.
  destruct (ref_set_ok v i (b2n b) O L') as [v' [E [O' [S' [W' [_ EL]]]]]]. exists v'. split; auto. split; auto. split; [congruence|].
  rewrite (reads_unique v l O R). rewrite W in EL. replace (b2n b mod 2 ^ N.of_nat 1)%N with (b2n b) in EL by (destruct b; auto).
  rewrite <- EL. apply reads_elems. auto.
Qed.

Lemma reads_bits : forall v v' l, iv_ok v -> iv_ok v' -> reads v l -> iv_size v' = iv_size v -> iv_width v' = iv_width v ->
  iv_bits v' = iv_bits v -> reads v' l.
Proof.
  intros v v' l O O' R S W B. rewrite (reads_unique v l O R). rewrite <- (bits_reads v' v); auto. apply reads_elems. auto.
Qed.
Lemma A_copy : forall g tw v l, fresh_ok g -> iv_ok v -> reads v l ->
  exists v', iv_copy g tw v = Some v' /\ iv_ok v' /\ iv_width v' = iv_width v /\ reads v' l.
Proof.
  intros g tw v l G O R. destruct (copy_ok g tw v G O) as [v' [E [O' [S [W B]]]]]. exists v'. repeat (split; auto).
  all: eapply (reads_bits v v' l); eauto.
Qed.
Lemma A_assign : forall g tw t v l, fresh_ok g -> iv_ok t -> iv_ok v -> (tw = 0 \/ iv_width t = iv_width v) -> reads v l ->
  exists v', iv_assign g tw t v = Some v' /\ iv_ok v' /\ iv_width v' = iv_width v /\ reads v' l.
Proof.
  intros g tw t v l G Ot O T R. destruct (assign_ok g tw t v G Ot O T) as [v' [E [O' [S [W B]]]]]. exists v'. repeat (split; auto).
  all: eapply (reads_bits v v' l); eauto.
Qed.

Lemma A_resize : forall g v l n, fresh_ok g -> iv_ok v -> reads v l ->
  exists v' l', iv_resize g v n = Some v' /\ iv_ok v' /\ iv_width v' = iv_width v /\ reads v' l' /\ length l' = n /\
    forall i, i < n -> i < length l -> nth i l' 0%N = nth i l 0%N.
Proof.
  intros g v l n G O R. destruct (resize_ok g v n G O) as [v' [E [O' [W [L K]]]]]. exists v', (elems v').
  split; auto. split; auto. split; auto. split; [apply reads_elems; auto|]. split; [rewrite elems_length; auto|].
  rewrite (reads_unique v l O R). rewrite elems_length. auto.
Qed.
Lemma A_bit_resize : forall g v n, fresh_ok g -> iv_ok v ->
  exists v', iv_bit_resize g v n = Some v' /\ iv_ok v' /\ iv_width v' = iv_width v /\ iv_size v' = n /\
    forall p, p < n -> p < iv_size v -> iv_bit v' p = iv_bit v p.
Proof.
  intros g v n G O. pose proof O as [A [B C]]. destruct (bit_resize_bits g v n G A C) as [v' [E [S [W [K [L [_ P]]]]]]].
  exists v'. split; auto. split. { split; auto. split; [lia|]. lia. }
  split; auto. split; auto. intros. rewrite !iv_bit_mbit by lia. auto.
Qed.
Lemma A_new : forall sr g tw n k w, fresh_ok g -> is_word k ->
  (tw = 0 /\ 1 <= w <= 64 \/ 1 <= tw <= 64 /\ w = tw) -> sr_ok sr w ->
  exists v, iv_new sr g tw n k w = Some v /\ iv_ok v /\ iv_width v = w /\ whole v /\ padding_ok v /\
    reads v (repeat (k mod 2 ^ N.of_nat w)%N n).
Proof.
  intros. destruct (new_ok sr g tw n k w) as [v [E [O [W [S [P L]]]]]]; auto. exists v. repeat (split; auto).
  - unfold whole. rewrite S. replace (iv_len v) with n; [congruence|]. unfold iv_len. rewrite S, W, Nat.div_mul; [auto|lia].
  - rewrite <- L, elems_length. auto. - rewrite <- L. apply reads_elems. auto.
Qed.

Lemma A_eq : forall v1 v2 l1 l2, iv_ok v1 -> iv_ok v2 -> iv_width v1 = iv_width v2 -> whole v1 -> whole v2 ->
  reads v1 l1 -> reads v2 l2 -> exists b, iv_eqb v1 v2 = Some b /\ (b = true <-> l1 = l2).
Proof.
  intros v1 v2 l1 l2 O1 O2 W H1 H2 R1 R2. rewrite (reads_unique v1 l1 O1 R1), (reads_unique v2 l2 O2 R2). apply eqb_elems; auto.
Qed.
Lemma A_lt : forall v1 v2 l1 l2, iv_ok v1 -> iv_ok v2 -> reads v1 l1 -> reads v2 l2 ->
  exists b, iv_ltb v1 v2 = Some b /\ (b = true <-> lex_lt l1 l2).
Proof. intros v1 v2 l1 l2 O1 O2 R1 R2. rewrite (reads_unique v1 l1 O1 R1), (reads_unique v2 l2 O2 R2). apply ltb_ok; auto. Qed.
Lemma A_gt : forall v1 v2 l1 l2, iv_ok v1 -> iv_ok v2 -> reads v1 l1 -> reads v2 l2 ->
  exists b, iv_gtb v1 v2 = Some b /\ (b = true <-> lex_lt l2 l1).
Proof. intros v1 v2 l1 l2 O1 O2 R1 R2. rewrite (reads_unique v1 l1 O1 R1), (reads_unique v2 l2 O2 R2). apply gtb_ok; auto. Qed.
Lemma A_le : forall v1 v2 l1 l2, iv_ok v1 -> iv_ok v2 -> iv_width v1 = iv_width v2 -> whole v1 -> whole v2 ->
  reads v1 l1 -> reads v2 l2 -> exists b, iv_leb v1 v2 = Some b /\ (b = true <-> lex_lt l1 l2 \/ l1 = l2).
Proof.
  intros v1 v2 l1 l2 O1 O2 W H1 H2 R1 R2. destruct (A_eq _ _ _ _ O1 O2 W H1 H2 R1 R2) as [b [E B]].
  destruct (A_lt _ _ _ _ O1 O2 R1 R2) as [b' [E' B']]. unfold iv_leb. rewrite E, E'. cbn [obind].
  destruct b, b'; cbn [orb]; eexists; (split; [reflexivity|]); tauto.
Qed.
Lemma A_ge : forall v1 v2 l1 l2, iv_ok v1 -> iv_ok v2 -> iv_width v1 = iv_width v2 -> whole v1 -> whole v2 ->
  reads v1 l1 -> reads v2 l2 -> exists b, iv_geb v1 v2 = Some b /\ (b = true <-> lex_lt l2 l1 \/ l1 = l2).
Proof.
  intros v1 v2 l1 l2 O1 O2 W H1 H2 R1 R2. destruct (A_eq _ _ _ _ O1 O2 W H1 H2 R1 R2) as [b [E B]].
  destruct (A_gt _ _ _ _ O1 O2 R1 R2) as [b' [E' B']]. unfold iv_geb. rewrite E, E'. cbn [obind].
  destruct b, b'; cbn [orb]; eexists; (split; [reflexivity|]); tauto.
Qed.
Lemma lex_strict_total : (forall l, ~ lex_lt l l) /\ (forall l1 l2 l3, lex_lt l1 l2 -> lex_lt l2 l3 -> lex_lt l1 l3) /\
  (forall l1 l2, lex_lt l1 l2 \/ l1 = l2 \/ lex_lt l2 l1).
Proof. split; [exact lex_irrefl|split; [exact lex_trans|exact lex_total]]. Qed.

Lemma A_iter : forall v l, iv_ok v -> reads v l ->
  let w := iv_width v in
  designates w (iv_begin v) 0 /\ designates w (iv_end v) (Z.of_nat (length l)) /\
  forall it i, designates w it i ->
    designates w (iter_inc it) (i + 1) /\ designates w (iter_dec it) (i - 1) /\
    (forall d, designates w (iter_add it d) (i + d) /\ designates w (iter_sub it d) (i - d)) /\
    (forall it' j, designates w it' j -> iter_eq it it' = (i =? j)%Z /\ iter_lt it it' = (i <? j)%Z /\ iter_gt it it' = (j <? i)%Z /\
        iter_diff it it' = (i - j)%Z /\ (i = j -> it = it')) /\
    (forall k, i = Z.of_nat k -> k < length l -> citer_get (iv_data v) it = Some (nth k l 0%N) /\ iter_get (iv_data v) it = Some (nth k l 0%N)).
Proof.
  intros v l O R w. pose proof O as [A [B C]]. assert (L : length l = iv_len v) by (destruct R; auto).
  split; [apply begin_designates|]. split; [rewrite L; apply end_designates|].
  intros it i D. split; [apply inc_designates; auto|]. split; [apply dec_designates; auto|]. split.
  { intros. split; [apply add_designates; auto|apply sub_designates; auto]. }
  split.
  - intros it' j D'. unfold w in *. rewrite (iter_eq_ok _ _ _ _ _ (proj1 B) D D'), (iter_lt_ok _ _ _ _ _ (proj1 B) D D'), (iter_gt_ok _ _ _ _ _ (proj1 B) D D'), (iter_diff_ok _ _ _ _ _ (proj1 B) D D').
    repeat split; auto. intros ->. eapply designates_unique; eauto.
  - intros k -> Hk. rewrite (reads_unique v l O R). apply iter_get_ok; auto. lia.
Qed.
Lemma A_iter_set : forall v l it i x, iv_ok v -> reads v l -> i < length l -> designates (iv_width v) it (Z.of_nat i) ->
  exists m', iter_set (iv_data v) it x = Some m' /\ let v' := mkiv (iv_size v) m' (iv_width v) in iv_ok v' /\
    reads v' (upd l i (x mod 2 ^ N.of_nat (iv_width v))%N).
Proof.
  intros v l it i x O R L D. assert (L' : i < iv_len v) by (destruct R; lia).
  destruct (iter_set_ok v it i x O L' D) as [m' [E1 E2]]. exists m'. split; auto. cbv zeta.
  destruct (ref_set_ok v i x O L') as [v' [E [O' [S' [W' [_ EL]]]]]]. rewrite E in E2. apply some_inj in E2. subst v'. split; auto.
  rewrite (reads_unique v l O R), <- EL. apply reads_elems. auto.
Qed.

Lemma A_bit_compress : forall g v l, fresh_ok g -> iv_ok v -> reads v l ->
  exists v', iv_bit_compress g 0 v = Some v' /\ iv_ok v' /\ reads v' l /\
    (forall x, In x l -> (x < 2 ^ N.of_nat (iv_width v'))%N) /\
    (forall w, 1 <= w -> (forall x, In x l -> (x < 2 ^ N.of_nat w)%N) -> iv_width v' <= w).
Proof.
  intros g v l G O R. destruct (bit_compress_ok g v G O) as [v' [E [O' [L [EL [M1 M2]]]]]]. exists v'.
  rewrite (reads_unique v l O R). split; auto. split; auto. split; auto. rewrite <- EL. apply reads_elems. auto.
Qed.
Lemma A_expand : forall g v l nw, fresh_ok g -> iv_ok v -> nw <= 64 -> reads v l ->
  exists v', iv_expand_width g 0 v nw = Some v' /\ iv_ok v' /\ iv_width v' = Nat.max (iv_width v) nw /\ reads v' l.
Proof.
  intros g v l nw G O H R. destruct (expand_width_ok g v nw G O H) as [v' [E [O' [W [L EL]]]]]. exists v'.
  rewrite (reads_unique v l O R). split; auto. split; auto. split; auto. rewrite <- EL. apply reads_elems. auto.
Qed.
Lemma A_mod : forall v l m, iv_ok v -> m <> 0%N -> reads v l -> exists v', iv_mod v m = Some v' /\ iv_ok v' /\ iv_width v' = iv_width v /\
  reads v' (map (fun x => (x mod m)%N) l).
Proof.
  intros v l m O M R. destruct (mod_ok v m O M) as [v' [E [O' [W EL]]]]. exists v'.
  rewrite (reads_unique v l O R). split; auto. split; auto. split; auto. rewrite <- EL. apply reads_elems. auto.
Qed.
Lemma A_set_to_value : forall sr v l k, iv_ok v -> is_word k -> sr_ok sr (iv_width v) -> reads v l ->
  exists v', iv_set_to_value sr v k = Some v' /\ iv_ok v' /\ iv_width v' = iv_width v /\
    reads v' (repeat (k mod 2 ^ N.of_nat (iv_width v))%N (length l)).
Proof.
  intros sr v l k O K S R. destruct (set_to_value_ok sr v k O K S) as [v' [E [O' [SS [W [_ EL]]]]]]. exists v'.
  destruct R as [<- _]. split; auto. split; auto. split; auto. rewrite <- EL. apply reads_elems. auto.
Qed.
Lemma A_set_to_id : forall v l, iv_ok v -> reads v l -> exists v', iv_set_to_id v = Some v' /\ iv_ok v' /\ iv_width v' = iv_width v /\
  reads v' (map (fun i => (N.of_nat i mod 2 ^ N.of_nat (iv_width v))%N) (seq 0 (length l))).
Proof.
  intros v l O R. destruct (set_to_id_ok v O) as [v' [E [O' [S [W EL]]]]]. exists v'. split; auto. split; auto. split; auto.
  destruct R as [<- _]. rewrite <- EL. apply reads_elems. auto.
Qed.

Lemma A_serialize_load : forall B B' g tw far tw' v l t rest, 0 < B -> 0 < B' -> fresh_ok g -> iv_ok v -> iv_ok t ->
  width_ok tw (iv_width v) -> width_ok tw' (iv_width t) -> (N.of_nat (iv_size v) < W64)%N -> reads v l ->
  (far = false /\ tw' = tw \/ far = true /\ tw' = 0) ->
  exists bytes v', iv_serialize B tw v far = Some (bytes, length bytes) /\ iv_load B' g tw' t (bytes ++ rest) = Some (v', rest) /\
    iv_ok v' /\ iv_size v' = iv_size v /\ iv_width v' = iv_width v /\ reads v' l.
Proof.
  intros B B' g tw far tw' v l t rest HB HB' G O Ot W W' S R T. pose proof Ot as [A [Bt C]].
  destruct (serialize_load B B' g tw far tw' v t rest HB HB' G O W S A C W' T) as [bytes [n [v' [E [En [EL [O' [S' [WW BB]]]]]]]]].
  exists bytes, v'. subst n. repeat (split; auto). all: eapply (reads_bits v v' l); eauto.
Qed.

Lemma A_and : forall v v2, iv_ok v -> iv_ok v2 -> iv_size v = iv_size v2 -> exists v', iv_bitop N.land v v2 = Some v' /\ iv_ok v' /\
  iv_width v' = iv_width v /\ iv_size v' = iv_size v /\ forall p, p < iv_size v -> iv_bit v' p = andb (iv_bit v p) (iv_bit v2 p).
Proof. intros. apply bitop_ok; auto. - intros. apply tb_land. - intros. apply is_word_land_l. auto. Qed.
Lemma A_or : forall v v2, iv_ok v -> iv_ok v2 -> iv_size v = iv_size v2 -> exists v', iv_bitop N.lor v v2 = Some v' /\ iv_ok v' /\
  iv_width v' = iv_width v /\ iv_size v' = iv_size v /\ forall p, p < iv_size v -> iv_bit v' p = orb (iv_bit v p) (iv_bit v2 p).
Proof. intros. apply bitop_ok; auto. - intros. apply tb_lor. - intros. apply is_word_lor; auto. Qed.
Lemma A_xor : forall v v2, iv_ok v -> iv_ok v2 -> iv_size v = iv_size v2 -> exists v', iv_bitop N.lxor v v2 = Some v' /\ iv_ok v' /\
  iv_width v' = iv_width v /\ iv_size v' = iv_size v /\ forall p, p < iv_size v -> iv_bit v' p = xorb (iv_bit v p) (iv_bit v2 p).
Proof. intros. apply bitop_ok; auto. - intros. apply tb_lxor. - intros. apply is_word_lxor; auto. Qed.

Lemma sr_ok_strict : forall w, w < 64 -> sr_ok shr_c w.
Proof. intros w H. split; [intros; apply shr_c_some; auto|]. intros. lia. Qed.
Lemma A_set_to_value_strict : forall v l k, iv_ok v -> is_word k -> iv_width v < 64 -> reads v l ->
  exists v', iv_set_to_value shr_c v k = Some v' /\ iv_ok v' /\ iv_width v' = iv_width v /\
    reads v' (repeat (k mod 2 ^ N.of_nat (iv_width v))%N (length l)).
Proof. intros. apply A_set_to_value; auto. apply sr_ok_strict. auto. Qed.
Lemma A_padding : forall g v n v', iv_ok v -> iv_bit_resize g v n = Some v' -> (iv_size v + 63) / 64 <> (n + 63) / 64 -> padding_ok v'.
Proof. intros. eapply bit_resize_padding; eauto. Qed.

(** ** concrete objects for the examples *)
Definition words_okb (m : mem) : bool := forallb (fun x => (x <? W64)%N) m.
Definition iv_okb (v : ivec) : bool :=
  words_okb (iv_data v) && ((1 <=? iv_width v) && (iv_width v <=? 64)) && (iv_size v <=? 64 * length (iv_data v)).
Lemma iv_okb_ok : forall v, iv_okb v = true -> iv_ok v.
Proof.
  intros v H. unfold iv_okb in H. rewrite !andb_true_iff in H. destruct H as [[H1 [H2 H3]] H4]. split; [|split; lia].
  unfold words_okb in H1. rewrite forallb_forall in H1. apply Forall_forall. intros x Hx. apply N.ltb_lt. auto.
Qed.
Definition readsb (v : ivec) (l : list N) : bool :=
  (iv_len v =? length l) && forallb (fun i => match iv_get v i with Some x => (x =? nth i l 0)%N | None => false end) (seq 0 (length l)).
Lemma readsb_ok : forall v l, readsb v l = true -> reads v l.
Proof.
  intros v l H. unfold readsb in H. rewrite andb_true_iff in H. destruct H as [H1 H2]. split; [lia|]. intros i Hi.
  rewrite forallb_forall in H2. specialize (H2 i). rewrite in_seq in H2. specialize (H2 ltac:(lia)).
  destruct (iv_get v i) as [x|]; [|discriminate]. f_equal. lia.
Qed.
Definition demo_g (i : nat) : N := 0xDEADBEEFDEADBEEF%N.
Lemma demo_g_ok : fresh_ok demo_g. Proof. intro. reflexivity. Qed.
Definition demo_ops : list iv_op := [OpSet 3 100; OpInc 3; OpDec 0; OpSwap 3 9; OpResize 11; OpAdd 10 200; OpDec 2; OpSub 2 5].
(** a 7-bit vector built with the API: 20 elements 5, then the operations above *)
Definition demo_v : ivec :=
  match (let* v := iv_new shr_c demo_g 0 20 5 7 in iv_run demo_g v demo_ops) with Some v => v | None => mkiv 0 [] 1 end.
Definition demo_l : list N := [4; 5; 127; 5; 5; 5; 5; 5; 5; 101; 77]%N.
Lemma demo_ok : iv_ok demo_v /\ reads demo_v demo_l /\ iv_width demo_v = 7.
Proof. split; [apply iv_okb_ok; vm_compute; reflexivity|]. split; [apply readsb_ok; vm_compute; reflexivity|vm_compute; reflexivity]. Qed.
(** a bit_vector of 130 bits, bits 0, 3, 70 and 129 set *)
Definition demo_b : ivec :=
  match (let* v := iv_new shr_c demo_g 1 130 0 1 in let* v := bv_ref_set v 0 true in let* v := bv_ref_set v 3 true in
         let* v := bv_ref_set v 70 true in bv_ref_set v 129 true) with Some v => v | None => mkiv 0 [] 1 end.
Lemma demo_b_ok : iv_ok demo_b /\ iv_size demo_b = 130 /\ iv_width demo_b = 1 /\
  iv_bits demo_b = map (fun i => (i =? 0) || (i =? 3) || (i =? 70) || (i =? 129)) (seq 0 130).
Proof. split; [apply iv_okb_ok; vm_compute; reflexivity|]. vm_compute. auto. Qed.
