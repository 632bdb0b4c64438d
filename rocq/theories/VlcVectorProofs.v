(** * vlc_vector *)
From Coq Require Import NArith List Bool Arith Lia.
From Verif Require Import Base Bits SpecBits BitsProofs BitsProofs2 BitsProofs3 BitsMem IntVector AbsVec SelectSupportProofs3 SdVectorProofs2 Coder CoderProofs CoderProofs2 SpecCoder CoderProofs4 EncVector SpecEnc EncVectorProofs EncVectorProofs2 EncVectorProofs3.
Import ListNotations.

Lemma lsum_cons : forall x l, list_sum (x :: l) = x + list_sum l. Proof. reflexivity. Qed.
Section V.
Variable sh : N -> nat -> option N.
Hypothesis SH : shift_like sh.
Variable c : coder.
Variable k : nat.
Hypothesis SC : sdsl_coder sh c k.
Variable dens tb : nat.
Hypothesis HD : 1 < dens.
Hypothesis HT : tb = 32 \/ tb = 64.
Notation slen l := (list_sum (map (c_len c) l)).
Notation inc := (tinc tb).

(** pointers, as in the loop *)
Fixpoint ptrs (ns : nat) (l : list N) (z : nat) : list N :=
  match l with
  | [] => []
  | x :: t => match ns with 0 => N.of_nat z :: ptrs (dens - 1) t (z + c_len c (inc x)) | S j => ptrs j t (z + c_len c (inc x)) end
  end.
Lemma vpass_ok : forall l ns w pre post z m w1 off m' w' o', ns < dens -> Forall (fun x => (x < 2 ^ N.of_nat w)%N) (ptrs ns l z) ->
  length (ptrs ns l z) <= length post -> enc_all (c_enc c) m w1 off (map inc l) = Some (m', w', o') ->
  vv_pass2 c dens tb l ns (length pre) (mkav w (pre ++ post)) z m w1 off = Some (mkav w (pre ++ ptrs ns l z ++ skipn (length (ptrs ns l z)) post), m').
Proof.
  induction l as [|x t IH]; intros ns w pre post z m w1 off m' w' o' HN F L E; cbn [vv_pass2 ptrs map enc_all] in *.
  - cbn. congruence.
  - destruct (c_enc c m w1 off (inc x)) as [[[m1 w2] o1]|] eqn:E1; [|discriminate]. cbn [obind] in E.
    destruct ns as [|j].
    + inversion_clear F. destruct post as [|p0 post]; [cbn in L; lia|].
      rewrite av_set_some by (auto; unfold av_size; cbn [av_l]; rewrite app_length; cbn [length]; lia). cbn [obind av_w av_l].
      rewrite upd_app_mid. cbn [obind].
      replace (pre ++ N.of_nat z :: post) with ((pre ++ [N.of_nat z]) ++ post) by (rewrite <- app_assoc; auto).
      replace (length pre + 1) with (length (pre ++ [N.of_nat z])) by (rewrite app_length; cbn [length]; lia).
      rewrite (IH (dens - 1) w (pre ++ [N.of_nat z]) post _ m1 w2 o1 m' w' o' ltac:(lia)); auto.
      2:{ cbn [length] in L. lia. }
      rewrite <- app_assoc. reflexivity.
    + cbn [obind]. replace (S j - 1) with j by lia. apply (IH j) with (w' := w') (o' := o'); auto. lia.
Qed.
Lemma ptrs_skip : forall a r z j, length a <= j -> ptrs j (a ++ r) z = ptrs (j - length a) r (z + slen (map inc a)).
Proof.
  induction a as [|y a IH]; intros r z j H. { cbn. rewrite Nat.add_0_r, Nat.sub_0_r. auto. }
  cbn [length] in *. destruct j; [lia|]. cbn [app ptrs map]. rewrite IH by lia. rewrite lsum_cons. f_equal. lia.
Qed.
Lemma ptrs_at : forall idx l z a es, length a = dens * idx -> es <> [] -> l = a ++ es ->
  nth_error (ptrs 0 l z) idx = Some (N.of_nat (z + slen (map inc a))).
Proof.
  induction idx as [|idx IH]; intros l z a es LA LE E.
  - rewrite Nat.mul_0_r in LA. apply length_zero_iff_nil in LA. subst a l. destruct es; [congruence|]. cbn. rewrite Nat.add_0_r. auto.
  - destruct a as [|y a]. { cbn [length] in LA. lia. }
    cbn [length] in LA. pose proof (firstn_skipn (dens - 1) a) as FS. remember (firstn (dens - 1) a) as b. remember (skipn (dens - 1) a) as a'.
    assert (LB : length b = dens - 1). { subst b. apply firstn_length_le. lia. }
    assert (LA' : length a' = dens * idx). { subst a'. rewrite skipn_length. lia. }
    subst l. rewrite <- FS. cbn [app ptrs nth_error]. rewrite <- app_assoc. rewrite ptrs_skip by lia. rewrite LB, Nat.sub_diag.
    rewrite (IH (a' ++ es) _ a' es LA' LE eq_refl). cbn [map]. rewrite lsum_cons, !map_app, list_sum_app. f_equal. f_equal. lia.
Qed.
Lemma ptrs_le : forall l ns z, Forall (fun x => (x <= N.of_nat (z + slen (map inc l)))%N) (ptrs ns l z).
Proof.
  induction l as [|x t IH]; intros; cbn [ptrs map]; auto. rewrite lsum_cons, Nat.add_assoc.
  destruct ns; [constructor; [lia|]|]; apply IH.
Qed.
Lemma ptrs_length : forall l ns z, ns < dens -> length (ptrs ns l z) = (length l + dens - 1 - ns) / dens.
Proof.
  induction l as [|x t IH]; intros ns z H; cbn [ptrs].
  - cbn [length]. symmetry. apply Nat.div_small. lia.
  - destruct ns as [|j].
    + cbn [length]. rewrite IH by lia. replace (S (length t) + dens - 1 - 0) with (length t + dens - 1 - (dens - 1) + 1 * dens) by lia.
      rewrite Nat.div_add by lia. lia.
    + rewrite IH by lia. cbn [length]. f_equal. lia.
Qed.
Lemma inc_ok : forall x, (x + 1 < 2 ^ N.of_nat tb)%N -> is_word (inc x) /\ inc x = (x + 1)%N.
Proof.
  intros x H. unfold tinc. rewrite N.mod_small by auto. split; auto. red. eapply N.lt_le_trans; [exact H|]. rewrite W64_pow. apply N.pow_le_mono_r; lia.
Qed.
Lemma vv_ok : forall g l, (forall i, is_word (g i)) -> Forall (fun x => (x + 1 < 2 ^ N.of_nat tb)%N) l -> fits_memory l ->
  exists v, vv_make c dens tb g l = Some (Some v) /\ vv_size v = length l /\
    forall i, i < length l -> vv_get c dens v i = Some (nth i l 0%N).
Proof.
  intros g l Hg F FM. destruct (Nat.eq_dec (length l) 0) as [Z|Z].
  - exists (mkvlcv [0%N] 0 av_nil 0). unfold vv_make. rewrite Z. cbn. split; auto. split; auto. intros; lia.
  - unfold vv_make. rewrite (proj2 (Nat.eqb_neq _ _) Z).
    assert (X : existsb (fun x => (inc x <? 1)%N) l = false).
    { apply not_true_iff_false. intro X. apply existsb_exists in X. destruct X as [x [X1 X2]]. rewrite Forall_forall in F. destruct (inc_ok x (F x X1)) as [_ E]. rewrite E in X2. lia. }
    rewrite X. remember (list_sum (map (fun x => c_len c (inc x)) l)) as z eqn:Ez.
    assert (Ez' : z = slen (map inc l)) by (rewrite map_map; auto). clear Ez.
    assert (WI : Forall is_word (map inc l)). { apply Forall_map. eapply Forall_impl; [|exact F]. intros x Hx. apply inc_ok. auto. }
    assert (ZL : (N.of_nat (z + 1) < W64)%N).
    { pose proof (slen_le (c_len c) (map inc l) 200 WI (fun x H => len_le sh c k x SC H)) as H. rewrite map_length, <- Ez' in H. red in FM. rewrite W64_pow. clear - H FM.
      remember (2 ^ 64)%N as B. clear HeqB. lia. }
    assert (M0 : exists m0, (if negb (z mod 64 =? 0) then st (map g (seq 0 (z / 64 + 1))) (z / 64) 0%N else Some (map g (seq 0 (z / 64 + 1)))) = Some m0 /\ words_ok m0 /\ length m0 = z / 64 + 1).
    { assert (WG : words_ok (map g (seq 0 (z / 64 + 1)))). { apply Forall_map. apply Forall_forall. intros; apply Hg. }
      assert (LG : length (map g (seq 0 (z / 64 + 1))) = z / 64 + 1) by (rewrite map_length, seq_length; auto).
      destruct (z mod 64 =? 0); cbn [negb]. { eexists. split; [reflexivity|]. auto. }
      unfold st. rewrite LG. replace (z / 64 <? z / 64 + 1) with true by lia. eexists. split; [reflexivity|]. split.
      - apply upd_forall; auto. apply is_word_0.
      - rewrite upd_length. auto. }
    destruct M0 as [m0 [M1 [M2 M3]]]. rewrite M1. cbn [obind].
    destruct (coder_law_ok sh c k SH SC (map inc l) m0 M2 WI) as [m' [w' [o' [R [LM [WM Q]]]]]]. { rewrite M3, <- Ez'. clear. lia. }
    pose proof (ptrs_length l 0 0 ltac:(lia)) as PL. rewrite Nat.sub_0_r in PL.
    pose proof (ptrs_le l 0 0) as PLe. rewrite <- Ez' in PLe. change (0 + z) with z in PLe.
    assert (PF : Forall (fun x => (x < 2 ^ N.of_nat (hiw (N.of_nat (z + 1))))%N) (ptrs 0 l 0)).
    { eapply Forall_impl; [|exact PLe]. intros x Hx. apply hiw_fits; auto. cbv beta in Hx. clear - Hx. lia. }
    pose proof (vpass_ok l 0 (hiw (N.of_nat (z + 1))) [] (repeat 0%N ((length l + dens - 1) / dens + 1)) 0 m0 0 0 m' w' o' ltac:(lia) PF) as V.
    rewrite repeat_length in V. specialize (V ltac:(clear - PL; lia) R). cbn [app length] in V.
    assert (AV : av_new ((length l + dens - 1) / dens + 1) 0 (hiw (N.of_nat (z + 1))) = mkav (hiw (N.of_nat (z + 1))) (repeat 0%N ((length l + dens - 1) / dens + 1))).
    { unfold av_new. rewrite N.mod_0_l; auto. apply N.pow_nonzero. discriminate. }
    rewrite AV, V. cbn [obind]. eexists. split; [reflexivity|]. split; [reflexivity|].
    intros i Hi. unfold vv_get. cbn [vv_sp vv_z].
    pose proof (Nat.div_mod i dens ltac:(lia)) as DM. pose proof (Nat.mod_upper_bound i dens ltac:(lia)) as MB.
    destruct (list_split_at l (dens * (i / dens)) (i mod dens) ltac:(lia) ltac:(lia)) as [a [x [es [r [E [LA [LE EX]]]]]]].
    pose proof (ptrs_at (i / dens) l 0 a (x :: es ++ r) LA ltac:(discriminate) E) as P.
    assert (PG : av_get (mkav (hiw (N.of_nat (z + 1))) (ptrs 0 l 0 ++ skipn (length (ptrs 0 l 0)) (repeat 0%N ((length l + dens - 1) / dens + 1)))) (i / dens) = Some (N.of_nat (0 + slen (map inc a)))).
    { unfold av_get. cbn [av_l]. rewrite nth_error_app1; auto. apply nth_error_Some. congruence. }
    rewrite PG. cbn [obind]. rewrite Nat2N.id. change (0 + slen (map inc a)) with (slen (map inc a)).
    destruct (Q (map inc a) (map inc (x :: es)) (map inc r) [] ) as [Q1 _].
    { rewrite E, <- !map_app. reflexivity. }
    { constructor. }
    { left. apply Forall_map. assert (FX : Forall (fun x => (x + 1 < 2 ^ N.of_nat tb)%N) (x :: es)).
      { rewrite E in F. apply Forall_app in F. destruct F as [_ F]. change (x :: es ++ r) with ((x :: es) ++ r) in F. apply Forall_app in F. tauto. }
      eapply Forall_impl; [|exact FX]. intros y Hy. destruct (inc_ok y Hy) as [_ ->]. clear. lia. }
    rewrite app_nil_r, map_length in Q1. cbn [length] in Q1. rewrite LE in Q1.
    replace (i - dens * (i / dens) + 1) with (S (i mod dens)) by lia. rewrite Q1. cbn [obind].
    assert (LL : last (map inc (x :: es)) 0%N = inc (nth i l 0%N)).
    { pose proof (nth_split_last a es r x) as NS. rewrite <- E, LA, LE in NS. replace (dens * (i / dens) + i mod dens) with i in NS by lia. rewrite NS.
      clear. revert x. induction es as [|y es IH]; intro x; [reflexivity|]. change (last (map inc (x :: y :: es)) 0%N) with (last (map inc (y :: es)) 0%N). rewrite IH. rewrite last_cons. auto. }
    rewrite LL. f_equal. destruct (inc_ok (nth i l 0%N)) as [W1 ->]. { apply (proj1 (Forall_nth _ _) F). auto. }
    assert (B : (nth i l 0 + 1 < W64)%N). { pose proof (proj1 (Forall_nth _ _) F i 0%N Hi) as FN. cbv beta in FN. eapply N.lt_le_trans; [exact FN|]. rewrite W64_pow. apply N.pow_le_mono_r; lia. }
    unfold wsub. clear - B. remember (nth i l 0%N) as y. replace (y + 1 + (W64 - 1))%N with (y + 1 * W64)%N by (unfold W64; lia). rewrite N.mod_add by discriminate. apply N.mod_small. lia.
Qed.
Lemma vv_throws : forall g l, length l <> 0 -> Exists (fun x => (x + 1 = 2 ^ N.of_nat tb)%N) l -> vv_make c dens tb g l = Some None.
Proof.
  intros g l Z H. unfold vv_make. rewrite (proj2 (Nat.eqb_neq _ _) Z).
  replace (existsb (fun x => (inc x <? 1)%N) l) with true; auto. symmetry. apply existsb_exists. apply Exists_exists in H. destruct H as [x [I E]].
  exists x. split; auto. unfold tinc. rewrite E, N.mod_same; auto. apply N.pow_nonzero. discriminate.
Qed.
End V.
