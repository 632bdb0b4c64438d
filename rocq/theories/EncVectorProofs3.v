(** * enc_vector: construction and queries *)
From Coq Require Import NArith List Bool Arith Lia.
From Verif Require Import Base Bits SpecBits BitsProofs BitsProofs2 BitsProofs3 BitsMem IntVector AbsVec SelectSupportProofs3 SdVectorProofs2 Coder CoderProofs CoderProofs2 SpecCoder CoderProofs4 EncVector SpecEnc EncVectorProofs EncVectorProofs2.
Import ListNotations.

Lemma slen_le : forall (len : N -> nat) l b, Forall is_word l -> (forall x, is_word x -> len x <= b) -> list_sum (map len l) <= b * length l.
Proof.
  intros len l b H L. induction H as [|x l Hx H IH]; [cbn; lia|]. change (list_sum (map len (x :: l))) with (len x + list_sum (map len l)).
  specialize (L x Hx). cbn [length]. lia.
Qed.
Lemma list_split_at : forall (l : list N) i k, i < length l -> i + k < length l ->
  exists a x es r, l = a ++ x :: es ++ r /\ length a = i /\ length es = k /\ x = nth i l 0%N.
Proof.
  intros l i k H1 H2. exists (firstn i l), (nth i l 0%N), (firstn k (skipn (S i) l)), (skipn k (skipn (S i) l)).
  rewrite firstn_skipn. split; [|split; [|split; auto]].
  - rewrite <- (firstn_skipn i l) at 1. f_equal. clear k H2. revert l H1. induction i; intros [|y l] H1; cbn [length] in H1; try lia; [reflexivity|].
    cbn [skipn nth]. apply IHi. lia.
  - rewrite firstn_length_le; lia.
  - rewrite firstn_length_le; auto. rewrite skipn_length. lia.
Qed.
Lemma nth_split_last : forall (a es r : list N) x, nth (length a + length es) (a ++ x :: es ++ r) 0%N = last es x.
Proof.
  intros a es r x. rewrite app_nth2_plus. destruct es as [|y es] using rev_ind; [reflexivity|].
  rewrite last_last, app_length. cbn [length]. rewrite Nat.add_1_r. cbn [nth]. rewrite <- app_assoc. rewrite app_nth2 by lia. rewrite Nat.sub_diag. reflexivity.
Qed.
Lemma steps_of_input : forall tb l, enc_input tb l -> steps tb l /\ tb <= 64.
Proof.
  intros tb l [[-> H]|[-> [H M]]].
  - split; [|lia]. split; [exact H|]. intros k Hk. unfold tsub.
    assert (A : is_word (nth k l 0%N)) by (apply (proj1 (Forall_nth _ _) H); lia).
    assert (B : is_word (nth (S k) l 0%N)) by (apply (proj1 (Forall_nth _ _) H); lia).
    change (2 ^ N.of_nat 64)%N with W64. rewrite N.add_mod_idemp_r by discriminate. unfold is_word in *.
    replace (nth k l 0 + (nth (S k) l 0 + (W64 - nth k l 0)))%N with (nth (S k) l 0 + 1 * W64)%N by lia.
    rewrite N.mod_add by discriminate. apply N.mod_small. auto.
  - assert (H32 : forall k, k < length l -> (nth k l 0 < 2 ^ 32)%N) by (intros; apply (proj1 (Forall_nth _ _) H); auto).
    split; [|lia]. split.
    + eapply Forall_impl; [|exact H]. intros a Ha. red. cbv beta in Ha. eapply N.lt_trans; [exact Ha|reflexivity].
    + intros k Hk. specialize (M k Hk). pose proof (H32 k ltac:(lia)) as A. pose proof (H32 (S k) Hk) as B. unfold tsub. change (N.of_nat 32) with 32%N.
      remember (nth k l 0%N) as a. remember (nth (S k) l 0%N) as b.
      replace (b + (2 ^ 32 - a))%N with (b - a + 1 * 2 ^ 32)%N by lia. rewrite N.mod_add by discriminate.
      rewrite (N.mod_small (b - a)) by lia. replace (a + (b - a))%N with b by lia. apply N.mod_small. eapply N.lt_trans; [exact B|reflexivity].
Qed.

Section V.
Variable sh : N -> nat -> option N.
Hypothesis SH : shift_like sh.
Variable c : coder.
Variable k : nat.
Hypothesis SC : sdsl_coder sh c k.
Variable dens tb tw : nat.
Hypothesis HD : 1 < dens.
Hypothesis HT : tw = 0 \/ tw = 64.
Variable l : list N.
Hypothesis HI : enc_input tb l.
Hypothesis FM : fits_memory l.
Hypothesis NE : l <> [].
Notation slen l := (list_sum (map (c_len c) l)).
Notation D := (ds dens tb 0 0 l).

Definition ev_rep (v : encv) : Prop := ev_size v = length l /\ ev_zbits v = slen D /\
  (exists rest, av_l (ev_sp v) = sps c dens tb 0 0 l 0 ++ rest) /\
  exists w o, enc_all (c_enc c) (repeat 0%N (slen D / 64 + 1)) 0 0 D = Some (ev_z v, w, o).

Lemma wordsl : Forall is_word l. Proof. apply (steps_of_input tb l HI). Qed.
Lemma tb64 : tb <= 64. Proof. apply (steps_of_input tb l HI). Qed.
Lemma zlen : (N.of_nat (slen D + 1) < W64)%N.
Proof.
  pose proof (slen_le (c_len c) D 200 (ds_words dens tb l 0 0%N tb64) (fun x H => len_le sh c k x SC H)).
  pose proof (ds_length dens tb l 0 0%N). red in FM. rewrite W64_pow. change (2 ^ 64)%N with (2 ^ 64)%N in FM. clear - H H0 FM.
  remember (2 ^ 64)%N as B. clear HeqB. remember (length l) as n. remember (list_sum _) as s. lia.
Qed.
Lemma mem0 : words_ok (repeat 0%N (slen D / 64 + 1)) /\ slen D <= 64 * length (repeat 0%N (slen D / 64 + 1)).
Proof.
  split. { apply Forall_forall. intros x H. apply repeat_spec in H. subst. apply is_word_0. }
  rewrite repeat_length. clear. remember (list_sum _) as s. lia.
Qed.
Lemma nsamp_pos : 1 <= nsamp dens 0 l.
Proof. destruct l; [congruence|]. cbn. lia. Qed.
Lemma init_ok : exists mx w, ev_pass1 c dens tb l 0 (hd 0%N l) 0 0 0 = (mx, nsamp dens 0 l, slen D) /\
  ev_pass1 c dens tb l 0 0 0 0 0 = (mx, nsamp dens 0 l, slen D) /\
  ev_init tw mx (nsamp dens 0 l) (slen D) = mkav w (repeat 0%N (2 * nsamp dens 0 l + 2)) /\
  Forall (fun x => (x < 2 ^ N.of_nat w)%N) (sps c dens tb 0 0 l 0) /\ (N.of_nat (slen D + 1) < 2 ^ N.of_nat w)%N.
Proof.
  assert (FB : Forall (fun x => (x <= W64 - 1)%N) l). { eapply Forall_impl; [|apply wordsl]. unfold is_word. intros. cbv beta in *. lia. }
  destruct (pass1_ok c dens tb l 0 0%N 0%N 0 0 (W64 - 1)%N FB ltac:(lia)) as [mx [A [B C]]].
  specialize (C 0). exists mx, (if (tw =? 0)%nat then (if (N.of_nat (slen D + 1) <? mx)%N then hiw mx else hiw (N.of_nat (slen D + 1))) else tw).
  split. { destruct l; [congruence|]. exact A. } split; [exact A|]. split. { reflexivity. }
  pose proof zlen as Z. change (0 + slen D) with (slen D) in C.
  assert (MW : (mx < W64)%N) by (clear - B; unfold W64 in *; lia).
  assert (CC : forall x, (x <= mx)%N \/ (x <= N.of_nat (slen D))%N \/ x = N.of_nat (slen D + 1) -> (x < 2 ^ N.of_nat (if (tw =? 0)%nat then (if (N.of_nat (slen D + 1) <? mx)%N then hiw mx else hiw (N.of_nat (slen D + 1))) else tw))%N).
  { intros x Hx. destruct HT as [->| ->]; cbn [Nat.eqb].
    - destruct (N.ltb_spec (N.of_nat (slen D + 1)) mx); apply hiw_fits; auto; clear - H Hx; lia.
    - change (2 ^ N.of_nat 64)%N with W64. clear - Hx Z MW. lia. }
  split.
  - eapply Forall_impl; [|exact C]. intros x Hx. apply CC. destruct Hx; auto.
  - apply CC. auto.
Qed.
Lemma enc_D : exists m' w' o', enc_all (c_enc c) (repeat 0%N (slen D / 64 + 1)) 0 0 D = Some (m', w', o').
Proof.
  destruct (coder_law_ok sh c k SH SC D (repeat 0%N (slen D / 64 + 1)) (proj1 mem0) (ds_words _ _ _ _ _ tb64) (proj2 mem0)) as [m' [w' [o' [R _]]]]. eauto.
Qed.
Lemma make_ok : exists v, ev_make c dens tb tw l = Some v /\ ev_rep v.
Proof.
  destruct init_ok as [mx [w [A [_ [B [C Z]]]]]]. destruct enc_D as [m' [w' [o' R]]]. pose proof nsamp_pos as NP.
  unfold ev_make. destruct l as [|v1 t] eqn:El; [congruence|]. rewrite <- El in *. cbn [hd] in A. rewrite El in A at 2. cbn [hd] in A.
  rewrite A. rewrite B.
  change (repeat 0%N (2 * nsamp dens 0 l + 2)) with ([] ++ repeat 0%N (2 * nsamp dens 0 l + 2)).
  assert (C' : Forall (fun x => (x < 2 ^ N.of_nat w)%N) (sps c dens tb 0 v1 l 0)) by (rewrite (sps_0 c dens tb l v1 0%N); auto).
  change 0 with (length (@nil N)) at 2. rewrite (pass2_ok c dens tb l 0 v1 w [] _ 0 C') by (rewrite repeat_length; lia).
  cbn [obind app length]. rewrite !(ds_0 dens tb l v1 0%N). change (0 + slen D) with (slen D). change (0 + 2 * nsamp dens 0 l) with (2 * nsamp dens 0 l).
  assert (SK : skipn (2 * nsamp dens 0 l) (repeat 0%N (2 * nsamp dens 0 l + 2)) = [0%N; 0%N]).
  { clear. generalize (2 * nsamp dens 0 l). induction n; auto. }
  rewrite SK. pose proof (sps_length c dens tb l 0 v1 0) as SL.
  rewrite (av_set_some _ _ 0%N). 2:{ unfold av_size. cbn [av_l]. rewrite app_length, SL. cbn [length]. lia. }
  2:{ cbn [av_w]. apply pow2_pos. }
  cbn [obind av_w av_l]. rewrite <- SL, upd_app_mid.
  replace (sps c dens tb 0 v1 l 0 ++ [0%N; 0%N]) with ((sps c dens tb 0 v1 l 0 ++ [0%N]) ++ [0%N]) by (rewrite <- app_assoc; auto).
  rewrite av_set_some. 2:{ unfold av_size. cbn [av_l]. rewrite !app_length. cbn [length]. lia. }
  2:{ cbn [av_w]. auto. }
  cbn [obind av_w av_l]. replace (length (sps c dens tb 0 v1 l 0) + 1) with (length (sps c dens tb 0 v1 l 0 ++ [0%N])) by (rewrite app_length; auto).
  rewrite upd_app_mid. rewrite pass3_eq, (ds_0 dens tb l v1 0%N), R. cbn [obind].
  eexists. split; [reflexivity|]. split; [reflexivity|]. split; [reflexivity|]. split; [|exists w', o'; exact R].
  cbn [ev_sp av_l]. rewrite <- app_assoc. rewrite (sps_0 c dens tb l v1 0%N). eexists. reflexivity.
Qed.
Lemma make_buf_ok : exists v, ev_make_buf c dens tb tw l = Some v /\ ev_rep v.
Proof.
  destruct init_ok as [mx [w [_ [A [B [C Z]]]]]]. destruct enc_D as [m' [w' [o' R]]]. pose proof nsamp_pos as NP.
  unfold ev_make_buf. destruct l as [|v1 t] eqn:El; [congruence|]. rewrite <- El in *.
  rewrite A, B.
  change (repeat 0%N (2 * nsamp dens 0 l + 2)) with ([] ++ repeat 0%N (2 * nsamp dens 0 l + 2)).
  pose proof (pass2_ok c dens tb l 0 0%N w [] (repeat 0%N (2 * nsamp dens 0 l + 2)) 0 C) as P2. rewrite repeat_length in P2.
  specialize (P2 ltac:(lia)). change (length (@nil N)) with 0 in P2.
  rewrite (bpass_eq c dens tb l 0 0%N _ 0 0 _ 0 0 _ _ _ _ _ _ P2 R). cbn [obind].
  eexists. split; [reflexivity|]. split; [reflexivity|]. split; [reflexivity|]. split; [|exists w', o'; exact R].
  cbn [ev_sp av_l app]. eexists. reflexivity.
Qed.

(** queries *)
Hypothesis ZO : no_equal_neighbours l \/ (shift64_defined sh \/ is_comma_code c).
Variable v : encv.
Hypothesis RV : ev_rep v.

Lemma no_zero_diffs : forall es a r x, l = a ++ x :: es ++ r -> no_equal_neighbours l -> no_zero (diffs tb x es).
Proof.
  induction es as [|y es IH]; intros a r x E N0. { constructor. }
  cbn [diffs]. constructor.
  - pose proof (N0 (length a)) as N1. rewrite E in N1. rewrite app_length in N1. cbn [length] in N1. rewrite app_length in N1.
    rewrite !app_nth2 in N1 by lia. rewrite Nat.sub_diag in N1. replace (S (length a) - length a) with 1 in N1 by lia. cbn [nth app] in N1. specialize (N1 ltac:(cbn [length]; lia)).
    destruct (proj1 (steps_of_input tb l HI)) as [W S0]. specialize (S0 (length a)). rewrite E in S0. rewrite app_length in S0. cbn [length] in S0. rewrite app_length in S0.
    rewrite !app_nth2 in S0 by lia. rewrite Nat.sub_diag in S0. replace (S (length a) - length a) with 1 in S0 by lia. cbn [nth app] in S0. specialize (S0 ltac:(cbn [length]; lia)).
    intro Q. rewrite Q, N.add_0_r in S0. rewrite N.mod_small in S0. 2:{ rewrite E in W. apply Forall_app in W. destruct W as [_ W]. inversion_clear W. auto. } congruence.
  - apply (IH (a ++ [x]) r y); auto. rewrite <- app_assoc. auto.
Qed.
Lemma rep_block : forall idx n after, words_ok after -> n < dens -> dens * idx + n < length l ->
  exists x es s p, x = nth (dens * idx) l 0%N /\ length es = n /\ steps tb (x :: es) /\
    (forall j, j <= n -> last (firstn j es) x = nth (dens * idx + j) l 0%N) /\
    av_get (ev_sp v) (2 * idx) = Some s /\ av_get (ev_sp v) (2 * idx + 1) = Some p /\ s = x /\
    cd_decode_n (c_dec c) true (ev_z v ++ after) (N.to_nat p) n = Some (running_sums (diffs tb x es)) /\
    (k <= length after -> c_psum c (ev_z v ++ after) (N.to_nat p) n = Some (nsum (diffs tb x es) mod W64)%N).
Proof.
  intros idx n after WA H1 H2. destruct RV as [RS [RZ [[rest RA] [w0 [o0 RE]]]]].
  destruct (list_split_at l (dens * idx) n ltac:(lia) H2) as [a [x [es [r [E [LA [LE EX]]]]]]].
  destruct (block_at c dens tb HD idx l 0%N 0 a es r LA ltac:(lia) x E) as [pre [post [A [B C]]]].
  exists x, es, x, (N.of_nat (0 + slen pre)). split; auto. split; auto.
  destruct (steps_of_input tb l HI) as [ST _].
  assert (ST' : steps tb (x :: es)). { rewrite E in ST. apply steps_skip in ST. apply (steps_firstn tb (x :: es) r). exact ST. }
  split; auto. split. { intros j Hj. rewrite <- LA. rewrite E. rewrite <- (firstn_skipn j es) at 2. rewrite <- app_assoc.
    replace j with (length (firstn j es)) at 2 by (apply firstn_length_le; lia). rewrite nth_split_last. reflexivity. }
  assert (G : forall i y, nth_error (sps c dens tb 0 0 l 0) i = Some y -> av_get (ev_sp v) i = Some y).
  { intros i y H. unfold av_get. rewrite RA. rewrite nth_error_app1; auto. apply nth_error_Some. congruence. }
  split; [apply G; auto|]. split; [apply G; auto|]. split; auto. rewrite Nat2N.id. change (0 + slen pre) with (slen pre).
  destruct (coder_law_ok sh c k SH SC D (repeat 0%N (slen D / 64 + 1)) (proj1 mem0) (ds_words _ _ _ _ _ tb64) (proj2 mem0)) as [m' [w' [o' [R [LM [WM Q]]]]]].
  rewrite RE in R. injection R as -> -> ->.
  destruct (Q pre (diffs tb x es) post after A WA) as [_ [Q2 Q3]].
  { destruct ZO as [ZO'|ZO']; [left|right; auto]. eapply no_zero_diffs; eauto. }
  rewrite diffs_length, LE in Q2, Q3. split; auto. intro KA. apply Q3.
  pose proof (proj2 mem0) as M0. rewrite <- LM in M0. rewrite app_length. pose proof A as A'. apply (f_equal (fun t => slen t)) in A'.
  rewrite !map_app, !list_sum_app in A'. clear - A' M0 KA. lia.
Qed.
Lemma get_ok : forall after i, words_ok after -> k <= length after -> i < length l -> ev_get c dens v after i = Some (nth i l 0%N).
Proof.
  intros after i WA KA Hi. pose proof (Nat.div_mod i dens ltac:(lia)) as DM. pose proof (Nat.mod_upper_bound i dens ltac:(lia)) as MB.
  destruct (rep_block (i / dens) (i mod dens) after WA MB ltac:(lia)) as [x [es [s [p [EX [LE [ST [LS [S1 [P1 [-> [_ Q]]]]]]]]]]]].
  unfold ev_get. rewrite S1. cbn [obind]. rewrite P1. cbn [obind]. replace (i - dens * (i / dens)) with (i mod dens) by lia. rewrite (Q KA). cbn [obind].
  f_equal. unfold wadd. rewrite N.add_mod_idemp_r by discriminate. rewrite (diffs_sum tb es x ST).
  pose proof (LS (i mod dens) ltac:(lia)) as L2. rewrite <- LE in L2 at 1. rewrite firstn_all in L2. rewrite L2. f_equal. lia.
Qed.
Lemma sample_ok : forall i, dens * i < length l -> ev_sample v i = Some (nth (dens * i) l 0%N).
Proof.
  intros i Hi. destruct (rep_block i 0 [] ltac:(constructor) ltac:(lia) ltac:(lia)) as [x [es [s [p [EX [LE [ST [LS [S1 [P1 [-> _]]]]]]]]]]].
  unfold ev_sample. rewrite S1, EX. auto.
Qed.
Lemma inter_ok : forall i, dens * i < length l ->
  ev_inter c dens v i = Some (map (fun j => tsub 64 (nth j l 0%N) (nth (dens * i) l 0%N)) (seq (dens * i) (Nat.min dens (length l - dens * i)))).
Proof.
  intros i Hi. set (n := Nat.min dens (length l - dens * i) - 1).
  destruct (rep_block i n [] ltac:(constructor) ltac:(lia) ltac:(lia)) as [x [es [s [p [EX [LE [ST [LS [S1 [P1 [ES [Q _]]]]]]]]]]]].
  unfold ev_inter. rewrite P1. cbn [obind]. destruct RV as [RS _]. rewrite RS.
  replace (if i * dens + dens - 1 <? length l then dens - 1 else length l - i * dens - 1) with n.
  2:{ unfold n. rewrite (Nat.mul_comm i dens). destruct (Nat.ltb_spec (dens * i + dens - 1) (length l)); lia. }
  rewrite app_nil_r in Q. rewrite Q. cbn [obind]. f_equal.
  replace (Nat.min dens (length l - dens * i)) with (S n) by lia. cbn [seq map].
  assert (WX : is_word x). { destruct ST as [ST _]. inversion_clear ST. auto. }
  rewrite <- EX. f_equal.
  - unfold tsub. change (2 ^ N.of_nat 64)%N with W64. replace (x + (W64 - x))%N with W64 by (unfold is_word in WX; clear - WX; lia). symmetry. apply N.mod_same. discriminate.
  - unfold running_sums. rewrite diffs_length, LE.
    assert (G : forall m, m <= n -> map (fun i0 => (sum_list (firstn (S i0) (diffs tb x es)) mod 2 ^ 64)%N) (seq 0 m) = map (fun j => tsub 64 (nth j l 0%N) x) (seq (S (dens * i)) m)).
    { induction m as [|m IH]; intros Hm; [reflexivity|]. rewrite !seq_S, !map_app. rewrite IH by lia. f_equal. cbn [map]. f_equal.
      rewrite diffs_firstn. pose proof (LS (S m) ltac:(lia)) as L2.
      assert (ST2 : steps tb (x :: firstn (S m) es)). { apply (steps_firstn tb (x :: firstn (S m) es) (skipn (S m) es)). cbn [app]. rewrite firstn_skipn. auto. }
      pose proof (diffs_sum tb _ _ ST2) as DS. rewrite L2 in DS. replace (S (dens * i) + m) with (dens * i + S m) by lia. rewrite <- DS.
      change (0 + m) with m. change (sum_list (diffs tb x (firstn (S m) es))) with (nsum (diffs tb x (firstn (S m) es))).
      unfold tsub. change (2 ^ N.of_nat 64)%N with W64. change (2 ^ 64)%N with W64. rewrite N.add_mod_idemp_l by discriminate.
      unfold is_word in WX. remember (nsum (diffs tb x (firstn (S m) es))) as y. replace (x + y + (W64 - x))%N with (y + 1 * W64)%N by (clear - WX; lia).
      rewrite N.mod_add by discriminate. auto. }
    apply G. lia.
Qed.
End V.

Lemma ev_ok : forall sh c k dens tb tw l after, shift_like sh -> sdsl_coder sh c k -> 1 < dens -> tw = 0 \/ tw = 64 ->
  enc_input tb l -> fits_memory l -> no_equal_neighbours l \/ shift64_defined sh \/ is_comma_code c ->
  words_ok after -> k <= length after ->
  forall make, make = ev_make c dens tb tw \/ make = ev_make_buf c dens tb tw ->
  exists v, make l = Some v /\ ev_size v = length l /\
    (forall i, i < length l -> ev_get c dens v after i = Some (nth i l 0%N)) /\
    (forall i, dens * i < length l -> ev_sample v i = Some (nth (dens * i) l 0%N)) /\
    (forall i, dens * i < length l -> ev_inter c dens v i =
      Some (map (fun j => tsub 64 (nth j l 0%N) (nth (dens * i) l 0%N)) (seq (dens * i) (Nat.min dens (length l - dens * i))))).
Proof.
  intros sh c k dens tb tw l after SH SC HD HT HI FM ZO WA KA make HM.
  destruct l as [|x t] eqn:El.
  - exists ev_empty. split. { destruct HM as [-> | ->]; auto. } split; auto. cbn [length]. split; [|split]; intros; lia.
  - rewrite <- El in *. assert (NE : l <> []) by congruence.
    assert (E : exists v, make l = Some v /\ ev_rep c dens tb l v).
    { destruct HM as [-> | ->]; [apply (make_ok sh SH c k SC dens tb tw HD HT l HI FM NE)|apply (make_buf_ok sh SH c k SC dens tb tw HD HT l HI FM NE)]. }
    destruct E as [v [E R]]. exists v. split; auto. split; [apply R|].
    pose proof (get_ok sh SH c k SC dens tb) as G. pose proof (sample_ok sh SH c k SC dens tb) as G2. pose proof (inter_ok sh SH c k SC dens tb) as G3.
    split; [|split]; intros; eauto.
Qed.
