(** * enc_vector: samples, pointers and deltas *)
From Coq Require Import NArith List Bool Arith Lia.
From Verif Require Import Base Bits SpecBits BitsProofs BitsProofs2 BitsProofs3 BitsMem IntVector AbsVec SelectSupportProofs3 SdVectorProofs2 Coder CoderProofs CoderProofs2 SpecCoder CoderProofs4 EncVector SpecEnc EncVectorProofs.
Import ListNotations.

Lemma last_cons : forall (l : list N) x y, last (y :: l) x = last l y.
Proof. induction l as [|z l IH]; intros; [reflexivity|]. change (last (y :: z :: l) x) with (last (z :: l) x). rewrite !IH. reflexivity. Qed.
Section E.
Variable c : coder.
Variable dens tb : nat.
Notation len := (c_len c).
Notation slen l := (list_sum (map (c_len c) l)).

Fixpoint ds (ns : nat) (v1 : N) (l : list N) : list N :=
  match l with
  | [] => []
  | v2 :: t => match ns with 0 => ds (dens - 1) v2 t | S k => tsub tb v2 v1 :: ds k v2 t end
  end.
Fixpoint sps (ns : nat) (v1 : N) (l : list N) (z : nat) : list N :=
  match l with
  | [] => []
  | v2 :: t => match ns with 0 => v2 :: N.of_nat z :: sps (dens - 1) v2 t z | S k => sps k v2 t (z + len (tsub tb v2 v1)) end
  end.
Fixpoint nsamp (ns : nat) (l : list N) : nat :=
  match l with
  | [] => 0
  | v2 :: t => match ns with 0 => S (nsamp (dens - 1) t) | S k => nsamp k t end
  end.
Fixpoint diffs (a : N) (l : list N) : list N := match l with [] => [] | b :: t => tsub tb b a :: diffs b t end.

Lemma slen_cons : forall x l, slen (x :: l) = len x + slen l. Proof. reflexivity. Qed.
Lemma sps_length : forall l ns v z, length (sps ns v l z) = 2 * nsamp ns l.
Proof. induction l; intros; [auto|]. cbn [sps nsamp]. destruct ns; cbn [length]; rewrite IHl; lia. Qed.
Lemma pass1_ok : forall l ns v mx s z B, Forall (fun x => (x <= B)%N) l -> (mx <= B)%N ->
  exists mx', ev_pass1 c dens tb l ns v mx s z = (mx', s + nsamp ns l, z + slen (ds ns v l)) /\ (mx <= mx' <= B)%N /\
    forall z0, Forall (fun x => (x <= mx')%N \/ (x <= N.of_nat (z0 + slen (ds ns v l)))%N) (sps ns v l z0).
Proof.
  induction l as [|v2 t IH]; intros ns v mx s z B F M; cbn [ev_pass1 ds sps nsamp].
  - exists mx. split; [f_equal; [f_equal|]; cbn; lia|]. split; [lia|]. constructor.
  - inversion_clear F. destruct ns as [|k].
    + destruct (IH (dens - 1) v2 (if (mx <? v2)%N then v2 else mx) (s + 1) z B H0) as [mx' [A [C D]]]. { destruct (mx <? v2)%N; auto. }
      exists mx'. rewrite A. split; [f_equal; f_equal; lia|]. destruct (N.ltb_spec mx v2).
      all: split; [lia|]; intro z0; constructor; [left; lia|]; constructor; [right; lia|]; apply D.
    + destruct (IH k v2 mx s (z + len (tsub tb v2 v)) B H0 M) as [mx' [A [C D]]]. exists mx'. rewrite A, slen_cons.
      split; [f_equal; lia|]. split; [auto|]. intro z0. rewrite Nat.add_assoc. apply D.
Qed.
Lemma pass2_ok : forall l ns v w pre post z, Forall (fun x => (x < 2 ^ N.of_nat w)%N) (sps ns v l z) -> 2 * nsamp ns l <= length post ->
  ev_pass2 c dens tb l ns v (mkav w (pre ++ post)) (length pre) z =
    Some (mkav w (pre ++ sps ns v l z ++ skipn (2 * nsamp ns l) post), length pre + 2 * nsamp ns l, z + slen (ds ns v l)).
Proof.
  induction l as [|v2 t IH]; intros ns v w pre post z F L; cbn [ev_pass2 ds sps nsamp].
  - cbn. rewrite !Nat.add_0_r. auto.
  - cbn [sps nsamp] in F, L. destruct ns as [|k].
    + inversion_clear F. inversion_clear H0. destruct post as [|p0 [|p1 post]]; [cbn in L; lia|cbn in L; lia|].
      rewrite av_set_some by (auto; unfold av_size; cbn [av_l]; rewrite app_length; cbn [length]; lia). cbn [obind av_w av_l].
      rewrite upd_app_mid. rewrite av_set_some by (auto; unfold av_size; cbn [av_l]; rewrite app_length; cbn [length]; lia). cbn [obind av_w av_l].
      replace (pre ++ v2 :: p1 :: post) with ((pre ++ [v2]) ++ p1 :: post) by (rewrite <- app_assoc; auto).
      replace (length pre + 1) with (length (pre ++ [v2])) by (rewrite app_length; cbn [length]; lia). rewrite upd_app_mid.
      replace ((pre ++ [v2]) ++ N.of_nat z :: post) with ((pre ++ [v2; N.of_nat z]) ++ post) by (rewrite <- !app_assoc; auto).
      replace (length pre + 2) with (length (pre ++ [v2; N.of_nat z])) by (rewrite app_length; cbn [length]; lia).
      rewrite IH by (auto; cbn [length] in L; lia). f_equal. f_equal. f_equal.
      * f_equal. rewrite <- app_assoc. cbn [app]. replace (2 * S (nsamp (dens - 1) t)) with (S (S (2 * nsamp (dens - 1) t))) by lia. auto.
      * rewrite app_length. cbn [length]. lia.
    + rewrite IH by auto. rewrite slen_cons. f_equal. f_equal. lia.
Qed.
Lemma pass3_eq : forall l ns v m w off, ev_pass3 c dens tb l ns v m w off = enc_all (c_enc c) m w off (ds ns v l).
Proof.
  induction l as [|v2 t IH]; intros; cbn [ev_pass3 ds enc_all]; auto. destruct ns; auto. cbn [enc_all].
  destruct (c_enc c m w off (tsub tb v2 v)) as [[[m1 w1] o1]|]; cbn [obind]; auto.
Qed.
Lemma bpass_eq : forall l ns v sp j z m w off sp' j' z' m' w' o',
  ev_pass2 c dens tb l ns v sp j z = Some (sp', j', z') -> enc_all (c_enc c) m w off (ds ns v l) = Some (m', w', o') ->
  ev_bpass c dens tb l ns v sp j z m w off = Some (sp', m').
Proof.
  induction l as [|v2 t IH]; intros ns v sp j z m w off sp' j' z' m' w' o' A B; cbn [ev_pass2 ev_bpass ds enc_all] in *.
  - congruence.
  - destruct ns as [|k].
    + destruct (av_set sp j v2) as [sp1|]; [|discriminate]. cbn [obind] in *. destruct (av_set sp1 (j + 1) (N.of_nat z)) as [sp2|]; [|discriminate].
      cbn [obind] in *. eapply IH; eauto.
    + cbn [enc_all] in B. destruct (c_enc c m w off (tsub tb v2 v)) as [[[m1 w1] o1]|]; [|discriminate]. cbn [obind] in *. eapply IH; eauto.
Qed.

(** block structure *)
Lemma ds_0 : forall l v v', ds 0 v l = ds 0 v' l. Proof. destruct l; auto. Qed.
Lemma sps_0 : forall l v v' z, sps 0 v l z = sps 0 v' l z. Proof. destruct l; auto. Qed.
Lemma ds_block : forall a r x, ds (length a) x (a ++ r) = diffs x a ++ ds 0 (last a x) r.
Proof.
  induction a as [|y a IH]; intros; [reflexivity|]. cbn [length app ds diffs]. rewrite IH. f_equal. f_equal. apply ds_0.
Qed.
Lemma sps_block : forall a r x z, sps (length a) x (a ++ r) z = sps 0 (last a x) r (z + slen (diffs x a)).
Proof.
  induction a as [|y a IH]; intros. { cbn. rewrite Nat.add_0_r. auto. }
  cbn [length app sps diffs]. rewrite IH, slen_cons, Nat.add_assoc. apply sps_0.
Qed.
Lemma ds_prefix : forall a r x k, length a <= k -> exists post, ds k x (a ++ r) = diffs x a ++ post.
Proof.
  induction a as [|y a IH]; intros r x k H. { exists (ds k x r). auto. }
  cbn [length] in H. destruct k; [lia|]. destruct (IH r y k ltac:(lia)) as [post E]. exists post. cbn [app ds diffs]. rewrite E. auto.
Qed.
Lemma block_at : 1 < dens -> forall idx l v z a es r, length a = dens * idx -> length es < dens -> forall x, l = a ++ x :: es ++ r ->
  exists pre post, ds 0 v l = pre ++ diffs x es ++ post /\
    nth_error (sps 0 v l z) (2 * idx) = Some x /\ nth_error (sps 0 v l z) (2 * idx + 1) = Some (N.of_nat (z + slen pre)).
Proof.
  intro HD. induction idx as [|idx IH]; intros l v z a es r LA LE x E.
  - rewrite Nat.mul_0_r in LA. apply length_zero_iff_nil in LA. subst a l. cbn [app].
    destruct (ds_prefix es r x (dens - 1) ltac:(lia)) as [post P]. exists [], post. cbn [ds app sps]. split; auto. split; auto. cbn. rewrite Nat.add_0_r. auto.
  - destruct a as [|y a]. { cbn [length] in LA. lia. }
    cbn [length] in LA. pose proof (firstn_skipn (dens - 1) a) as FS. remember (firstn (dens - 1) a) as b. remember (skipn (dens - 1) a) as a'.
    assert (LB : length b = dens - 1). { subst b. apply firstn_length_le. lia. }
    assert (LA' : length a' = dens * idx). { subst a'. rewrite skipn_length. lia. }
    subst l. rewrite <- FS. cbn [app ds sps]. rewrite <- !app_assoc. rewrite <- LB, ds_block, sps_block.
    destruct (IH (a' ++ x :: es ++ r) (last b y) (z + slen (diffs y b)) a' es r LA' LE x eq_refl) as [pre [post [A [B C]]]].
    exists (diffs y b ++ pre), post. rewrite A, app_assoc. split; auto. rewrite map_app, list_sum_app.
    replace (2 * S idx) with (S (S (2 * idx))) by lia. replace (S (S (2 * idx)) + 1) with (S (S (2 * idx + 1))) by lia. cbn [nth_error].
    split; auto. rewrite C. f_equal. f_equal. lia.
Qed.

(** sums of differences *)
Definition steps (l : list N) : Prop := Forall is_word l /\ forall k, S k < length l -> ((nth k l 0 + tsub tb (nth (S k) l 0) (nth k l 0)) mod W64 = nth (S k) l 0)%N.
Lemma steps_tail : forall x l, steps (x :: l) -> steps l.
Proof. intros x l [A B]. inversion_clear A. split; auto. intros k H1. apply (B (S k)). cbn. lia. Qed.
Lemma steps_skip : forall a l, steps (a ++ l) -> steps l.
Proof. induction a; intros; auto. apply IHa. eapply steps_tail. exact H. Qed.
Lemma steps_firstn : forall l r, steps (l ++ r) -> steps l.
Proof.
  intros l r [A B]. apply Forall_app in A. split; [tauto|]. intros k H. specialize (B k). rewrite app_length in B.
  rewrite !app_nth1 in B by lia. apply B. lia.
Qed.
Lemma diffs_sum : forall l x, steps (x :: l) -> ((x + nsum (diffs x l)) mod W64 = last l x)%N.
Proof.
  induction l as [|y l IH]; intros x H.
  - cbn. destruct H as [H _]. inversion_clear H. rewrite N.add_0_r. apply N.mod_small. auto.
  - pose proof (IH y (steps_tail _ _ H)) as I. destruct H as [_ H]. specialize (H 0 ltac:(cbn; lia)). cbn [nth] in H.
    cbn [diffs]. change (nsum (tsub tb y x :: diffs y l)) with (tsub tb y x + nsum (diffs y l))%N.
    rewrite N.add_assoc, <- N.add_mod_idemp_l, H, I by discriminate. symmetry. apply last_cons.
Qed.
Lemma diffs_length : forall l x, length (diffs x l) = length l. Proof. induction l; intros; cbn; auto. Qed.
Lemma diffs_firstn : forall k l x, firstn k (diffs x l) = diffs x (firstn k l).
Proof. induction k; intros; destruct l; cbn; auto. f_equal. auto. Qed.
Lemma tsub_word : forall a b, tb <= 64 -> is_word (tsub tb a b).
Proof.
  intros. red. unfold tsub. eapply N.lt_le_trans; [apply N.mod_lt, N.pow_nonzero; discriminate|]. rewrite W64_pow. apply N.pow_le_mono_r; lia.
Qed.
Lemma ds_words : forall l ns v, tb <= 64 -> Forall is_word (ds ns v l).
Proof. induction l; intros; cbn [ds]; auto. destruct ns; auto. constructor; auto. apply tsub_word; auto. Qed.
Lemma ds_length : forall l ns v, length (ds ns v l) <= length l.
Proof. induction l; intros; cbn [ds length]; auto. destruct ns; [specialize (IHl (dens - 1) a)|cbn [length]; specialize (IHl ns a)]; lia. Qed.
End E.
