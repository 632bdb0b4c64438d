(** * k2_treap: the levels produced by the construction *)
From Coq Require Import List Arith Bool Lia NArith Permutation.
From Verif Require Import Base AbsVec FnArr WtBase WtProofs K2Treap K2Proofs.
Import ListNotations.

(** ** The order of the points *)
Lemma pt_eta : forall a : pt, a = (ptx a, pty a, ptw a). Proof. intros [[x y] w]. auto. Qed.
Lemma plt_iff : forall a b, plt a b = true <-> ptw a < ptw b \/ ptw a = ptw b /\ (ptx b < ptx a \/ ptx a = ptx b /\ pty b < pty a).
Proof. intros a b. unfold plt. destruct (Nat.eqb_spec (ptw a) (ptw b)); cbn [negb]. - destruct (Nat.eqb_spec (ptx a) (ptx b)); cbn [negb]; rewrite Nat.ltb_lt; lia. - rewrite Nat.ltb_lt. lia. Qed.
Lemma plt_false : forall a b, plt a b = false <-> plt b a = true \/ a = b.
Proof.
  intros a b. rewrite <- not_true_iff_false, !plt_iff. split.
  - intros H. destruct (Nat.lt_trichotomy (ptw a) (ptw b)) as [|[|]], (Nat.lt_trichotomy (ptx a) (ptx b)) as [|[|]], (Nat.lt_trichotomy (pty a) (pty b)) as [|[|]]; try (left; lia). right. rewrite (pt_eta a), (pt_eta b). congruence.
  - intros [H|H]. lia. subst. lia.
Qed.
Lemma plt_trans : forall a b c, plt a b = true -> plt b c = true -> plt a c = true.
Proof. intros a b c. rewrite !plt_iff. lia. Qed.
Lemma plt_le_trans : forall a b c, plt b a = false -> plt c b = false -> plt c a = false.
Proof. intros a b c. rewrite !plt_false. intros [H| ->]; auto. intros [G| ->]; auto. left. eapply plt_trans; eauto. Qed.
Lemma plt_refl : forall a, plt a a = false. Proof. intros. apply plt_false. auto. Qed.
Lemma plt_w : forall a b, plt a b = false -> ptw b <= ptw a.
Proof. intros a b H. apply plt_false in H. rewrite plt_iff in H. destruct H as [H| ->]; lia. Qed.

(** ** The maximum of a group *)
Lemma max_idx_ok : forall l best bi i pre, length pre = i -> nth_error (pre ++ l) bi = Some best -> (forall e, In e pre -> plt best e = false) ->
  exists mx, nth_error (pre ++ l) (max_idx best bi i l) = Some mx /\ forall e, In e (pre ++ l) -> plt mx e = false.
Proof.
  induction l as [|e l IH]; intros best bi i pre LP NB H; cbn [max_idx].
  - exists best. split; auto. rewrite app_nil_r. auto.
  - assert (EQ : pre ++ e :: l = (pre ++ [e]) ++ l) by (rewrite <- app_assoc; auto). rewrite EQ in *. destruct (plt best e) eqn:Q.
    + apply IH. { rewrite app_length. cbn. lia. } { rewrite nth_error_app1 by (rewrite app_length; cbn; lia). rewrite nth_error_app2 by lia. rewrite LP, Nat.sub_diag. auto. }
      intros x X. apply in_app_or in X. destruct X as [X|[<- |[]]]; [|apply plt_refl]. apply plt_false. left. specialize (H x X). apply plt_false in H. destruct H as [H| ->]; auto. eapply plt_trans; eauto.
    + apply IH; auto. { rewrite app_length. cbn. lia. } intros x X. apply in_app_or in X. destruct X as [X|[<- |[]]]; auto.
Qed.
Lemma take_max_ok : forall g, g <> [] -> exists mx rest, take_max g = Some (mx, rest) /\ Permutation g (mx :: rest) /\ forall e, In e g -> plt mx e = false.
Proof.
  intros [|e g'] NE; [contradiction|]. unfold take_max. destruct (max_idx_ok g' e 0 1 [e]) as (mx & N & MX); auto. { intros x [<- |[]]. apply plt_refl. }
  cbn [app] in N, MX. set (g := e :: g') in *. set (m := max_idx e 0 1 g') in *. rewrite N. cbn [obind]. assert (LM : m < length g) by (apply nth_error_Some; congruence).
  destruct (nth_error g (length g - 1)) as [la|] eqn:NL; [|apply nth_error_None in NL; lia]. cbn [obind]. eexists _, _. split; [reflexivity|]. split; auto.
  destruct (nth_error_split _ _ N) as (A & B & GE & LA). clearbody m g. clear NE e g'. subst m. destruct (rev B) as [|b B'] eqn:RB.
  - assert (B = []) by (rewrite <- (rev_involutive B), RB; auto). subst B g. rewrite app_length. cbn [length]. replace (length A + 1 - 1) with (length A) by lia. rewrite upd_app_r by auto. rewrite firstn_app, Nat.sub_diag, firstn_all. cbn. rewrite app_nil_r. apply Permutation_sym, Permutation_cons_append.
  - assert (EB : B = rev B' ++ [b]) by (rewrite <- (rev_involutive B), RB; auto). subst B g. rewrite !app_length in *. cbn [length] in *. rewrite app_length in *. cbn [length] in *. rewrite nth_error_app2 in NL by lia.
    replace (length A + S (length (rev B') + 1) - 1 - length A) with (S (length (rev B'))) in NL by lia. cbn [nth_error] in NL. rewrite nth_error_app2 in NL by lia. rewrite Nat.sub_diag in NL. inversion NL; subst la.
    rewrite upd_app_r by auto. rewrite Nat.sub_diag. cbn [upd]. replace (length A + S (length (rev B') + 1) - 1) with (length A + S (length (rev B'))) by lia. rewrite firstn_app. rewrite firstn_all2 by lia. replace (length A + S (length (rev B')) - length A) with (S (length (rev B'))) by lia. cbn [firstn]. rewrite firstn_app, firstn_all, Nat.sub_diag. cbn [firstn]. rewrite app_nil_r.
    eapply Permutation_trans. { apply Permutation_sym, Permutation_middle. } constructor. apply Permutation_app_head. apply Permutation_sym, Permutation_cons_append.
Qed.

(** ** The cells of a group *)
Section P.
Variable k : nat.
Hypothesis K : 1 < k.
Variable part : (pt -> bool) -> list pt -> list pt * list pt.
Hypothesis PS : forall f l, Permutation l (fst (part f l) ++ snd (part f l)) /\ (forall e, In e (fst (part f l)) -> f e = true) /\ (forall e, In e (snd (part f l)) -> f e = false).
Lemma split_ok : forall dig c j rem, j + c = k -> (forall e, In e rem -> j <= dig e < k) ->
  Permutation rem (concat (split_cells k part dig j c rem)) \/ c = 0.
Proof.
  induction c as [|c IH]; intros j rem J H; [auto|]. left. cbn [split_cells]. destruct (Nat.ltb_spec (j + 1) k) as [L|L].
  - destruct (PS (fun e => dig e <=? j) rem) as (PP & PA & PB). cbn [concat]. eapply Permutation_trans; [exact PP|]. apply Permutation_app_head. destruct (IH (j + 1) (snd (part (fun e => dig e <=? j) rem))) as [Q|Q]; auto; [lia| |lia].
    intros e E. pose proof (PB e E) as F. cbn in F. apply Nat.leb_gt in F. assert (IR : In e rem) by (eapply Permutation_in; [apply Permutation_sym; exact PP|]; apply in_or_app; auto). specialize (H e IR). lia.
  - assert (c = 0) by lia. subst c. cbn. rewrite app_nil_r. auto.
Qed.
Lemma split_len : forall dig c j rem, length (split_cells k part dig j c rem) = c.
Proof. induction c as [|c IH]; intros; auto. cbn [split_cells]. destruct (j + 1 <? k); cbn [length]; rewrite IH; auto. Qed.
Lemma split_dig : forall dig c j rem, j + c = k -> (forall e, In e rem -> j <= dig e < k) -> forall i cell e, nth_error (split_cells k part dig j c rem) i = Some cell -> In e cell -> dig e = j + i /\ In e rem.
Proof.
  induction c as [|c IH]; intros j rem J H i cell e N I; cbn [split_cells] in N. { destruct i; discriminate. }
  destruct (Nat.ltb_spec (j + 1) k) as [L|L].
  - destruct (PS (fun e => dig e <=? j) rem) as (PP & PA & PB). assert (INR : forall e, In e (fst (part (fun e => dig e <=? j) rem)) \/ In e (snd (part (fun e => dig e <=? j) rem)) -> In e rem). { intros x X. eapply Permutation_in; [apply Permutation_sym; exact PP|]. apply in_or_app. auto. }
    destruct i as [|i]; cbn [nth_error] in N.
    + inversion N; subst cell. pose proof (PA e I) as F. cbn in F. apply Nat.leb_le in F. specialize (H e (INR e (or_introl I))). split; [lia|auto].
    + destruct (IH (j + 1) (snd (part (fun e => dig e <=? j) rem)) ltac:(lia)) with (i := i) (cell := cell) (e := e) as [D E2]; auto; [|split; [lia|auto]]. intros x X. pose proof (PB x X) as F. cbn in F. apply Nat.leb_gt in F. specialize (H x (INR x (or_intror X))). lia.
  - assert (c = 0) by lia. subst c. destruct i as [|i]; cbn [nth_error split_cells] in N; [|destruct i; discriminate]. inversion N; subst. specialize (H e I). split; [lia|auto].
Qed.
Lemma cells_len : forall l g, length (cells k part l g) = k * k.
Proof. intros. unfold cells. rewrite (fm_len _ k). { rewrite split_len. auto. } intros. apply split_len. Qed.
Lemma perm_concat_map : forall (F : list pt -> list (list pt)) L, (forall x, In x L -> Permutation x (concat (F x))) -> Permutation (concat L) (concat (flat_map F L)).
Proof. induction L as [|a L IH]; intros H; auto. cbn [concat flat_map]. rewrite concat_app. apply Permutation_app. { apply H. left. auto. } apply IH. intros. apply H. right. auto. Qed.
Lemma cells_perm : forall l g, Permutation g (concat (cells k part l g)).
Proof.
  intros l g. unfold cells. assert (D : forall z, z mod k < k) by (intros; apply Nat.mod_upper_bound; lia).
  eapply Permutation_trans. { destruct (split_ok (digx k l) k 0 g) as [Q|Q]; [auto| |exact Q|lia]. intros. split; [lia|]. apply D. }
  apply perm_concat_map. intros x X. destruct (split_ok (digy k l) k 0 x) as [Q|Q]; [auto| |exact Q|lia]. intros. split; [lia|]. apply D.
Qed.
Lemma cells_dig : forall l g it cell e, nth_error (cells k part l g) it = Some cell -> In e cell -> digx k l e = it / k /\ digy k l e = it mod k /\ In e g.
Proof.
  intros l g it cell e N I. assert (D : forall z, z mod k < k) by (intros; apply Nat.mod_upper_bound; lia).
  assert (IT : it < k * k). { rewrite <- (cells_len l g). apply nth_error_Some. congruence. }
  pose proof (Nat.div_mod it k ltac:(lia)) as DM. assert (DK : it / k < k) by (apply Nat.div_lt_upper_bound; lia).
  unfold cells in N. destruct (nth_error (split_cells k part (digx k l) 0 k g) (it / k)) as [row|] eqn:R. 2: { apply nth_error_None in R. rewrite split_len in R. lia. }
  rewrite DM in N. rewrite (fm_nth _ k _ _ _ row) in N; auto; [| intros; apply split_len].
  destruct (split_dig (digy k l) k 0 row ltac:(auto) ltac:(intros; split; [lia|apply D]) _ _ _ N I) as [A B]. destruct (split_dig (digx k l) k 0 g ltac:(auto) ltac:(intros; split; [lia|apply D]) _ _ _ R B) as [C E]. auto.
Qed.
End P.
