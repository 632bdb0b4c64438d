(** * Names of temporary files: proofs *)
From Coq Require Import List Bool Arith NArith Lia Ascii Decimal DecimalN.
From Verif Require Import Base TmpFile.
Import ListNotations.

Definition digit (c : ascii) : bool := ((48 <=? nat_of_ascii c) && (nat_of_ascii c <=? 57))%nat.
Lemma chars_inj a : forall b, chars a = chars b -> a = b.
Proof. induction a; intros b; destruct b; cbn [chars]; intros H; try discriminate H; auto; injection H as H; f_equal; auto. Qed.
Lemma chars_digits a : forallb digit (chars a) = true.
Proof. induction a; cbn [chars forallb]; auto. Qed.
Lemma to_string_inj a b : to_string a = to_string b -> a = b.
Proof. intros H. apply chars_inj in H. now apply Unsigned.to_uint_inj. Qed.

(** a run of digits before something that does not start with a digit *)
Definition nodigit (l : list ascii) : Prop := match l with [] => True | c :: _ => digit c = false end.
Lemma digits_split a : forall b p q, forallb digit a = true -> forallb digit b = true -> nodigit p -> nodigit q -> a ++ p = b ++ q -> a = b /\ p = q.
Proof.
  induction a as [|x a IH]; intros [|y b] p q A B P Q E; cbn [forallb List.app] in *; auto.
  - subst p. cbn in P. apply andb_prop in B. destruct B. congruence.
  - subst q. cbn in Q. apply andb_prop in A. destruct A. congruence.
  - injection E as -> E. apply andb_prop in A, B. destruct (IH b p q) as [-> ->]; tauto.
Qed.
(** the part behind the last slash *)
Lemma no_slash_split (s : ascii) r : forall a b q, ~ In s r -> ~ In s q -> a ++ s :: r = b ++ s :: q -> a = b /\ r = q.
Proof.
  intros a. induction a as [|x a IH]; intros [|y b] q R Q E; cbn [List.app] in E.
  - injection E as ->. auto.
  - injection E as <- E. destruct R. rewrite E. apply in_app_iff. right. now left.
  - injection E as -> E. destruct Q. rewrite <- E. apply in_app_iff. right. now left.
  - injection E as -> E. destruct (IH b q R Q E) as [-> ->]. auto.
Qed.
Lemma digits_no c l : digit c = false -> forallb digit l = true -> ~ In c l.
Proof. intros D F I. rewrite forallb_forall in F. apply F in I. congruence. Qed.

Definition ok_part (p : list ascii) : Prop := nodigit p /\ ~ In "/"%char p.
Lemma suffix_nodigit p : nodigit p -> nodigit (p ++ sdsl_suffix).
Proof. destruct p; auto. intros _. reflexivity. Qed.
Lemma name_inj pid c dir part pid' c' dir' part' : ok_part part -> ok_part part' ->
  fst (tmp_file pid c dir part) = fst (tmp_file pid' c' dir' part') -> pid = pid' /\ c = c'.
Proof.
  intros [D S] [D' S'] E. unfold tmp_file, get_id in E. cbn [fst snd List.app] in E.
  assert (NS : forall pid c part, ~ In "/"%char part -> ~ In "/"%char (to_string pid ++ "_"%char :: to_string c ++ part ++ sdsl_suffix)).
  { clear. intros pid c part NP I. apply in_app_iff in I. destruct I as [I|[I|I]]; [|discriminate|].
    - revert I. apply digits_no; [reflexivity|apply chars_digits].
    - apply in_app_iff in I. destruct I as [I|I]; [revert I; apply digits_no; [reflexivity|apply chars_digits]|].
      apply in_app_iff in I. destruct I as [I|I]; [auto|]. cbn in I. repeat (destruct I as [I|I]; [discriminate|]). destruct I. }
  apply no_slash_split in E; [|now apply NS|now apply NS]. destruct E as [_ E].
  apply digits_split in E; try apply chars_digits; try reflexivity. destruct E as [E1 E2]. apply to_string_inj in E1. injection E2 as E2.
  apply digits_split in E2; try apply chars_digits; try now apply suffix_nodigit. destruct E2 as [E2 _]. apply to_string_inj in E2. auto.
Qed.

Local Open Scope N_scope.
Lemma tmp_files_in pid : forall l c x, In x (tmp_files pid c l) -> c < 2 ^ 64 ->
  exists k dir part, (k < length l)%nat /\ In (dir, part) l /\ x = fst (tmp_file pid ((c + N.of_nat k) mod 2 ^ 64) dir part).
Proof.
  induction l as [|[dir part] l IH]; intros c x I LT; cbn [tmp_files] in I; [destruct I|]. destruct I as [<-|I].
  - exists 0%nat, dir, part. cbn [length]. split; [lia|]. split; [now left|]. rewrite N.add_0_r, N.mod_small by auto. reflexivity.
  - destruct (IH _ _ I) as (k & d & p & K & J & ->); [apply N.mod_lt; discriminate|].
    exists (S k), d, p. cbn [length]. split; [lia|]. split; [now right|]. f_equal. f_equal. cbn [tmp_file get_id fst snd].
    rewrite N.add_mod_idemp_l by discriminate. f_equal. lia.
Qed.
Lemma tmp_files_nodup pid : forall l c, c < 2 ^ 64 -> N.of_nat (length l) <= 2 ^ 64 -> Forall (fun r => ok_part (snd r)) l -> NoDup (tmp_files pid c l).
Proof.
  induction l as [|[dir part] l IH]; intros c LT LEN OK; cbn [tmp_files]; [constructor|]. inversion OK as [|? ? OK1 OK2]; subst. cbn [length] in LEN.
  constructor.
  - intros I. apply tmp_files_in in I; [|apply N.mod_lt; discriminate]. destruct I as (k & d & p & K & J & E).
    rewrite Forall_forall in OK2. apply OK2 in J. cbn [snd] in J, OK1.
    destruct (name_inj _ _ _ _ _ _ _ _ OK1 J E) as [_ Q]. cbn [tmp_file get_id snd] in Q.
    rewrite N.add_mod_idemp_l in Q by discriminate. destruct (N.lt_ge_cases (c + 1 + N.of_nat k) (2 ^ 64)) as [H|H].
    + rewrite N.mod_small in Q by auto. lia.
    + assert (Z : (c + 1 + N.of_nat k) mod 2 ^ 64 = c + 1 + N.of_nat k - 2 ^ 64).
      { symmetry. apply (N.mod_unique _ _ 1); lia. }
      rewrite Z in Q. lia.
  - apply IH; auto; [|lia]. apply N.mod_lt. discriminate.
Qed.
