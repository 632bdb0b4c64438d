(** * C72: temporary files get distinct names *)
From Coq Require Import List Bool Arith NArith Lia Ascii String.
From Verif Require Import Base TmpFile TmpFileProofs.
Import ListNotations.
Local Open Scope N_scope.

(** a name part may not contain a slash and may not start with a digit (those of the library start with an underscore) *)
Definition good_part (p : list ascii) : Prop :=
  ~ In "/"%char p /\ match p with [] => True | c :: _ => ~ (48 <= N_of_ascii c <= 57) end.
Lemma good_ok p : good_part p -> ok_part p.
Proof.
  intros [S D]. split; auto. destruct p as [|c p]; cbn; auto. unfold digit, nat_of_ascii. apply andb_false_iff.
  destruct (N.lt_ge_cases (N_of_ascii c) 48); [left; apply Nat.leb_gt; lia|].
  destruct (N.lt_ge_cases 57 (N_of_ascii c)); [right; apply Nat.leb_gt; lia|]. destruct D; lia.
Qed.

(** the names that one thread of a process gets are pairwise different, for any directories *)
Theorem C72_names_distinct : forall pid first (requests : list (list ascii * list ascii)),
  first < 2 ^ 64 -> N.of_nat (List.length requests) <= 2 ^ 64 -> Forall (fun r => good_part (snd r)) requests ->
  NoDup (tmp_files pid first requests).
Proof.
  intros pid c l LT LEN OK. apply tmp_files_nodup; auto. eapply Forall_impl; [|exact OK]. intros r. apply good_ok.
Qed.
Print Assumptions C72_names_distinct.
(** processes with different ids never get the same name *)
Theorem C72_processes_distinct : forall pid pid' first first' requests requests' name,
  first < 2 ^ 64 -> first' < 2 ^ 64 ->
  Forall (fun r => good_part (snd r)) requests -> Forall (fun r => good_part (snd r)) requests' ->
  In name (tmp_files pid first requests) -> In name (tmp_files pid' first' requests') -> pid = pid'.
Proof.
  intros pid pid' c c' l l' x LT LT' OK OK' I I'. apply tmp_files_in in I, I'; auto.
  destruct I as (k & d & p & _ & J & E). destruct I' as (k' & d' & p' & _ & J' & E').
  rewrite Forall_forall in OK, OK'. apply OK in J. apply OK' in J'. rewrite E in E'.
  destruct (name_inj _ _ _ _ _ _ _ _ (good_ok _ J) (good_ok _ J') E'). auto.
Qed.
Print Assumptions C72_processes_distinct.
Definition str (s : string) : list ascii := list_ascii_of_string s.
Example C72_meets :
  tmp_files 4711 9 [(str "/tmp", str "_m_tree"); (str "@", str "")] = [str "/tmp/4711_9_m_tree.sdsl"; str "@/4711_10.sdsl"] /\
  Forall (fun r => good_part (snd r)) [(str "/tmp", str "_m_tree"); (str "@", str "")].
Proof.
  split; [vm_compute; reflexivity|]. constructor; [|constructor; [|constructor]]; split; cbn.
  - intros H. repeat (destruct H as [H|H]; [discriminate|]). destruct H.
  - lia.
  - auto.
  - auto.
Qed.

(** a name part that starts with a digit can collide: the 2nd and the 13th request *)
Theorem C72_digit_part_refuted : exists requests, ~ NoDup (tmp_files 1 0 requests) /\ (List.length requests = 13)%nat /\
  Forall (fun r => ~ In "/"%char (snd r)) requests.
Proof.
  exists ((str "", str "_a") :: (str "", str "2") :: repeat (str "", str "_a") 10 ++ [(str "", str "")]). split; [|split; [reflexivity|]].
  - intros H. vm_compute in H. inversion H as [|? ? _ H1]; subst. inversion H1 as [|? ? N _]; subst. apply N. cbn. tauto.
  - apply Forall_forall. intros r I. cbn in I. repeat (destruct I as [<-|I]; [cbn; intros X; repeat (destruct X as [X|X]; [discriminate|]); destruct X|]). destruct I.
Qed.
Print Assumptions C72_digit_part_refuted.
(** two threads can get the same id, hence the same file: both read the counter before one of them writes it *)
Theorem C72_threads_refuted : exists schedule, got (id_run schedule) = [0; 0].
Proof. exists [0; 1; 0; 1]%nat. reflexivity. Qed.
Print Assumptions C72_threads_refuted.
