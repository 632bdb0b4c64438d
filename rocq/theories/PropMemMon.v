(** * C70: the memory monitor *)
From Coq Require Import List Bool Arith ZArith Lia.
From Verif Require Import Base MemMon SpecMemMon MemMonProofs.
Import ListNotations.
Local Open Scope Z_scope.

(** the last logged usage of an event *)
Definition final_usage (e : ev) : Z := match rev (allocs e) with [] => 0 | a :: _ => snd a end.

(** In every history in which no event is open when the monitor is started or stopped, nothing undefined happens, the current
    usage is the sum of the changes recorded since start, and while it is on the completed events are the ended ones in order,
    each with the usage when it ended *)
Theorem C70_usage_and_events : forall gran history s, msems smon0 history = Some s ->
  exists m, mexecs gran mon0 history = Some m /\ usage m = cur s /\
    (on s = true -> map (fun e => (ename e, final_usage e)) (completed m) = ended s).
Proof.
  intros gran l s S. destruct (inv_steps gran l _ _ s inv0 S) as (m & X & I). exists m. split; auto. split; [apply I|apply I].
Qed.
Print Assumptions C70_usage_and_events.
Definition mdemo : list mop :=
  [MStart 0; MRecord 1 100; MOpen 2 7; MRecord 50 40; MOpen 51 8; MRecord 52 (-120); MClose 53; MRecord 90 5; MClose 91].
Example C70_meets : msems smon0 mdemo = Some (mksmon true 25 140 [] [(8%nat, 20); (7%nat, 25)]).
Proof. reflexivity. Qed.

(** after stop, peak() is at least the usage at the end and at most the largest usage *)
Theorem C70_peak_bounds : forall gran history s, msems smon0 history = Some s -> on s = false ->
  exists m, mexecs gran mon0 history = Some m /\ 0 <= peak m /\ cur s <= peak m <= mx s.
Proof.
  intros gran l s S OFF. destruct (inv_steps gran l _ _ s inv0 S) as (m & X & I). exists m. split; auto.
  destruct (peak_spec m) as (A & B & C). split; auto. destruct I as [ON US PX ST NE EN [M0 MC] UP CU]. rewrite OFF in ST. split.
  - destruct CU as [CU|(e & t & E & J)]; [lia|]. rewrite ST, app_nil_r in E. apply (B e (t, cur s) E J).
  - destruct C as [C|(e & [t u] & E & J & C)]; [lia|]. cbn in C. subst u. apply UP. exists e, t. rewrite ST, app_nil_r. auto.
Qed.
Print Assumptions C70_peak_bounds.
Example C70_peak_bounds_meets :
  (msems smon0 (mdemo ++ [MStop]), option_map peak (mexecs 20 mon0 (mdemo ++ [MStop])))
  = (Some (mksmon false 25 140 [] [(8%nat, 20); (7%nat, 25)]), Some 140).
Proof. reflexivity. Qed.

(** peak() need not be the largest usage: a change within the granularity replaces the previous one in the log *)
Theorem C70_peak_refuted :
  ~ (forall gran history s, msems smon0 history = Some s -> on s = false ->
       exists m, mexecs gran mon0 history = Some m /\ peak m = mx s).
Proof.
  intros H. destruct (H 20 [MStart 0; MRecord 1 1000; MRecord 2 (-1000); MStop] _ eq_refl eq_refl) as (m & X & P).
  assert (Y : option_map peak (mexecs 20 mon0 [MStart 0; MRecord 1 1000; MRecord 2 (-1000); MStop]) = Some 0) by reflexivity.
  rewrite X in Y. injection Y as Y. rewrite Y in P. discriminate.
Qed.
Print Assumptions C70_peak_refuted.
(** It is, if every change comes later than the granularity after the one before *)
Theorem C70_peak_partial : forall gran history s, msems smon0 history = Some s -> on s = false -> spaced gran false 0 history ->
  exists m, mexecs gran mon0 history = Some m /\ peak m = mx s.
Proof.
  intros gran l s S OFF SP. destruct (topped_steps gran l mon0 smon0 s 0 inv0 S) as (m & X & I & T); auto; [left; reflexivity|].
  exists m. split; auto. destruct (peak_spec m) as (A & B & C). destruct I as [ON US PX ST NE EN [M0 MC] UP CU]. rewrite OFF in ST.
  apply Z.le_antisymm.
  - destruct C as [C|(e & [t u] & E & J & C)]; [lia|]. cbn in C. subst u. apply UP. exists e, t. rewrite ST, app_nil_r. auto.
  - destruct T as [T|(e & t & E & J)]; [lia|]. rewrite ST, app_nil_r in E. apply (B e (t, mx s) E J).
Qed.
Print Assumptions C70_peak_partial.
Definition mspaced : list mop := [MStart 0; MRecord 30 1000; MOpen 31 7; MRecord 60 (-900); MClose 61; MRecord 90 (-100); MStop].
Example C70_peak_partial_meets : spaced 20 false 0 mspaced /\ msems smon0 mspaced = Some (mksmon false 0 1000 [] [(7%nat, 100)]).
Proof. split; [cbn; lia|reflexivity]. Qed.

(** An event that is still open when the monitor is stopped, or started again, makes the program undefined: its destructor takes
    the top of an empty stack, or removes the bottom event on which the next record works *)
Theorem C70_open_event_refuted :
  (forall gran t1 t2 t3 name, mexecs gran mon0 [MStart t1; MOpen t2 name; MStop; MClose t3] = None) /\
  (forall gran t1 t2 t3 t4 t5 name d, mexecs gran mon0 [MStart t1; MOpen t2 name; MStart t3; MClose t4; MRecord t5 d] = None).
Proof.
  split; intros; cbn; auto. unfold record. cbn. now destruct (t3 + gran <? t5).
Qed.
Print Assumptions C70_open_event_refuted.
