(** * memory_monitor: proofs *)
From Coq Require Import List Bool Arith ZArith Lia.
From Verif Require Import Base MemMon SpecMemMon.
Import ListNotations.
Local Open Scope Z_scope.

Definition lg (m : mon) (u : Z) : Prop := exists e t, In e (completed m ++ stack m) /\ In (t, u) (allocs e).
Definition last_usage (e : ev) : Z := match rev (allocs e) with [] => 0 | a :: _ => snd a end.

(** ** peak *)
Lemma peak_fold l : forall x, let r := fold_left (fun mx (a : Z * Z) => if mx <? snd a then snd a else mx) l x in
  x <= r /\ (forall a, In a l -> snd a <= r) /\ (r = x \/ exists a, In a l /\ snd a = r).
Proof.
  induction l as [|a l IH]; intros x; cbn [fold_left]; cbv zeta.
  - split; [lia|]. split; [intros a []|auto].
  - set (y := if x <? snd a then snd a else x).
    assert (Y : x <= y /\ snd a <= y /\ (y = x \/ y = snd a)) by (unfold y; destruct (x <? snd a) eqn:Q; [apply Z.ltb_lt in Q|apply Z.ltb_ge in Q]; lia).
    clearbody y. destruct (IH y) as (A & B & C). split; [lia|]. split.
    + intros b [<-|I]; [lia|auto].
    + destruct C as [C|(b & I & C)]; [|right; exists b; split; [now right|auto]].
      rewrite C. destruct Y as (_ & _ & [->| ->]); auto. right. exists a. split; [now left|auto].
Qed.
Lemma peak_flat l : forall x, fold_left (fun mx e => fold_left (fun mx (a : Z * Z) => if mx <? snd a then snd a else mx) (allocs e) mx) l x =
  fold_left (fun mx (a : Z * Z) => if mx <? snd a then snd a else mx) (flat_map allocs l) x.
Proof. induction l as [|e l IH]; intros x; cbn; auto. now rewrite fold_left_app, IH. Qed.
Lemma peak_spec m : 0 <= peak m /\ (forall e a, In e (completed m) -> In a (allocs e) -> snd a <= peak m) /\
  (peak m = 0 \/ exists e a, In e (completed m) /\ In a (allocs e) /\ snd a = peak m).
Proof.
  unfold peak. rewrite peak_flat. destruct (peak_fold (flat_map allocs (completed m)) 0) as (A & B & C). split; auto. split.
  - intros e a E I. apply B. apply in_flat_map. eauto.
  - destruct C as [C|(a & I & C)]; auto. right. apply in_flat_map in I. destruct I as (e & E & I). eauto.
Qed.

(** ** the invariant *)
Record inv (m : mon) (s : smon) : Prop := {
  vOn : track m = on s;
  vUse : usage m = cur s;
  vProx : prox m = map (fun _ => on s) (opened s);
  vStack : if on s then map ename (stack m) = opened s ++ [0%nat] else stack m = [];
  vNE : forall e, In e (stack m) -> allocs e <> [];
  vEnd : on s = true -> map (fun e => (ename e, last_usage e)) (completed m) = ended s;
  vMx : 0 <= mx s /\ cur s <= mx s;
  vUp : forall u, lg m u -> u <= mx s;
  vCur : cur s <= 0 \/ lg m (cur s)
}.
Lemma last_emplace e t u : last_usage (emplace e (t, u)) = u.
Proof. unfold last_usage, emplace. cbn [allocs]. rewrite rev_app_distr. reflexivity. Qed.
Lemma removelast_in {A} (l : list A) x : In x (removelast l) -> In x l.
Proof. induction l as [|a [|b l] IH]; intros H; [destruct H|destruct H|]. change (In x (a :: removelast (b :: l))) in H. destruct H as [H|H]; [now left|right; auto]. Qed.
Lemma app_ne {A} (l : list A) x : l ++ [x] <> [].
Proof. destruct l; discriminate. Qed.

(** usages which a step may log: old ones, the one before and the one after *)
Definition grows (m m' : mon) (a b : Z) : Prop := forall u, lg m' u -> lg m u \/ u = a \/ u = b.

Lemma inv_step gran m s o s' : inv m s -> msem s o = Some s' -> exists m', mexec gran m o = Some m' /\ inv m' s'.
Proof.
  intros [ON US PX ST NE EN [M0 MC] UP CU] S. destruct o as [t| |t d|t name|t]; cbn [msem mexec] in *.
  - (* start *)
    destruct (opened s) eqn:O; [|discriminate]. injection S as <-. eexists; split; [reflexivity|].
    constructor; cbn [start on cur mx opened ended track usage prox stack completed]; auto; try lia.
    + intros e [<-|[]]. discriminate.
    + intros u (e & t' & [<-|[]] & [I|[]]). injection I as _ <-. lia.
  - (* stop *)
    destruct (opened s) eqn:O; [|discriminate]. injection S as <-. eexists; split; [reflexivity|].
    assert (LG : forall u, lg (stop m) u <-> lg m u).
    { intros u. unfold lg. cbn [stop completed stack]. now rewrite app_nil_r. }
    constructor; cbn [stop on cur mx opened ended track usage prox stack completed]; auto; try discriminate.
    + intros u L. apply UP, LG, L.
    + destruct CU as [C|C]; [auto|right; now apply LG].
  - (* record *)
    unfold record. rewrite ON. destruct (on s) eqn:D; [|injection S as <-; exists m; split; [reflexivity|]; constructor; rewrite ?D; auto].
    injection S as <-. destruct (stack m) as [|e st] eqn:SM; [destruct (opened s); discriminate|].
    assert (LU : forall e' t' u, In e' (completed m ++ st) -> In (t', u) (allocs e') -> u <= mx s).
    { intros e' t' u I J. apply UP. exists e', t'. split; auto. rewrite SM. apply in_app_iff in I. apply in_app_iff. cbn. tauto. }
    assert (LE : forall t' u, In (t', u) (allocs e) -> u <= mx s).
    { intros t' u J. apply UP. exists e, t'. split; auto. rewrite SM. apply in_app_iff. cbn. tauto. }
    destruct (last_event m + gran <? t).
    + eexists; split; [reflexivity|].
      constructor; cbn [on cur mx opened ended track usage prox stack completed]; auto; try lia.
      * intros e' [<-|I]; [apply app_ne|]. apply NE. now right.
      * intros u (e' & t' & I & J). cbn [completed stack] in I. apply in_app_iff in I. destruct I as [I|[<-|I]].
        -- pose proof (LU e' t' u (in_or_app _ _ _ (or_introl I)) J). lia.
        -- cbn [emplace allocs] in J. rewrite !in_app_iff in J. destruct J as [[J|[J|[]]]|[J|[]]].
           ++ apply LE in J. lia.
           ++ injection J as _ <-. lia.
           ++ injection J as _ <-. lia.
        -- pose proof (LU e' t' u (in_or_app _ _ _ (or_intror I)) J). lia.
      * right. exists (emplace (emplace e (t, usage m)) (t, usage m + d)), t. cbn [completed stack]. split; [apply in_app_iff; right; now left|].
        cbn [emplace allocs]. apply in_app_iff. right. left. now rewrite US.
    + destruct (allocs e) as [|a0 al] eqn:AE; [destruct (NE e); auto; now left|]. rewrite <- AE in *. clear a0 al AE.
      eexists; split; [reflexivity|].
      constructor; cbn [on cur mx opened ended track usage prox stack completed]; auto; try lia.
      * intros e' [<-|I]; [apply app_ne|]. apply NE. now right.
      * intros u (e' & t' & I & J). cbn [completed stack] in I. apply in_app_iff in I. destruct I as [I|[<-|I]].
        -- pose proof (LU e' t' u (in_or_app _ _ _ (or_introl I)) J). lia.
        -- cbn [allocs] in J. apply in_app_iff in J. destruct J as [J|[J|[]]].
           ++ apply removelast_in, LE in J. lia.
           ++ injection J as _ <-. lia.
        -- pose proof (LU e' t' u (in_or_app _ _ _ (or_intror I)) J). lia.
      * right. eexists _, t. cbn [completed stack]. split; [apply in_app_iff; right; left; reflexivity|].
        cbn [allocs]. apply in_app_iff. right. left. now rewrite US.
  - (* open *)
    injection S as <-. eexists; split; [reflexivity|]. unfold open_event. rewrite ON. destruct (on s) eqn:D.
    + constructor; cbn [on cur mx opened ended track usage prox stack completed map app]; auto.
      * now rewrite PX.
      * cbn [ename]. now rewrite ST.
      * intros e [<-|I]; [discriminate|auto].
      * intros u (e & t' & I & J). cbn [completed stack] in I. apply in_app_iff in I. destruct I as [I|[<-|I]].
        -- apply UP. exists e, t'. rewrite in_app_iff. auto.
        -- destruct J as [J|[]]. injection J as _ <-. lia.
        -- apply UP. exists e, t'. rewrite in_app_iff. auto.
      * right. eexists _, t. cbn [completed stack]. split; [apply in_app_iff; right; left; reflexivity|]. left. now rewrite US.
    + constructor; cbn [on cur mx opened ended track usage prox stack completed map app]; auto. now rewrite PX.
  - (* close *)
    destruct (opened s) as [|name l] eqn:O; [discriminate|]. injection S as <-. unfold close_event. rewrite PX. cbn [map].
    destruct (on s) eqn:D.
    + destruct (stack m) as [|c st] eqn:SM; [discriminate|]. cbn [map app] in ST. injection ST as CN ST.
      eexists; split; [reflexivity|].
      set (st' := match st with [] => [] | _ => _ end).
      assert (SS : map ename st' = map ename st /\ (forall e, In e st' -> allocs e <> []) /\
        (forall e t' u, In e st' -> In (t', u) (allocs e) -> exists e0 t0, In e0 st /\ In (t0, u) (allocs e0))).
      { unfold st'. destruct st as [|e st0]; [split; auto; split; [intros e []|intros e t' u []]|].
        destruct (rev (allocs e)) as [|[t1 u1] r] eqn:RV.
        - destruct (NE e); [right; now left|]. rewrite <- (rev_involutive (allocs e)), RV. reflexivity.
        - split; [reflexivity|]. split.
          + intros e' [<-|I]; [apply app_ne|]. apply NE. right. now right.
          + intros e' t' u [<-|I] J; [|exists e', t'; split; [now right|auto]].
            cbn [emplace allocs] in J. apply in_app_iff in J. destruct J as [J|[J|[]]]; [exists e, t'; split; [now left|auto]|].
            injection J as _ <-. exists e, t1. split; [now left|]. apply in_rev. rewrite RV. now left. }
      destruct SS as (S1 & S2 & S3). clearbody st'.
      constructor; cbn [on cur mx opened ended track usage prox stack completed map app]; auto; try lia.
      * now rewrite S1, ST.
      * intros _. rewrite map_app, EN by auto. cbn [map emplace ename]. now rewrite last_emplace, CN, US.
      * intros u (e & t' & I & J). cbn [completed stack] in I. rewrite !in_app_iff in I. destruct I as [[I|[<-|[]]]|I].
        -- apply UP. exists e, t'. rewrite in_app_iff. auto.
        -- cbn [emplace allocs] in J. apply in_app_iff in J. destruct J as [J|[J|[]]].
           ++ apply UP. exists c, t'. rewrite SM, in_app_iff. split; [right; now left|auto].
           ++ injection J as _ <-. lia.
        -- destruct (S3 e t' u I J) as (e0 & t0 & I0 & J0). apply UP. exists e0, t0. rewrite SM, in_app_iff. split; [right; now right|auto].
      * right. exists (emplace c (t, usage m)), t. cbn [completed stack]. rewrite !in_app_iff. split; [left; right; now left|].
        cbn [emplace allocs]. apply in_app_iff. right. left. now rewrite US.
    + eexists; split; [reflexivity|]. constructor; cbn [on cur mx opened ended track usage prox stack completed map app]; auto; try lia; try discriminate.
Qed.
Lemma inv0 : inv mon0 smon0.
Proof.
  constructor; cbn; auto; try lia; try discriminate.
  - intros u (e & t & [] & _).
Qed.
Lemma inv_steps gran l : forall m s s', inv m s -> msems s l = Some s' -> exists m', mexecs gran m l = Some m' /\ inv m' s'.
Proof.
  induction l as [|o l IH]; intros m s s' I S; cbn [msems mexecs] in *; [injection S as <-; eauto|].
  destruct (msem s o) as [s1|] eqn:Q; [|discriminate]. cbn [obind] in S.
  destruct (inv_step gran m s o s1 I Q) as (m1 & X & I1). rewrite X. cbn [obind]. eauto.
Qed.

(** ** when every record is logged, the largest usage is in the log *)
Definition topped (m : mon) (s : smon) : Prop := mx s = 0 \/ lg m (mx s).
Lemma lg_mono_step gran m s o s' m' last : inv m s -> msem s o = Some s' -> mexec gran m o = Some m' ->
  (on s = true -> last_event m = last) -> spaced gran (on s) last [o] -> topped m s ->
  topped m' s' /\ forall l, spaced gran (on s) last (o :: l) -> exists last', (on s' = true -> last_event m' = last') /\ spaced gran (on s') last' l.
Proof.
  intros I S X LE SP T. pose proof I as [ON US PX ST NE EN [M0 MC] UP CU].
  destruct o as [t| |t d|t name|t]; cbn [msem mexec] in *.
  - destruct (opened s); [|discriminate]. injection S as <-. injection X as <-. split; [now left|].
    intros l H. cbn [spaced] in H. exists t. split; auto.
  - destruct (opened s); [|discriminate]. injection S as <-. injection X as <-. split.
    + destruct T as [T|(e & t & E & J)]; [left; auto|right]. exists e, t. cbn [stop completed stack]. now rewrite app_nil_r.
    + intros l H. cbn [spaced] in H. exists last. split; auto. discriminate.
  - unfold record in X. rewrite ON in X. destruct (on s) eqn:D.
    + injection S as <-. cbn [spaced] in SP. destruct SP as [SP _]. rewrite LE in X by auto.
      apply Z.ltb_lt in SP. rewrite SP in X. destruct (stack m) as [|e st] eqn:SM; [discriminate|]. injection X as <-. split.
      * unfold topped. cbn [mx]. destruct (Z.max_spec (mx s) (cur s + d)) as [[_ ->]|[_ ->]].
        -- right. exists (emplace (emplace e (t, usage m)) (t, usage m + d)), t. cbn [completed stack]. rewrite in_app_iff. split; [right; now left|].
           cbn [emplace allocs]. apply in_app_iff. right. left. now rewrite US.
        -- destruct T as [T|(e' & t' & E & J)]; [now left|right]. rewrite SM, in_app_iff in E. destruct E as [E|[<-|E]].
           ++ exists e', t'. cbn [completed stack]. rewrite in_app_iff. auto.
           ++ exists (emplace (emplace e (t, usage m)) (t, usage m + d)), t'. cbn [completed stack]. rewrite in_app_iff. split; [right; now left|].
              cbn [emplace allocs]. rewrite !in_app_iff. auto.
           ++ exists e', t'. cbn [completed stack]. rewrite in_app_iff. split; auto. right. now right.
      * intros l [_ H]. exists t. split; auto.
    + injection S as <-. injection X as <-. split; auto. intros l H. cbn [spaced] in H. exists last. rewrite D. split; auto; discriminate.
  - injection S as <-. injection X as <-. split.
    + destruct T as [T|(e & t' & E & J)]; [now left|right]. exists e, t'. split; auto. unfold open_event. destruct (track m); cbn [completed stack]; auto.
      rewrite in_app_iff in *. destruct E; auto. right. now right.
    + intros l H. cbn [spaced] in H. exists last. cbn [on]. split; auto. intros D. unfold open_event. destruct (track m); cbn [last_event]; auto.
  - destruct (opened s) as [|name l0] eqn:O; [discriminate|]. injection S as <-. unfold close_event in X. rewrite PX in X. cbn [map] in X.
    destruct (on s) eqn:D.
    + destruct (stack m) as [|c st] eqn:SM; [discriminate|]. injection X as <-. split.
      * destruct T as [T|(e & t' & E & J)]; [now left|right]. rewrite SM, in_app_iff in E. destruct E as [E|[<-|E]].
        -- exists e, t'. cbn [completed stack]. rewrite !in_app_iff. auto.
        -- exists (emplace c (t, usage m)), t'. cbn [completed stack]. rewrite !in_app_iff. split; [left; right; now left|].
           cbn [emplace allocs]. rewrite in_app_iff. auto.
        -- destruct st as [|e1 st]; [destruct E|]. destruct (rev (allocs e1)) as [|[t1 u1] r] eqn:RV.
           ++ exists e, t'. cbn [completed stack]. rewrite !in_app_iff. auto.
           ++ destruct E as [<-|E].
              ** exists (emplace e1 (t, u1)), t'. cbn [completed stack]. rewrite !in_app_iff. split; [right; now left|]. cbn [emplace allocs]. rewrite in_app_iff. auto.
              ** exists e, t'. cbn [completed stack]. rewrite !in_app_iff. split; auto. right. now right.
      * intros l H. cbn [spaced] in H. exists last. cbn [on]. split; auto.
    + injection X as <-. split.
      * destruct T as [T|(e & t' & E & J)]; [now left|right]. exists e, t'. auto.
      * intros l H. cbn [spaced] in H. exists last. cbn [on]. split; auto.
Qed.
Lemma topped_steps gran l : forall m s s' last, inv m s -> msems s l = Some s' -> (on s = true -> last_event m = last) ->
  spaced gran (on s) last l -> topped m s -> exists m', mexecs gran m l = Some m' /\ inv m' s' /\ topped m' s'.
Proof.
  induction l as [|o l IH]; intros m s s' last I S LE SP T; cbn [msems mexecs] in *; [injection S as <-; eauto|].
  destruct (msem s o) as [s1|] eqn:Q; [|discriminate]. cbn [obind] in S.
  destruct (inv_step gran m s o s1 I Q) as (m1 & X & I1). rewrite X. cbn [obind].
  assert (SP1 : spaced gran (on s) last [o]).
  { destruct o; cbn [spaced] in *; auto. destruct (on s); tauto. }
  destruct (lg_mono_step gran m s o s1 m1 last I Q X LE SP1 T) as [T1 N].
  destruct (N l SP) as (last' & L1 & SP'). eauto.
Qed.
