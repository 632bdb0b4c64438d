(** * Histories of the sorted stacks *)
From Coq Require Import NArith List Bool Arith Lia Sorting.Sorted.
From Verif Require Import Base Bits SpecBits RankSelect BitsProofs BitsProofs2 AbsVec FnArr SpecStack Stacks StackProofs.
Import ListNotations.

Definition shifted (k : nat) (l : list nat) : list nat := map (fun x => x + k) l ++ [0].
Lemma shifted_dec : forall k l, 0 < k -> dec l -> dec (shifted k l).
Proof.
  induction l as [|x l IH]; intros K D. { cbn. repeat constructor. }
  destruct (dec_inv _ _ D) as [D' M]. cbn. constructor. { apply IH; auto. }
  apply Forall_forall. intros y Y. unfold shifted in Y. apply in_app_or in Y. destruct Y as [Y|[<-|[]]]; [|lia].
  apply in_map_iff in Y. destruct Y as (z & <- & Z). specialize (M z Z). lia.
Qed.
Lemma shifted_ne : forall k l, exists t s, shifted k l = t :: s.
Proof. destruct l; cbn; eauto. Qed.
Lemma above_dec : forall l x, dec l -> above l x -> dec (x :: l).
Proof.
  intros l x D A. constructor; auto. apply Forall_forall. intros y Y. destruct l as [|t l]; [destruct Y|]. cbn in A.
  destruct Y as [<-|Y]; [lia|]. destruct (dec_inv _ _ D) as [_ M]. specialize (M y Y). lia.
Qed.
Lemma dec_head : forall x t s, dec (x :: t :: s) -> t < x.
Proof. intros. destruct (dec_inv _ _ H) as [_ M]. apply M. left. auto. Qed.

(** ** sorted_stack_support *)
Definition ss_rep (n : nat) (l : list nat) : sst :=
  mksst n (length l) (hd 0 (shifted 1 l)) (farr ((n + 1) / 63 + 1) (wordof (shifted 1 l))).
Definition bounded (n : nat) (l : list nat) : Prop := forall x, In x l -> x <= n.

Lemma ss_step_ok : forall n l o, (N.of_nat n + 1 < 2 ^ 63)%N -> dec l -> bounded n l ->
  match o with Push x => above l x /\ x <= n | Pop => True end ->
  ss_step (ss_rep n l) o = Some (ss_rep n (st_step l o)) /\ dec (st_step l o) /\ bounded n (st_step l o).
Proof.
  intros n l o N63 D B P. destruct o as [x|].
  - destruct P as [A X]. pose proof (above_dec l x D A) as D2.
    split; [|split; [exact D2 | intros y [<-|Y]; auto]].
    unfold ss_step, ss_push, ss_rep. cbn [ss_ws ss_top ss_n ss_cnt st_step].
    pose proof (shifted_dec 1 _ ltac:(lia) D2) as SD. change (shifted 1 (x :: l)) with (x + 1 :: shifted 1 l) in *.
    destruct (shifted_ne 1 l) as (t & s & E). rewrite E in *. cbn [hd].
    rewrite blk_push_ok; [ | apply dec_inv in SD; apply SD | eapply dec_head; eauto |
      assert ((x + 1) / 63 <= (n + 1) / 63) by (apply Nat.div_le_mono; lia); lia].
    cbn [obind length]. repeat f_equal. lia.
  - destruct l as [|x l].
    + split; [reflexivity|]. cbn. auto.
    + destruct (dec_inv _ _ D) as [D2 M]. split; [|split; [exact D2 | intros y Y; apply B; right; auto]].
      unfold ss_step, ss_pop, ss_rep, ss_empty. cbn [ss_ws ss_top ss_n ss_cnt st_step length Nat.eqb tl].
      pose proof (shifted_dec 1 _ ltac:(lia) D) as SD. change (shifted 1 (x :: l)) with (x + 1 :: shifted 1 l) in *.
      pose proof (B x (or_introl eq_refl)) as XB.
      destruct (shifted_ne 1 l) as (t & s & E). rewrite E in *. cbn [hd]. pose proof (dec_head _ _ _ SD).
      rewrite blk_pop_ok; [ | exact SD | assert ((x + 1) / 63 <= (n + 1) / 63) by (apply Nat.div_le_mono; lia); lia | lia].
      cbn [obind]. repeat f_equal. lia.
Qed.
Lemma ss_run_ok : forall n ops l, (N.of_nat n + 1 < 2 ^ 63)%N -> dec l -> bounded n l ->
  st_ok (fun l x => above l x /\ x <= n) l ops ->
  ss_run (ss_rep n l) ops = Some (ss_rep n (st_run l ops)).
Proof.
  induction ops as [|o ops IH]; intros l N63 D B OK; [reflexivity|].
  destruct OK as [P OK]. destruct (ss_step_ok n l o N63 D B P) as (E & D2 & B2). cbn [ss_run]. rewrite E. cbn [obind].
  apply IH; auto.
Qed.
Lemma ss_new_ok : forall n, ss_new n = Some (ss_rep n []).
Proof. intros. unfold ss_new. rewrite wordof_start by lia. reflexivity. Qed.

Theorem ss_history : forall n ops, (N.of_nat n + 1 < 2 ^ 63)%N ->
  st_ok (fun l x => above l x /\ x <= n) [] ops ->
  exists s0 s, ss_new n = Some s0 /\ ss_run s0 ops = Some s /\
    ss_cnt s = length (st_run [] ops) /\ (ss_empty s = true <-> st_run [] ops = []) /\
    (forall t r, st_run [] ops = t :: r -> ss_get_top s = t).
Proof.
  intros n ops N63 OK. exists (ss_rep n []), (ss_rep n (st_run [] ops)). split; [apply ss_new_ok|]. split.
  { apply ss_run_ok; auto; [constructor | intros x []]. }
  split; [reflexivity|]. split.
  - unfold ss_empty, ss_rep. cbn [ss_cnt]. destruct (st_run [] ops); cbn; split; intro; try discriminate; auto.
  - intros t r E. rewrite E. unfold ss_get_top. cbn. lia.
Qed.

(** ** sorted_int_stack *)
Definition big (n : nat) (l : list nat) : list nat := filter (fun x => n <? x) l.
Definition small (n : nat) (l : list nat) : list nat := filter (fun x => negb (n <? x)) l.
Definition si_ovf (n : nat) (l : list nat) : list nat :=
  match big n l with [] => [] | b => map (fun x => x + 63) b ++ [hd 0 (shifted 63 (small n l))] end.
Definition si_rep (n : nat) (l : list nat) : sis :=
  mksis n (length l) (hd 0 (shifted 63 l)) (farr (n / 63 + 2) (wordof (shifted 63 (small n l)))) (si_ovf n l).

Lemma big_nil : forall n l, (forall x, In x l -> x <= n) -> big n l = [] /\ small n l = l.
Proof.
  induction l as [|x l IH]; intros H; [split; reflexivity|]. destruct IH as [I1 I2]. { intros; apply H; right; auto. }
  pose proof (H x (or_introl eq_refl)). cbn. replace (n <? x) with false by (symmetry; apply Nat.ltb_ge; auto). cbn. split; auto. f_equal. auto.
Qed.
Lemma small_dec : forall n l, dec l -> dec (small n l).
Proof.
  induction l as [|x l IH]; intros D; [constructor|]. destruct (dec_inv _ _ D) as [D' M]. cbn. destruct (negb (n <? x)); auto.
  constructor; [apply IH; exact D'|]. apply Forall_forall. intros y Y. apply filter_In in Y. apply M. apply Y.
Qed.
Lemma dec_small_top : forall n x l, dec (x :: l) -> x <= n -> big n (x :: l) = [] /\ small n (x :: l) = x :: l /\ small n l = l /\ big n l = [].
Proof.
  intros n x l D X. destruct (dec_inv _ _ D) as [_ M].
  assert (A : forall y, In y l -> y <= n) by (intros y Y; specialize (M y Y); lia).
  destruct (big_nil n l A) as [B1 B2].
  destruct (big_nil n (x :: l)) as [B3 B4]. { intros y [<-|Y]; auto. } auto.
Qed.

Lemma si_step_ok : forall n l o, (N.of_nat n + 63 < 2 ^ 63)%N -> dec l ->
  match o with Push x => above l x | Pop => True end ->
  si_step (si_rep n l) o = Some (si_rep n (st_step l o)) /\ dec (st_step l o).
Proof.
  intros n l o N63 D P. destruct o as [x|].
  - pose proof (above_dec l x D P) as D2. split; [|exact D2].
    unfold si_step, si_push, si_rep. cbn [si_ws si_top si_n si_cnt si_ov st_step].
    replace (n + 63 <? x + 63) with (n <? x) by (destruct (Nat.ltb_spec n x), (Nat.ltb_spec (n + 63) (x + 63)); auto; lia).
    destruct (n <? x) eqn:NX.
    + f_equal. cbn [length]. change (shifted 63 (x :: l)) with (x + 63 :: shifted 63 l). cbn [hd].
      assert (SB : small n (x :: l) = small n l) by (cbn; rewrite NX; auto). rewrite SB. f_equal. { lia. }
      unfold si_ovf. rewrite SB. assert (BB : big n (x :: l) = x :: big n l) by (cbn; rewrite NX; auto). rewrite BB. cbn [map app].
      destruct (big n l) as [|b0 b] eqn:EB.
      * assert (SL : small n l = l).
        { apply big_nil. intros y Y. destruct (Nat.ltb_spec n y); auto. exfalso. assert (In y (big n l)) by (apply filter_In; split; auto; apply Nat.ltb_lt; auto).
          rewrite EB in H0. destruct H0. }
        rewrite SL. reflexivity.
      * cbn [map app]. reflexivity.
    + apply Nat.ltb_ge in NX. destruct (dec_small_top n x l D2 NX) as (B1 & S1 & S2 & B2).
      unfold si_ovf. rewrite B1, S1, S2, B2.
      pose proof (shifted_dec 63 _ ltac:(lia) D2) as SD. change (shifted 63 (x :: l)) with (x + 63 :: shifted 63 l) in *.
      destruct (shifted_ne 63 l) as (t & s & E). rewrite E in *. cbn [hd].
      rewrite blk_push_ok; [ | apply dec_inv in SD; apply SD | eapply dec_head; eauto |
        assert ((x + 63) / 63 <= (n + 63) / 63) by (apply Nat.div_le_mono; lia); clear - H; lia].
      cbn [obind length]. repeat f_equal. lia.
  - destruct l as [|x l].
    + split; [reflexivity|constructor].
    + destruct (dec_inv _ _ D) as [D2 M]. split; [|exact D2].
      unfold si_step, si_pop, si_rep, si_empty. cbn [si_ws si_top si_n si_cnt si_ov st_step length Nat.eqb tl].
      change (shifted 63 (x :: l)) with (x + 63 :: shifted 63 l). cbn [hd].
      replace (n + 63 <? x + 63) with (n <? x) by (destruct (Nat.ltb_spec n x), (Nat.ltb_spec (n + 63) (x + 63)); auto; lia).
      destruct (n <? x) eqn:NX.
      * assert (SB : small n (x :: l) = small n l) by (cbn; rewrite NX; auto).
        unfold si_ovf. rewrite SB. assert (BB : big n (x :: l) = x :: big n l) by (cbn; rewrite NX; auto). rewrite BB. cbn [map app].
        destruct (big n l) as [|b0 b] eqn:EB.
        { assert (SL : small n l = l).
          { apply big_nil. intros y Y. destruct (Nat.ltb_spec n y); auto. exfalso. assert (In y (big n l)) by (apply filter_In; split; auto; apply Nat.ltb_lt; auto).
            rewrite EB in H0. destruct H0. }
          rewrite SL. cbn [map app]. repeat f_equal. lia. }
        assert (HL : exists r, l = b0 :: r).
        { destruct l as [|y l]; [discriminate|]. cbn in EB. destruct (n <? y) eqn:NY. { injection EB as -> _. eauto. }
          exfalso. apply Nat.ltb_ge in NY. destruct (dec_small_top n y l D2 NY) as (_ & _ & _ & B). unfold big in B. rewrite B in EB. discriminate. }
        destruct HL as [r ->]. cbn [map app shifted hd].
        f_equal. f_equal; try lia. destruct (map (fun x0 => x0 + 63) b ++ [_]) eqn:EE; auto. destruct (map (fun x0 => x0 + 63) b); discriminate.
      * apply Nat.ltb_ge in NX. destruct (dec_small_top n x l D NX) as (B1 & S1 & S2 & B2).
        unfold si_ovf. rewrite B1, S1, S2, B2.
        pose proof (shifted_dec 63 _ ltac:(lia) D) as SD. change (shifted 63 (x :: l)) with (x + 63 :: shifted 63 l) in *.
        destruct (shifted_ne 63 l) as (t & s & E). rewrite E in *. cbn [hd]. pose proof (dec_head _ _ _ SD).
        rewrite blk_pop_ok; [ | exact SD | assert (Q : (x + 63) / 63 <= (n + 63) / 63) by (apply Nat.div_le_mono; lia); clear - Q; lia | lia].
        cbn [obind]. repeat f_equal. lia.
Qed.
Lemma si_run_ok : forall n ops l, (N.of_nat n + 63 < 2 ^ 63)%N -> dec l ->
  st_ok above l ops -> si_run (si_rep n l) ops = Some (si_rep n (st_run l ops)).
Proof.
  induction ops as [|o ops IH]; intros l N63 D OK; [reflexivity|].
  destruct OK as [P OK]. destruct (si_step_ok n l o N63 D P) as (E & D2). cbn [si_run]. rewrite E. cbn [obind].
  apply IH; auto.
Qed.
Lemma si_new_ok : forall n, si_new n = Some (si_rep n []).
Proof. intros. unfold si_new. rewrite wordof_start by lia. reflexivity. Qed.
Lemma st_ok_weak : forall (p q : list nat -> nat -> Prop) ops l, (forall l x, p l x -> q l x) -> st_ok p l ops -> st_ok q l ops.
Proof. induction ops as [|o ops IH]; intros l H OK; auto. destruct OK as [P OK]. split; [destruct o; auto|]. apply IH; auto. Qed.

Theorem si_history : forall n ops, (N.of_nat n + 63 < 2 ^ 63)%N ->
  st_ok (fun l x => above l x /\ (N.of_nat x + 63 < W64)%N) [] ops ->
  exists s0 s, si_new n = Some s0 /\ si_run s0 ops = Some s /\
    si_cnt s = length (st_run [] ops) /\ (si_empty s = true <-> st_run [] ops = []) /\
    (forall t r, st_run [] ops = t :: r -> si_get_top s = t).
Proof.
  intros n ops N63 OK. exists (si_rep n []), (si_rep n (st_run [] ops)). split; [apply si_new_ok|]. split.
  { apply si_run_ok; auto; [constructor |]. eapply st_ok_weak; [|exact OK]. cbn. tauto. }
  split; [reflexivity|]. split.
  - unfold si_empty, si_rep. cbn [si_cnt]. destruct (st_run [] ops); cbn; split; intro; try discriminate; auto.
  - intros t r E. rewrite E. unfold si_get_top. cbn. lia.
Qed.

(** ** sorted_multi_stack_support *)
Definition dupf (x : nat) (r : list nat) : bool := match r with [] => false | y :: _ => y =? x end.
Fixpoint dd (l : list nat) : list nat := match l with [] => [] | x :: r => if dupf x r then dd r else x :: dd r end.
Fixpoint dupw (l : list nat) (j : nat) : N :=
  match l with
  | [] => 0%N
  | x :: r => if dupf x r && (length r / 64 =? j) then N.lor (2 ^ N.of_nat (length r mod 64)) (dupw r j) else dupw r j
  end.
Definition sm_rep (n : nat) (l : list nat) : sms :=
  mksms n (length l) (hd 0 (shifted 1 (dd l))) (farr ((n + 1) / 63 + 1) (wordof (shifted 1 (dd l)))) (farr (n / 64 + 1) (dupw l)).
Definition ndec (l : list nat) : Prop := StronglySorted ge l.
Lemma ndec_inv : forall x s, ndec (x :: s) -> ndec s /\ forall y, In y s -> y <= x.
Proof. intros x s H. inversion H; subst. split; auto. intros y Y. rewrite Forall_forall in H3. apply H3. auto. Qed.
Lemma dd_In : forall l x, In x (dd l) <-> In x l.
Proof.
  induction l as [|y l IH]; intros x; [reflexivity|]. cbn [dd]. destruct (dupf y l) eqn:E.
  - rewrite IH. split; [right; auto|]. intros [<-|]; auto. destruct l; [discriminate|]. cbn in E. apply Nat.eqb_eq in E. left. auto.
  - cbn. rewrite IH. reflexivity.
Qed.
Lemma dd_hd : forall l x r, l = x :: r -> exists r', dd l = x :: r'.
Proof.
  induction l as [|y l IH]; intros x r E; [discriminate|]. injection E as -> ->. cbn [dd]. destruct (dupf x r) eqn:F; [|eauto].
  destruct r as [|z r]; [discriminate|]. cbn in F. apply Nat.eqb_eq in F. subst z. eapply IH. eauto.
Qed.
Lemma dd_dec : forall l, ndec l -> dec (dd l).
Proof.
  induction l as [|x l IH]; intros D; [constructor|]. destruct (ndec_inv _ _ D) as [D' M]. cbn [dd]. destruct (dupf x l) eqn:E; auto.
  constructor; [apply IH; exact D'|]. apply Forall_forall. intros y Y. rewrite dd_In in Y. destruct l as [|t l]; [destruct Y|]. cbn in E. apply Nat.eqb_neq in E.
  pose proof (M t (or_introl eq_refl)). destruct (ndec_inv _ _ D') as [_ M2]. destruct Y as [<-|Y]; [lia|]. specialize (M2 y Y). lia.
Qed.
Lemma notbelow_dec : forall l x, ndec l -> notbelow l x -> ndec (x :: l).
Proof.
  intros l x D A. constructor; auto. apply Forall_forall. intros y Y. destruct l as [|t l]; [destruct Y|]. cbn in A.
  destruct Y as [<-|Y]; [lia|]. destruct (ndec_inv _ _ D) as [_ M]. specialize (M y Y). lia.
Qed.
Lemma dupw_lt : forall l c, length l <= c -> (dupw l (c / 64) < 2 ^ N.of_nat (c mod 64))%N.
Proof.
  induction l as [|x l IH]; intros c L.
  - cbn. apply N.neq_0_lt_0. apply N.pow_nonzero. discriminate.
  - cbn [dupw length] in *. specialize (IH c ltac:(lia)). destruct (dupf x l && (length l / 64 =? c / 64)) eqn:E; auto.
    apply andb_true_iff in E. destruct E as [_ E]. apply Nat.eqb_eq in E. apply lor_lt; auto. apply N.pow_lt_mono_r; [lia|].
    assert (length l mod 64 < c mod 64); [|lia]. revert E L. generalize (length l). clear. intros. lia.
Qed.
Lemma testbit_fresh : forall k w, (w < 2 ^ k)%N -> N.testbit w k = false.
Proof. intros k w L. destruct (N.eq_dec w 0) as [->|]; [apply N.bits_0|]. apply N.bits_above_log2. apply N.log2_lt_pow2; lia. Qed.

(** the bit test of push *)
Lemma sm_bit : forall l x, dec (shifted 1 l) -> notbelow l x ->
  N.testbit (wordof (shifted 1 l) ((x + 1) / 63)) (N.of_nat ((x + 1) mod 63)) = dupf x l.
Proof.
  intros l x D A.
  assert (HB : forall b, (x + 1) / 63 < b -> has (shifted 1 l) b = false).
  { intros b L. apply has_false. intros y Y. unfold shifted in Y. apply in_app_or in Y.
    assert (y <= x + 1); [|assert (y / 63 <= (x + 1) / 63) by (apply Nat.div_le_mono; lia); lia].
    destruct Y as [Y|[<-|[]]]; [|lia]. destruct l as [|t l]; [destruct Y|]. cbn in A. cbn in D. destruct (dec_inv _ _ D) as [_ M].
    destruct Y as [<-|Y]; [lia|]. specialize (M y ltac:(apply in_or_app; left; auto)). lia. }
  assert (W0 : wordof (shifted 1 l) ((x + 1) / 63) = bbits (shifted 1 l) ((x + 1) / 63)).
  { unfold wordof. destruct (has _ ((x + 1) / 63)) eqn:E; auto. rewrite HB by lia. rewrite bbits_none; auto. }
  rewrite W0. destruct l as [|t l].
  - cbn [dupf]. apply testbit_fresh. apply bbits_fresh. intros y [<-|[]]. lia.
  - change (shifted 1 (t :: l)) with (t + 1 :: shifted 1 l) in *. cbn [dupf]. cbn in A. destruct (dec_inv _ _ D) as [_ M].
    destruct (Nat.eqb_spec t x) as [->|NE].
    + rewrite bbits_cons, Nat.eqb_refl, N.lor_spec, N.pow2_bits_true. auto.
    + apply testbit_fresh. apply bbits_fresh. intros y [<-|Y]; [lia|]. specialize (M y Y). lia.
Qed.

Lemma dd_notbelow : forall l x, notbelow l x -> notbelow (dd l) x /\ dupf x (dd l) = dupf x l.
Proof.
  intros [|t l] x A; [split; auto|]. destruct (dd_hd (t :: l) t l eq_refl) as [r' E]. rewrite E. cbn. split; auto.
Qed.

Lemma sm_step_ok : forall n l o, (N.of_nat n + 1 < 2 ^ 63)%N -> ndec l -> bounded n l -> length l <= 64 * (n / 64 + 1) ->
  match o with Push x => notbelow l x /\ x <= n /\ length l < 64 * (n / 64 + 1) | Pop => True end ->
  sm_step (sm_rep n l) o = Some (sm_rep n (st_step l o), st_result l o) /\
  ndec (st_step l o) /\ bounded n (st_step l o) /\ length (st_step l o) <= 64 * (n / 64 + 1).
Proof.
  intros n l o N63 D B LN P. destruct o as [x|].
  - destruct P as (A & X & LC). pose proof (notbelow_dec l x D A) as D2.
    split; [|split; [exact D2 | split; [intros y [<-|Y]; auto | cbn [st_step length]; lia]]].
    unfold sm_step, sm_push, sm_rep. cbn [sm_ws sm_top sm_n sm_cnt sm_dup st_step].
    assert (XN : (x + 1) / 63 < (n + 1) / 63 + 1). { assert ((x + 1) / 63 <= (n + 1) / 63) by (apply Nat.div_le_mono; lia). lia. }
    rewrite farr_nth_error by auto. cbn [obind].
    destruct (dd_notbelow l x A) as [DA DF].
    rewrite (sm_bit (dd l) x) by (auto; apply shifted_dec; auto; apply dd_dec; auto). rewrite DF.
    assert (RES : st_result l (Push x) = negb (dupf x l)) by (destruct l; reflexivity). rewrite RES.
    destruct (dupf x l) eqn:DUP; cbn [negb].
    + assert (LC2 : length l / 64 < n / 64 + 1) by (clear - LC; lia).
      rewrite farr_nth_error by auto. cbn [obind]. rewrite farr_aset by auto. cbn [obind dd length]. rewrite DUP.
      destruct (lor_lxor_fresh (N.of_nat (length l mod 64)) (dupw l (length l / 64)) (dupw_lt l _ (Nat.le_refl _))) as [X1 _].
      rewrite X1. do 2 f_equal. f_equal. { lia. } apply farr_ext. intros j J. cbn [dupw]. rewrite DUP. cbn [andb].
      rewrite (Nat.eqb_sym (length l / 64) j). destruct (Nat.eqb_spec j (length l / 64)) as [->|]; auto.
    + cbn [dd]. rewrite DUP.
      pose proof (shifted_dec 1 _ ltac:(lia) (dd_dec _ D2)) as SD. cbn [dd] in SD. rewrite DUP in SD.
      change (shifted 1 (x :: dd l)) with (x + 1 :: shifted 1 (dd l)) in *.
      destruct (shifted_ne 1 (dd l)) as (t & s & E). rewrite E in *. cbn [hd].
      rewrite blk_push_ok; [ | apply dec_inv in SD; apply SD | eapply dec_head; eauto | auto].
      cbn [obind length]. do 2 f_equal. f_equal; [lia|]. apply farr_ext. intros j J. cbn [dupw]. rewrite DUP. auto.
  - destruct l as [|x l].
    + split; [reflexivity|]. cbn. auto.
    + destruct (ndec_inv _ _ D) as [D2 M]. split; [|split; [exact D2 | split; [intros y Y; apply B; right; auto | cbn [st_step tl length] in *; lia]]].
      unfold sm_step, sm_pop, sm_rep, sm_empty. cbn [sm_ws sm_top sm_n sm_cnt sm_dup st_step length Nat.eqb tl].
      replace (S (length l) - 1) with (length l) by lia. cbn [length] in LN.
      assert (LC2 : length l / 64 < n / 64 + 1) by (clear - LN; lia).
      rewrite farr_nth_error by auto. cbn [obind].
      pose proof (dupw_lt l _ (Nat.le_refl (length l))) as FR.
      assert (RES : st_result (x :: l) Pop = negb (dupf x l)). { destruct l; cbn; auto. rewrite Nat.eqb_sym. auto. } rewrite RES.
      cbn [dupw dd]. rewrite Nat.eqb_refl, andb_true_r. destruct (dupf x l) eqn:DUP; cbn [negb andb].
      * rewrite N.lor_spec, N.pow2_bits_true. cbn [orb]. rewrite farr_aset by auto. cbn [obind].
        destruct (lor_lxor_fresh _ _ FR) as [_ X1]. rewrite X1. do 3 f_equal. apply farr_ext. intros j J.
        rewrite (Nat.eqb_sym (length l / 64) j). destruct (Nat.eqb_spec j (length l / 64)) as [->|]; auto.
      * rewrite testbit_fresh by auto.
        pose proof (shifted_dec 1 _ ltac:(lia) (dd_dec _ D)) as SD. cbn [dd] in SD. rewrite DUP in SD.
        change (shifted 1 (x :: dd l)) with (x + 1 :: shifted 1 (dd l)) in *.
        pose proof (B x (or_introl eq_refl)) as XB.
        destruct (shifted_ne 1 (dd l)) as (t & s & E). rewrite E in *. cbn [hd]. pose proof (dec_head _ _ _ SD).
        rewrite blk_pop_ok; [ | exact SD | assert ((x + 1) / 63 <= (n + 1) / 63) by (apply Nat.div_le_mono; lia); lia | lia].
        cbn [obind]. reflexivity.
Qed.
Definition sm_pre (n : nat) (l : list nat) (x : nat) : Prop := notbelow l x /\ x <= n /\ length l < 64 * (n / 64 + 1).
Lemma sm_run_ok : forall n ops l, (N.of_nat n + 1 < 2 ^ 63)%N -> ndec l -> bounded n l -> length l <= 64 * (n / 64 + 1) ->
  st_ok (sm_pre n) l ops ->
  sm_run (sm_rep n l) ops = Some (sm_rep n (st_run l ops), st_results l ops).
Proof.
  induction ops as [|o ops IH]; intros l N63 D B LN OK; [reflexivity|].
  destruct OK as [P OK]. destruct (sm_step_ok n l o N63 D B LN) as (E & D2 & B2 & L2). { destruct o; auto. }
  cbn [sm_run]. rewrite E. cbn [obind]. rewrite IH; auto.
Qed.
Lemma sm_new_ok : forall n, sm_new n = Some (sm_rep n []).
Proof. intros. unfold sm_new. rewrite wordof_start by lia. cbn [obind]. rewrite (farr_repeat N). reflexivity. Qed.

Theorem sm_history : forall n ops, (N.of_nat n + 1 < 2 ^ 63)%N ->
  st_ok (fun l x => notbelow l x /\ x <= n /\ length l < 64 * (n / 64 + 1)) [] ops ->
  exists s0 s, sm_new n = Some s0 /\ sm_run s0 ops = Some (s, st_results [] ops) /\
    sm_cnt s = length (st_run [] ops) /\ (sm_empty s = true <-> st_run [] ops = []) /\
    (forall t r, st_run [] ops = t :: r -> sm_get_top s = t).
Proof.
  intros n ops N63 OK. exists (sm_rep n []), (sm_rep n (st_run [] ops)). split; [apply sm_new_ok|]. split.
  { apply sm_run_ok; auto; [constructor | intros x [] | cbn; lia]. }
  split; [reflexivity|]. split.
  - unfold sm_empty, sm_rep. cbn [sm_cnt]. destruct (st_run [] ops); cbn; split; intro; try discriminate; auto.
  - intros t r E. rewrite E. unfold sm_get_top, sm_rep. cbn [sm_top]. destruct (dd_hd (t :: r) t r eq_refl) as [r' ->]. cbn. lia.
Qed.
Theorem sm_overflow : exists n ops s0, st_ok (fun l x => notbelow l x /\ x <= n) [] ops /\ sm_new n = Some s0 /\ sm_run s0 ops = None.
Proof.
  exists 5, (repeat (Push 5) 66). eexists. split.
  { vm_compute. repeat split; repeat constructor. }
  split; [reflexivity|]. vm_compute. reflexivity.
Qed.
