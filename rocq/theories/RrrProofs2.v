(** * The decoders of rrr blocks return what the block holds *)
From Coq Require Import NArith List Bool Arith Lia.
From Verif Require Import Base SpecBits RankSelect RrrHelper RrrProofs.
Import ListNotations.

Definition nb (l : list bool) (i : nat) : bool := nth i l false.

(** position of the only one *)
Lemma enc_single : forall s, ones s = 1 -> exists j t, s = repeat false j ++ true :: t /\ ones t = 0 /\ enc s 1 = N.of_nat (length t).
Proof.
  intros s H. destruct (first_one s ltac:(lia)) as [j [t E]]. exists j, t. split; auto.
  destruct (enc_first j t (ones s) ltac:(f_equal; exact E)) as [A B]. rewrite H in A. assert (O : ones t = 0) by lia. split; auto.
  rewrite H in B. rewrite E. rewrite B. rewrite O, enc_all0 by auto. rewrite C_1. lia.
Qed.
Lemma nth_zeros : forall j t i, nth i (repeat false j ++ t) false = if i <? j then false else nth (i - j) t false.
Proof.
  intros. destruct (Nat.ltb_spec i j).
  - rewrite app_nth1 by (rewrite repeat_length; auto). apply nth_repeat.
  - rewrite app_nth2 by (rewrite repeat_length; auto). rewrite repeat_length. auto.
Qed.
Lemma single_bit : forall n s off, ones s = 1 -> length s <= n -> n - length s <= off ->
  (N.of_nat n - enc s 1 - 1 =? N.of_nat off)%N = nth (off - (n - length s)) s false.
Proof.
  intros n s off H L O. destruct (enc_single s H) as [j [t [E [Z EN]]]]. rewrite EN. rewrite E. rewrite nth_zeros.
  rewrite E in L, O. rewrite app_length, repeat_length in *. cbn [length] in *.
  destruct (Nat.ltb_spec (off - (n - (j + S (length t)))) j).
  - apply N.eqb_neq. lia.
  - destruct (off - (n - (j + S (length t))) - j) eqn:D.
    + cbn [nth]. apply N.eqb_eq. lia.
    + cbn [nth]. rewrite ones_0_false by auto. apply N.eqb_neq. lia.
Qed.

Lemma ones_firstn_zeros : forall j d, ones (firstn d (repeat false j)) = 0.
Proof. induction j; intros [|d]; cbn; auto. Qed.
Lemma ones_zeros_pre : forall d j t, ones (firstn d (repeat false j ++ t)) = ones (firstn (d - j) t).
Proof. intros. rewrite firstn_app, ones_app, repeat_length, ones_firstn_zeros. auto. Qed.

Section D.
Variable n : nat.
Notation start s := (n - length s).

Lemma bit_bs_S : forall k nn nr off, bit_bs n (S (S k)) nn nr off =
  let* r := bsearch (nn + 2) nr (S (S k)) (S (S k)) (nn + 1) in
  if off <=? n - (r - 1) then Some (n - (r - 1) =? off)
  else bit_bs n (S k) (r - 1 - 1) (nr - C (r - 1 - 1) (S (S k))) off.
Proof. reflexivity. Qed.
Lemma pop_bs_S : forall k nn nr off result, pop_bs n (S (S k)) nn nr off result =
  let* r := bsearch (nn + 2) nr (S (S k)) (S (S k)) (nn + 1) in
  if off <=? n - (r - 1) then Some result
  else pop_bs n (S k) (r - 1 - 1) (nr - C (r - 1 - 1) (S (S k))) off (S result).
Proof. reflexivity. Qed.
Lemma bit_bs_ok : forall k s off, ones s = k -> 1 <= k -> length s <= n -> start s <= off ->
  bit_bs n k (length s) (enc s k) off = Some (nth (off - start s) s false).
Proof.
  induction k as [|k IH]; intros s off K K1 L O; [lia|].
  destruct k as [|k]. { cbn [bit_bs]. rewrite single_bit by auto. auto. }
  rewrite bit_bs_S. destruct (first_one s ltac:(lia)) as [j [t E]]. remember (S (S k)) as k2.
  assert (BS : bsearch (length s + 2) (enc s k2) k2 k2 (length s + 1) = Some (S (S (length t)))).
  { rewrite E. apply bsearch_first; [rewrite <- E; congruence | auto]. }
  rewrite BS. cbn [obind]. replace (S (S (length t)) - 1) with (S (length t)) by lia.
  destruct (enc_first j t k2) as [A B]; [congruence|].
  assert (LS : length s = j + S (length t)) by (rewrite E, app_length, repeat_length; auto).
  replace (nth (off - start s) s false) with (nth (off - start s) (repeat false j ++ true :: t) false) by (rewrite <- E; auto).
  rewrite nth_zeros. assert (EE : (enc s k2 - C (length t) k2)%N = enc t (ones t)) by (rewrite E, B; lia).
  destruct (Nat.leb_spec off (n - S (length t))).
  - f_equal. destruct (Nat.ltb_spec (off - start s) j).
    + apply Nat.eqb_neq. lia.
    + replace (off - start s - j) with 0 by lia. cbn [nth]. apply Nat.eqb_eq. lia.
  - replace (S (length t) - 1) with (length t) by lia. rewrite EE.
    replace (ones t) with (S k) by lia. rewrite IH by lia.
    replace (off - start s <? j) with false by lia. f_equal.
    replace (off - start s - j) with (S (off - start t)) by lia. auto.
Qed.
Lemma enc_true : forall t, enc (true :: t) (ones (true :: t)) = (C (length t) (ones (true :: t)) + enc t (ones t))%N.
Proof. intros. cbn [enc ones]. do 2 f_equal. lia. Qed.
Lemma bit_lin_ok : forall s off, 1 <= ones s -> length s <= n -> start s <= S off ->
  bit_lin n (length s) (ones s) (enc s (ones s)) (start s) off = Some (if off <? start s then false else nth (off - start s) s false).
Proof.
  induction s as [|b t IH]; intros off K L O; [cbn in K; lia|].
  cbn [length] in L, O. cbn [length bit_lin].
  destruct (Nat.ltb_spec 1 (ones (b :: t))) as [K2|K2].
  - destruct (Nat.ltb_spec off (n - S (length t))); auto.
    rewrite enc_head. assert (SS : S (n - S (length t)) = start t) by lia. destruct b.
    + destruct (Nat.eqb_spec (n - S (length t)) off). { subst. rewrite Nat.sub_diag. auto. }
      rewrite enc_true. replace (ones (true :: t) - 1) with (ones t) by (cbn [ones]; lia).
      cbn [ones] in K2 |- *. rewrite SS.
      match goal with |- bit_lin _ _ _ ?x _ _ = _ => replace x with (enc t (ones t)) by lia end.
      rewrite IH by lia. f_equal. replace (off <? start t) with false by lia.
      replace (off - (n - S (length t))) with (S (off - start t)) by lia. auto.
    + cbn [ones enc] in *. change (0 + ones t) with (ones t) in *. rewrite SS. rewrite IH by lia. f_equal.
      destruct (Nat.ltb_spec off (start t)).
      * replace (off - (n - S (length t))) with 0 by lia. auto.
      * replace (off - (n - S (length t))) with (S (off - start t)) by lia. auto.
  - assert (ones (b :: t) = 1) as Z by lia. rewrite Z.
    destruct (Nat.ltb_spec off (n - S (length t))).
    + f_equal. apply N.eqb_neq. destruct (enc_single _ Z) as [j [t2 [E [_ EN]]]].
      assert (S (length t) = j + S (length t2)) by (change (S (length t)) with (length (b :: t)); rewrite E, app_length, repeat_length; auto).
      rewrite EN. lia.
    + rewrite single_bit; auto. 
Qed.
Theorem decode_bit_ok : forall l off, length l = n -> off < n -> decode_bit n (ones l) (enc l (ones l)) off = Some (nth off l false).
Proof.
  intros l off L O. unfold decode_bit. destruct (Nat.eqb_spec (ones l) n). { rewrite ones_full by lia. auto. }
  destruct (Nat.eqb_spec (ones l) 0). { rewrite ones_0_false; auto. }
  destruct (Nat.eqb_spec (ones l) 1) as [E1|].
  { rewrite E1. rewrite single_bit by lia. do 2 f_equal. lia. }
  pose proof (bit_bs_ok (ones l) l off eq_refl ltac:(lia) ltac:(lia) ltac:(lia)) as B.
  pose proof (bit_lin_ok l off ltac:(lia) ltac:(lia) ltac:(lia)) as B2.
  rewrite L, Nat.sub_diag in *. rewrite Nat.sub_0_r in *. destruct (ones l + 1 <? threshold n + 1); auto.
Qed.

(** ** popcount of a prefix *)
Lemma single_pop : forall s off, ones s = 1 -> length s <= n -> start s <= off ->
  (if (N.of_nat n - enc s 1 - 1 <? N.of_nat off)%N then 1 else 0) = ones (firstn (off - start s) s).
Proof.
  intros s off H L O. destruct (enc_single s H) as [j [t [E [Z EN]]]]. rewrite EN. rewrite E.
  rewrite E in L, O. rewrite app_length, repeat_length in *. cbn [length] in *.
  rewrite ones_zeros_pre. set (d := off - (n - (j + S (length t)))) in *.
  destruct (N.ltb_spec (N.of_nat n - N.of_nat (length t) - 1) (N.of_nat off)).
  - destruct (d - j) eqn:D; [lia|]. cbn [firstn ones]. assert (ones (firstn n0 t) = 0); [|lia].
    pose proof (ones_app (firstn n0 t) (skipn n0 t)) as F. rewrite firstn_skipn in F. lia.
  - replace (d - j) with 0 by lia. auto.
Qed.
Lemma pop_bs_ok : forall k s off r, ones s = k -> 1 <= k -> length s <= n -> start s <= off ->
  pop_bs n k (length s) (enc s k) off r = Some (r + ones (firstn (off - start s) s)).
Proof.
  induction k as [|k IH]; intros s off r K K1 L O; [lia|].
  destruct k as [|k]. { cbn [pop_bs]. rewrite single_pop by auto. auto. }
  rewrite pop_bs_S. destruct (first_one s ltac:(lia)) as [j [t E]]. remember (S (S k)) as k2.
  assert (BS : bsearch (length s + 2) (enc s k2) k2 k2 (length s + 1) = Some (S (S (length t)))).
  { rewrite E. apply bsearch_first; [rewrite <- E; congruence | auto]. }
  rewrite BS. cbn [obind]. replace (S (S (length t)) - 1) with (S (length t)) by lia.
  destruct (enc_first j t k2) as [A B]; [congruence|].
  assert (LS : length s = j + S (length t)) by (rewrite E, app_length, repeat_length; auto).
  replace (firstn (off - start s) s) with (firstn (off - start s) (repeat false j ++ true :: t)) by (rewrite <- E; auto).
  assert (EE : (enc s k2 - C (length t) k2)%N = enc t (ones t)) by (rewrite E, B; lia).
  rewrite ones_zeros_pre.
  destruct (Nat.leb_spec off (n - S (length t))).
  - replace (off - start s - j) with 0 by lia. cbn. f_equal. lia.
  - replace (S (length t) - 1) with (length t) by lia. rewrite EE.
    replace (ones t) with (S k) by lia. rewrite IH by lia.
    replace (off - start s - j) with (S (off - start t)) by lia. cbn [firstn ones]. f_equal. lia.
Qed.
Lemma pop_lin_ok : forall s off r, 1 <= ones s -> length s <= n -> start s <= off ->
  pop_lin n (length s) (ones s) (enc s (ones s)) (start s) off r = Some (r + ones (firstn (off - start s) s)).
Proof.
  induction s as [|b t IH]; intros off r K L O; [cbn in K; lia|].
  cbn [length] in L, O. cbn [length pop_lin].
  destruct (Nat.ltb_spec 1 (ones (b :: t))) as [K2|K2].
  - destruct (Nat.leb_spec off (n - S (length t))).
    { replace (off - (n - S (length t))) with 0 by lia. cbn. f_equal. lia. }
    rewrite enc_head. assert (SS : S (n - S (length t)) = start t) by lia.
    replace (off - (n - S (length t))) with (S (off - start t)) by lia. cbn [firstn]. destruct b.
    + rewrite enc_true. replace (ones (true :: t) - 1) with (ones t) by (cbn [ones]; lia).
      cbn [ones] in K2 |- *. rewrite SS.
      match goal with |- pop_lin _ _ _ ?x _ _ _ = _ => replace x with (enc t (ones t)) by lia end.
      rewrite IH by lia. f_equal. lia.
    + cbn [ones enc] in *. change (0 + ones t) with (ones t) in *. rewrite SS. rewrite IH by lia. f_equal.
  - assert (ones (b :: t) = 1) as Z by lia. rewrite Z.
    rewrite single_pop; auto.
Qed.
Lemma ones_firstn_full : forall l d, ones l = length l -> d <= length l -> ones (firstn d l) = d.
Proof.
  induction l as [|b l IH]; intros d H L; cbn [length ones] in *. { replace d with 0 by lia. auto. }
  pose proof (ones_le l). destruct b; [|lia]. destruct d; auto. cbn. rewrite IH; lia.
Qed.
Lemma ones_firstn_le : forall l d, ones (firstn d l) <= ones l.
Proof. intros. pose proof (ones_app (firstn d l) (skipn d l)). rewrite firstn_skipn in H. lia. Qed.
Theorem decode_popcount_ok : forall l off, length l = n -> off <= n ->
  decode_popcount n (ones l) (enc l (ones l)) off = Some (ones (firstn off l)).
Proof.
  intros l off L O. unfold decode_popcount. destruct (Nat.eqb_spec (ones l) n). { rewrite ones_firstn_full by lia. auto. }
  destruct (Nat.eqb_spec (ones l) 0). { f_equal. pose proof (ones_firstn_le l off). lia. }
  destruct (Nat.eqb_spec (ones l) 1) as [E1|].
  { rewrite E1. rewrite single_pop by lia. do 3 f_equal. lia. }
  pose proof (pop_bs_ok (ones l) l off 0 eq_refl ltac:(lia) ltac:(lia) ltac:(lia)) as B.
  pose proof (pop_lin_ok l off 0 ltac:(lia) ltac:(lia) ltac:(lia)) as B2.
  rewrite L, Nat.sub_diag in *. rewrite Nat.sub_0_r in *. cbn [Nat.add] in *. destruct (ones l + 1 <? threshold n + 1); auto.
Qed.

(** ** select: [p] is the position of the [i]-th one (1-based) of [s] *)
Definition is_sel (b : bool) (s : list bool) (i p : nat) : Prop :=
  p < length s /\ nth p s false = b /\ length (filter (Bool.eqb b) (firstn p s)) + 1 = i.
Lemma is_sel_zeros : forall j t i p, is_sel true (true :: t) i p -> is_sel true (repeat false j ++ true :: t) i (j + p).
Proof.
  intros j t i p [A [B D]]. split; [|split].
  - rewrite app_length, repeat_length. cbn [length] in *. lia.
  - rewrite nth_zeros. replace (j + p <? j) with false by lia. replace (j + p - j) with p by lia. exact B.
  - rewrite <- D. f_equal. rewrite firstn_app, repeat_length. replace (j + p - j) with p by lia. rewrite filter_app, app_length.
    rewrite firstn_all2 by (rewrite repeat_length; lia).
    replace (filter (Bool.eqb true) (repeat false j)) with (@nil bool). { auto. } clear. induction j; auto.
Qed.
Lemma is_sel_cons : forall b x t i p, is_sel b t i p -> is_sel b (x :: t) (if Bool.eqb b x then S i else i) (S p).
Proof. intros b x t i p [A [B D]]. split; [|split]; auto. { cbn [length]. lia. } cbn [firstn filter]. destruct (Bool.eqb b x); cbn [length]; lia. Qed.
Lemma is_sel_here : forall b t, is_sel b (b :: t) 1 0.
Proof. intros. split; [cbn; lia|]. split; auto. Qed.

Lemma sel_bs_ok : forall sel s, 1 <= sel <= ones s -> length s <= n ->
  exists p, sel_bs n sel (ones s) (length s) (enc s (ones s)) = Some (start s + p) /\ is_sel true s sel p.
Proof.
  induction sel as [|sel IH]; intros s K L; [lia|].
  cbn [sel_bs]. destruct (first_one s ltac:(lia)) as [j [t E]]. remember (ones s) as k2.
  assert (BS : bsearch (length s + 2) (enc s k2) k2 k2 (length s + 1) = Some (S (S (length t)))).
  { rewrite E. apply bsearch_first; [rewrite <- E; congruence | auto]. }
  rewrite BS. cbn [obind]. replace (S (S (length t)) - 1) with (S (length t)) by lia.
  destruct (enc_first j t k2) as [A B]; [congruence|].
  assert (LS : length s = j + S (length t)) by (rewrite E, app_length, repeat_length; auto).
  replace (S (length t) - 1) with (length t) by lia.
  assert (EE : (enc s k2 - C (length t) k2)%N = enc t (ones t)) by (rewrite E, B; lia). rewrite EE.
  replace (k2 - 1) with (ones t) by lia.
  destruct sel as [|sel].
  - exists j. split. { cbn [sel_bs]. f_equal. lia. } rewrite E. replace j with (j + 0) at 2 by lia. apply is_sel_zeros. apply is_sel_here.
  - destruct (IH t) as [p [P1 P2]]; [lia|lia|]. exists (j + S p). split. { rewrite P1. f_equal. lia. }
    rewrite E. apply is_sel_zeros. apply (is_sel_cons true true t _ _ P2).
Qed.
Lemma sel_lin_ok : forall s sel, 1 <= sel <= ones s -> length s <= n ->
  exists p, sel_lin (length s) sel (ones s) (enc s (ones s)) (start s) = Some (start s + p) /\ is_sel true s sel p.
Proof.
  induction s as [|b t IH]; intros sel K L; [cbn in K; lia|]. cbn [length] in *.
  destruct sel as [|sel]; [lia|]. cbn [sel_lin]. rewrite enc_head. assert (SS : S (n - S (length t)) = start t) by lia. rewrite SS.
  destruct b.
  - rewrite enc_true. replace (ones (true :: t) - 1) with (ones t) by (cbn [ones]; lia). cbn [ones] in K |- *.
    match goal with |- context [sel_lin _ _ _ ?x _] => replace x with (enc t (ones t)) by lia end.
    destruct sel as [|sel].
    + exists 0. split; [|apply is_sel_here]. destruct (length t) eqn:LT; cbn [sel_lin]; f_equal; lia.
    + destruct (IH (S sel)) as [p [P1 P2]]; [lia|lia|]. exists (S p). split. { rewrite P1. f_equal. lia. } apply (is_sel_cons true true t _ _ P2).
  - cbn [ones enc] in *. change (0 + ones t) with (ones t) in *.
    destruct (IH (S sel)) as [p [P1 P2]]; [lia|lia|]. exists (S p). split. { rewrite P1. f_equal. lia. } apply (is_sel_cons true false t _ _ P2).
Qed.
Lemma is_sel_full : forall l i, ones l = length l -> 1 <= i <= length l -> is_sel true l i (i - 1).
Proof.
  intros l i H L. split; [lia|]. split. { apply ones_full; lia. }
  assert (F : length (filter (Bool.eqb true) (firstn (i - 1) l)) = ones (firstn (i - 1) l)).
  { clear. generalize (firstn (i - 1) l). induction l0 as [|[|] l0 IH]; cbn; auto. }
  rewrite F. rewrite ones_firstn_full; lia.
Qed.
Theorem decode_select_ok : forall l i, length l = n -> 1 <= i <= ones l ->
  exists p, decode_select n (ones l) (enc l (ones l)) i = Some p /\ is_sel true l i p.
Proof.
  intros l i L O. unfold decode_select. destruct (Nat.eqb_spec (ones l) n). { exists (i - 1). split; auto. apply is_sel_full; lia. }
  pose proof (sel_bs_ok i l O ltac:(lia)) as B.
  pose proof (sel_lin_ok l i O ltac:(lia)) as B2.
  rewrite L, Nat.sub_diag in *.
  destruct (Nat.eqb_spec (ones l) 1) as [E1|]; cbn [andb].
  { destruct (Nat.eqb_spec i 1); [|lia]. destruct (enc_single l E1) as [j [t [E [Z EN]]]]. rewrite E1, EN.
    exists j. split. { f_equal. rewrite E in L. rewrite app_length, repeat_length in L. cbn [length] in L. lia. }
    rewrite E. subst i. replace j with (j + 0) at 2 by lia. apply is_sel_zeros. apply is_sel_here. }
  destruct (i + 1 <? threshold n + 1); auto.
Qed.
Lemma sel0_lin_ok : forall s sel, 1 <= sel -> sel + ones s <= length s -> length s <= n ->
  exists p, sel0_lin (length s) sel (ones s) (enc s (ones s)) (start s) = Some (start s + p) /\ is_sel false s sel p.
Proof.
  induction s as [|b t IH]; intros sel K K2 L; [cbn in K2; lia|]. cbn [length] in *.
  destruct sel as [|sel]; [lia|]. cbn [sel0_lin]. rewrite enc_head. assert (SS : S (n - S (length t)) = start t) by lia. rewrite SS.
  destruct b.
  - rewrite enc_true. replace (ones (true :: t) - 1) with (ones t) by (cbn [ones]; lia). cbn [ones] in K2 |- *.
    match goal with |- context [sel0_lin _ _ _ ?x _] => replace x with (enc t (ones t)) by lia end.
    destruct (IH (S sel)) as [p [P1 P2]]; [lia|lia|lia|]. exists (S p). split. { rewrite P1. f_equal. lia. } apply (is_sel_cons false true t _ _ P2).
  - cbn [ones enc] in *. change (0 + ones t) with (ones t) in *.
    destruct sel as [|sel].
    + exists 0. split; [|apply is_sel_here]. destruct (length t) eqn:LT; cbn [sel0_lin]; f_equal; lia.
    + destruct (IH (S sel)) as [p [P1 P2]]; [lia|lia|lia|]. exists (S p). split. { rewrite P1. f_equal. lia. } apply (is_sel_cons false false t _ _ P2).
Qed.
Theorem decode_select0_ok : forall l i, length l = n -> 1 <= i -> i + ones l <= n ->
  exists p, decode_select0 n (ones l) (enc l (ones l)) i = Some p /\ is_sel false l i p.
Proof.
  intros l i L O O2. unfold decode_select0. pose proof (sel0_lin_ok l i O ltac:(lia) ltac:(lia)) as B. rewrite L, Nat.sub_diag in B. exact B.
Qed.
End D.
