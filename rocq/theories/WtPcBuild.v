(** * The leaf table, the packed paths and the bits of the tree *)
From Coq Require Import NArith List Arith Bool Lia Permutation.
From Verif Require Import Base SpecBits RankSelect AbsVec WtBase SpecWt WtProofs WtPc WtPcProofs WtPcQ WtPcLay.
Import ListNotations.

Lemma max_sym_ge : forall l d, In d l -> d_c0 d = None -> d_rank d <= max_sym l.
Proof. induction l as [|a l IH]; intros d I C; [destruct I|]. cbn [max_sym]. destruct I as [-> | I]. { rewrite C. cbn [is_some]. lia. } specialize (IH d I C). destruct (is_some (d_c0 a)); lia. Qed.
Lemma max_sym_in : forall l, max_sym l = 0 \/ exists d, In d l /\ d_c0 d = None /\ d_rank d = max_sym l.
Proof.
  induction l as [|a l IH]; cbn [max_sym]; auto. destruct (d_c0 a) eqn:C; cbn [is_some]. { destruct IH as [-> |(d & I & X)]; auto. right. exists d. split; auto. right. auto. }
  destruct (Nat.max_dec (d_rank a) (max_sym l)) as [E|E]; rewrite E. { right. exists a. split; auto. left. auto. } destruct IH as [-> |(d & I & X)]; auto. right. exists d. split; auto. right; auto.
Qed.
Lemma lor1 : forall w k, tb (N.lor w 1) k = tb w k || (k =? 0).
Proof. intros. rewrite tb_lor. f_equal. destruct k; auto. Qed.

Section B.
Variables (S0 : list N) (t : ct) (ns : list node) (size : nat) (pth : list (list bool)) (byte : bool).
Definition wts (u : ct) : nat := length (filter (mem u) S0).
Hypothesis ND : NoDup (leaves t).
Hypothesis CV : forall x, In x S0 -> mem t x = true.
Hypothesis LY : layout wts t ns size pth.
Hypothesis BY : byte = true -> forall x, In x (leaves t) -> x < 256.
Notation at_ i p := (nth_error pth i = Some p).
Let LA := ly_laid _ _ _ _ _ LY.

Lemma at_node : forall i p, at_ i p -> exists d, nth_error ns i = Some d.
Proof. intros i p H. destruct (nth_error ns i) eqn:E; eauto. apply nth_error_None in E. rewrite (la_len _ _ _ LA) in E. apply nth_error_None in E. congruence. Qed.
Lemma node_at : forall i d, nth_error ns i = Some d -> exists p u, at_ i p /\ sub t p = Some u.
Proof.
  intros i d H. destruct (nth_error pth i) as [p|] eqn:E. 2: { apply nth_error_None in E. rewrite <- (la_len _ _ _ LA) in E. apply nth_error_None in E. congruence. }
  pose proof (la_sub _ _ _ LA i p E). destruct (sub t p) as [u|] eqn:U; [|congruence]. eauto.
Qed.
Definition leafat (v s : nat) : Prop := exists p, at_ v p /\ sub t p = Some (CL s).
Lemma leaf_iff : forall v d, nth_error ns v = Some d -> forall s, leafat v s <-> d_c0 d = None /\ d_rank d = s.
Proof.
  intros v d D s. split.
  - intros (p & A & U). apply (la_leaf _ _ _ LA v p s d); auto.
  - intros [C R]. destruct (node_at v d D) as (p & u & A & U). exists p. split; auto. destruct u as [s'|l r]. { destruct (la_leaf _ _ _ LA v p s' d A U D) as [_ R']. congruence. }
    destruct (la_node _ _ _ LA v p l r d A U D) as (i0 & i1 & C0 & _). congruence.
Qed.
Lemma leaf_uniq : forall v v' s, leafat v s -> leafat v' s -> v = v'.
Proof. intros v v' s (p & A & U) (p' & A' & U'). assert (p = p') by (eapply sub_inj; eauto). subst p'. eapply nd_fun; eauto. apply (la_nd _ _ _ LA). Qed.
Lemma leafat_in : forall v s, leafat v s -> In s (leaves t).
Proof. intros v s (p & _ & U). apply (sub_leaves _ _ _ U). left. auto. Qed.

(** every path of the tree is the path of a node *)
Lemma path_at : forall p u, sub t p = Some u -> exists v, at_ v p.
Proof.
  induction p as [|b p IH] using rev_ind; intros u U. { exists 0. apply (la_0 _ _ _ LA). }
  rewrite sub_snoc in U. destruct (sub t p) as [[|l r]|] eqn:E; try discriminate. destruct (IH _ eq_refl) as [v A]. destruct (at_node v p A) as [d D].
  destruct (la_node _ _ _ LA v p l r d A E D) as (i0 & i1 & _ & _ & A0 & A1). destruct b; eauto.
Qed.

(** ** m_c_to_leaf *)
Lemma leaf_loop_ok : forall l k cl, skipn k ns = l -> (forall v s, k <= v -> leafat v s -> s < length cl) ->
  exists cl', leaf_loop byte l k cl = Some cl' /\ length cl' = length cl /\
    (forall v s, k <= v -> leafat v s -> nth_error cl' s = Some (Some v)) /\
    (forall s, (forall v, k <= v -> ~ leafat v s) -> nth_error cl' s = nth_error cl s).
Proof.
  induction l as [|d l IH]; intros k cl E B; cbn [leaf_loop].
  - exists cl. split; auto. split; auto. split; auto. intros v s K (p & A & U). exfalso. destruct (at_node v p A) as [d D]. assert (length ns <= k). { pose proof (skipn_length k ns) as L. rewrite E in L. cbn in L. lia. } assert (v < length ns) by (apply nth_error_Some; congruence). lia.
  - assert (D : nth_error ns k = Some d). { clear - E. revert k E. induction ns as [|a n IH]; intros [|k] E; cbn in *; try discriminate. { injection E as ->. auto. } auto. }
    assert (E' : skipn (S k) ns = l). { rewrite (skipn_cons _ _ _ _ D) in E. congruence. }
    destruct (is_some (d_c0 d)) eqn:C.
    + destruct (IH (S k) cl E') as (cl' & L & LL & L1 & L2). { intros v s K. apply B. lia. } exists cl'. split; auto. split; auto.
      assert (NL : forall s, ~ leafat k s). { intros s X. apply (leaf_iff k d D) in X. destruct X as [X _]. rewrite X in C. discriminate. }
      split. { intros v s K X. destruct (Nat.eq_dec v k) as [-> | Z]. { exfalso. eapply NL; eauto. } apply L1; auto. lia. } intros s X. apply L2. intros v K. apply X. lia.
    + destruct (d_c0 d) eqn:C0; [discriminate|]. assert (LK : leafat k (d_rank d)) by (apply (leaf_iff k d D); auto). assert (R : (if byte then d_rank d mod 256 else d_rank d) = d_rank d). { destruct byte eqn:EB; auto. apply Nat.mod_small. apply BY; auto. eapply leafat_in; eauto. }
      rewrite R. assert (RL : d_rank d < length cl) by (apply (B k); auto). rewrite aset_some by auto. cbn [obind].
      destruct (IH (S k) (upd cl (d_rank d) (Some k)) E') as (cl' & L & LL & L1 & L2). { intros v s K X. rewrite upd_length. apply (B v); auto. lia. } exists cl'. split; auto. rewrite upd_length in LL. split; auto. split.
      * intros v s K X. destruct (Nat.eq_dec v k) as [-> | Z].
        { apply (leaf_iff k d D) in X. destruct X as [_ <-]. rewrite L2. { apply nth_error_upd_eq. auto. } intros v K' X. pose proof (leaf_uniq _ _ _ X LK). lia. }
        apply L1; auto. lia.
      * intros s X. rewrite L2. 2: { intros v K. apply X. lia. } apply nth_error_upd_neq. intros <-. apply (X k); auto.
Qed.
Definition cl_len : nat := if byte then 256 else max_sym ns + 1.
Theorem c_to_leaf_ok : exists cl, c_to_leaf_of byte ns = Some cl /\ length cl = cl_len /\ (forall v s, leafat v s -> nth_error cl s = Some (Some v)) /\ (forall s, s < cl_len -> ~ In s (leaves t) -> nth_error cl s = Some None) /\ (forall s, In s (leaves t) -> s < cl_len).
Proof.
  assert (LB : forall v s, leafat v s -> s < cl_len). { intros v s X. unfold cl_len. destruct byte eqn:EB. { apply BY; auto. eapply leafat_in; eauto. } destruct X as (p & A & U). destruct (at_node v p A) as [d D]. destruct (la_leaf _ _ _ LA v p s d A U D) as [C <-]. pose proof (max_sym_ge ns d (nth_error_In _ _ D) C). lia. }
  unfold c_to_leaf_of. fold cl_len. destruct (leaf_loop_ok ns 0 (repeat None cl_len)) as (cl & L & LL & L1 & L2); auto. { intros v s _ X. rewrite repeat_length. eapply LB; eauto. }
  rewrite repeat_length in LL. exists cl. split; auto. split; auto. split. { intros v s X. apply L1; auto. lia. } split.
  - intros s SL NI. rewrite L2. { apply nth_error_repeat. auto. } intros v _ X. apply NI. eapply leafat_in; eauto.
  - intros s I. destruct (leaf_path t s I) as [p P]. destruct (path_at p _ P) as [v A]. apply (LB v). exists p. auto.
Qed.

(** ** The packed paths *)
Lemma up_ok : forall p v fuel pw pl, at_ v p -> length p < fuel -> exists pw', up_loop fuel ns v pw pl = Some (pw', pl + length p) /\
  (forall k, k < 64 -> tb pw' k = if k <? length p then nth k p false else tb pw (k - length p)) /\ (is_word pw -> is_word pw').
Proof.
  induction p as [|b p IH] using rev_ind; intros v fuel pw pl A F; (destruct fuel as [|fuel]; [lia|]); cbn [up_loop].
  - assert (v = 0) by (eapply nd_fun; [apply (la_nd _ _ _ LA)|eauto|apply (la_0 _ _ _ LA)]). subst v. cbn [Nat.eqb]. exists pw. rewrite Nat.add_0_r. split; auto. split; auto. intros k K. cbn [length Nat.ltb Nat.leb]. rewrite Nat.sub_0_r. auto.
  - destruct (Nat.eqb_spec v 0) as [-> | Z]. { rewrite (la_0 _ _ _ LA) in A. injection A as A. destruct p; discriminate. }
    rewrite app_length in F. cbn [length] in F. destruct (at_node _ _ A) as [d D]. rewrite D. cbn [obind]. destruct (la_par _ _ _ LA v p b d A D) as (q & -> & AQ). cbn [obind]. destruct (at_node _ _ AQ) as [dq DQ]. rewrite DQ. cbn [obind].
    pose proof (la_sub _ _ _ LA v _ A) as US. rewrite sub_snoc in US. destruct (sub t p) as [[|l r]|] eqn:UP; try congruence. destruct (la_node _ _ _ LA q p l r dq AQ UP DQ) as (i0 & i1 & C0 & C1 & A0 & A1). rewrite C1. cbn [onat_eqb].
    assert (EB : (i1 =? v) = b). { destruct b. { apply Nat.eqb_eq. eapply nd_fun; eauto. apply (la_nd _ _ _ LA). } apply Nat.eqb_neq. intros ->. rewrite A in A1. injection A1 as A1. apply app_inj_tail in A1. destruct A1. discriminate. }
    rewrite EB. destruct (IH q fuel (if b then N.lor (shl pw 1) 1 else shl pw 1) (pl + 1) AQ) as (pw' & UPL & T & W). { lia. } exists pw'. rewrite UPL, app_length. cbn [length]. split. { f_equal. f_equal. lia. } split.
    + intros k K. rewrite T by auto. destruct (Nat.ltb_spec k (length p)) as [L|L].
      { destruct (Nat.ltb_spec k (length p + 1)); [|lia]. rewrite app_nth1 by auto. auto. }
      destruct (Nat.ltb_spec k (length p + 1)) as [L2|L2].
      { assert (k = length p) by lia. subst k. rewrite Nat.sub_diag. rewrite app_nth2, Nat.sub_diag by lia. cbn [nth]. destruct b; rewrite ?lor1, tb_shl; auto. }
      assert (E : tb (shl pw 1) (k - length p) = tb pw (k - (length p + 1))). { rewrite tb_shl. destruct (Nat.ltb_spec (k - length p) 64); [|lia]. destruct (Nat.leb_spec 1 (k - length p)); [|lia]. cbn [andb]. f_equal. lia. }
      destruct b; auto. rewrite lor1, E. destruct (Nat.eqb_spec (k - length p) 0); [lia|]. apply orb_false_r.
    + intros _. apply W. pose proof (is_word_shl pw 1). destruct b; auto. apply is_word_lor; auto. reflexivity.
Qed.
Definition packed (w : N) (p : list bool) : Prop := N.to_nat (shr w 56) = length p /\ bits_are w p /\ length p <= 56 /\ is_word w.
Lemma pack_ok : forall p v, at_ v p -> exists pw, up_loop (S (length ns)) ns v 0%N 0 = Some (pw, length p) /\ (length p <= 56 -> packed (N.lor pw (shl (N.of_nat (length p)) 56)) p).
Proof.
  intros p v A. assert (PL : length p < S (length ns)). { rewrite (la_size _ _ _ LA). pose proof (la_sub _ _ _ LA v p A). destruct (sub t p) as [u|] eqn:U; [|congruence]. pose proof (sub_depth _ _ _ U). pose proof (depth_size t). lia. }
  destruct (up_ok p v (S (length ns)) 0%N 0 A PL) as (pw & U & T & W). exists pw. split; auto. intros L. assert (WP : is_word pw) by (apply W; reflexivity).
  set (q := N.of_nat (length p)). assert (QB : forall k, 8 <= k -> tb q k = false). { intros k K. unfold tb. destruct (N.eq_dec q 0) as [-> | NZ]. { apply N.bits_0. } apply N.bits_above_log2. assert (N.log2 q < 8)%N; [|lia]. apply N.log2_lt_pow2; [lia|]. change (2 ^ 8)%N with 256%N. unfold q. lia. }
  assert (TS : forall k, k < 64 -> tb (shl q 56) k = (56 <=? k) && tb q (k - 56)). { intros k K. rewrite tb_shl. destruct (Nat.ltb_spec k 64); [|lia]. auto. }
  split; [|split; [|split]]; auto.
  - assert (E : shr (N.lor pw (shl q 56)) 56 = q). { apply tb_ext. intros k. rewrite tb_shr, tb_lor. destruct (Nat.lt_ge_cases k 8) as [K|K].
      - rewrite T, TS by lia. destruct (Nat.ltb_spec (k + 56) (length p)); [lia|]. destruct (Nat.leb_spec 56 (k + 56)); [|lia]. replace (k + 56 - 56) with k by lia. cbn [andb]. unfold tb at 1. rewrite N.bits_0. auto.
      - rewrite QB by auto. assert (K' : 64 <= k + 56) by (clear - K; lia). rewrite (tb_word_high pw _ WP K'), (tb_word_high _ _ (is_word_shl q 56) K'). auto. }
    rewrite E. unfold q. lia.
  - intros k K. rewrite tb_lor, T, TS by lia. destruct (Nat.ltb_spec k (length p)); [|lia]. destruct (Nat.leb_spec 56 k); [lia|]. apply orb_false_r.
  - apply is_word_lor; auto. apply is_word_shl.
Qed.

(* the word stored for symbol c, where [prev] is the last symbol of the text before the table *)
Fixpoint prev_of (cl : list (option nat)) (k prev c0 : nat) : nat :=
  match k, cl with
  | S k', Some _ :: cl' => prev_of cl' k' c0 (S c0)
  | S k', None :: cl' => prev_of cl' k' prev (S c0)
  | _, _ => prev
  end.
Lemma path_loop_ok : forall cl c0 prev, (forall v, In (Some v) cl -> exists p, at_ v p) ->
  (exists l, path_loop ns cl c0 prev = Some (Ok l) /\ length l = length cl /\ 
     (forall k v p, nth_error cl k = Some (Some v) -> at_ v p -> exists w, nth_error l k = Some w /\ packed w p) /\
     (forall k, nth_error cl k = Some None -> nth_error l k = Some (N.of_nat (prev_of cl k prev c0)))) \/
  (path_loop ns cl c0 prev = Some Throw /\ exists v p, In (Some v) cl /\ at_ v p /\ 56 < length p).
Proof.
  induction cl as [|[v|] cl IH]; intros c0 prev A; cbn [path_loop].
  - left. exists []. split; auto. split; auto. split; intros [|k]; discriminate.
  - destruct (A v (or_introl eq_refl)) as [p P]. destruct (pack_ok p v P) as (pw & U & PK). rewrite U. cbn [obind fst snd]. destruct (Nat.ltb_spec 56 (length p)) as [L|L]. { right. split; auto. exists v, p. split; auto. left. auto. }
    destruct (IH (S c0) c0) as [(l & E & LL & L1 & L2)|(E & v' & p' & I & A' & L')]. { intros v' I. apply A. right. auto. }
    + rewrite E. cbn [obind]. left. eexists. split; eauto. cbn [length]. split; [lia|]. split.
      * intros [|k] v' p' K A'; cbn [nth_error] in *. { injection K as <-. rewrite P in A'. injection A' as <-. eexists. split; eauto. } eauto.
      * intros [|k] K; cbn [nth_error prev_of] in *; [discriminate|]. auto.
    + rewrite E. cbn [obind]. right. split; auto. exists v', p'. split; auto. right. auto.
  - destruct (IH (S c0) prev) as [(l & E & LL & L1 & L2)|(E & v' & p' & I & A' & L')]. { intros v' I. apply A. right. auto. }
    + rewrite E. cbn [obind]. left. eexists. split; eauto. cbn [length]. split; [lia|]. split.
      * intros [|k] v' p' K A'; cbn [nth_error] in *. { discriminate. } eauto.
      * intros [|k] K; cbn [nth_error prev_of] in *; auto.
    + rewrite E. cbn [obind]. right. split; auto. exists v', p'. split; auto. right. auto.
Qed.
Lemma prev_of_spec : forall cl k prev c0, prev < c0 \/ (prev = 0 /\ c0 = 0) ->
  (exists j v, j < k /\ nth_error cl j = Some (Some v) /\ prev_of cl k prev c0 = c0 + j /\ forall i, j < i -> i < k -> i < length cl -> nth_error cl i = Some None) \/
  (prev_of cl k prev c0 = prev /\ forall i, i < k -> i < length cl -> nth_error cl i = Some None).
Proof.
  induction cl as [|[v|] cl IH]; intros [|k] prev c0 P; cbn [prev_of]; try (right; split; [reflexivity|intros i I L; cbn in L; lia]).
  - destruct (IH k c0 (S c0) ltac:(lia)) as [(j & v' & J & N & E & R)|(E & R)]; left.
    + exists (S j), v'. split; [lia|]. split; auto. split; [lia|]. intros [|i] I1 I2 I3; [lia|]. cbn in *. apply R; lia.
    + exists 0, v. split; [lia|]. split; auto. split; [lia|]. intros [|i] I1 I2 I3; [lia|]. cbn in *. apply R; lia.
  - destruct (IH k prev (S c0) ltac:(lia)) as [(j & v' & J & N & E & R)|(E & R)].
    + left. exists (S j), v'. split; [lia|]. split; auto. split; [lia|]. intros [|i] I1 I2 I3; [lia|]. cbn in *. apply R; lia.
    + right. split; auto. intros [|i] I1 I3; cbn in *; auto. apply R; lia.
Qed.

(** ** Writing the text *)
Variables (path : list N).
Hypothesis PATH : forall c p, sub t p = Some (CL (N.to_nat c)) -> exists w, bit_path byte path c = Some w /\ packed w p.
(* the state in which the node with path p has received the symbols of [g p] *)
Record wr (g : list bool -> list N) (pos : list nat) (bv : list bool) : Prop := mk_wr {
  wr_pl : length pos = length ns;
  wr_bl : length bv = size;
  wr_pos : forall v p l r d, at_ v p -> sub t p = Some (CN l r) -> nth_error ns v = Some d -> nth_error pos v = Some (d_pos d + length (filter (mem (CN l r)) (g p)));
  wr_bit : forall v p l r d k, at_ v p -> sub t p = Some (CN l r) -> nth_error ns v = Some d -> k < wts (CN l r) ->
    t_bit bv (d_pos d + k) = if k <? length (filter (mem (CN l r)) (g p)) then mem r (nth k (filter (mem (CN l r)) (g p)) 0%N) else false }.
Lemma wr_ext : forall g g' pos bv, (forall p l r, sub t p = Some (CN l r) -> filter (mem (CN l r)) (g p) = filter (mem (CN l r)) (g' p)) -> wr g pos bv -> wr g' pos bv.
Proof.
  intros g g' pos bv E [W1 W2 W3 W4]. constructor; auto.
  - intros v p l r d A U D. rewrite <- (E p l r U). eauto.
  - intros v p l r d k A U D K. rewrite <- (E p l r U). eauto.
Qed.
Lemma set_ones_bit : forall bv x k, x + k <= length bv -> k <= 64 -> exists bv', set_ones bv x k = Some bv' /\ length bv' = length bv /\ forall i, t_bit bv' i = if (x <=? i) && (i <? x + k) then true else t_bit bv i.
Proof.
  intros bv x k L K. unfold set_ones. replace ((x + k <=? length bv) && (k <=? 64)) with true. 2: { symmetry. apply andb_true_iff. split; apply Nat.leb_le; auto. }
  eexists. split; eauto. assert (FL : length (firstn x bv) = x) by (rewrite firstn_length; lia). split. { rewrite !app_length, FL, repeat_length, skipn_length. lia. }
  intros i. unfold t_bit. destruct (Nat.leb_spec x i) as [X|X]; cbn [andb].
  - rewrite app_nth2 by lia. rewrite FL. destruct (Nat.ltb_spec i (x + k)).
    + rewrite app_nth1 by (rewrite repeat_length; lia). rewrite (nth_indep _ false true) by (rewrite repeat_length; lia). apply nth_repeat.
    + rewrite app_nth2 by (rewrite repeat_length; lia). rewrite repeat_length. rewrite <- (firstn_skipn (x + k) bv) at 2. rewrite app_nth2 by (rewrite firstn_length; lia). rewrite firstn_length, Nat.min_l by lia. f_equal. lia.
  - rewrite app_nth1 by lia. rewrite <- (firstn_skipn x bv) at 2. rewrite app_nth1 by lia. auto.
Qed.
Lemma rep_filter : forall (f : N -> bool) c k, filter f (repeat c k) = if f c then repeat c k else [].
Proof. intros f c k. induction k; cbn [repeat filter]. { destruct (f c); auto. } rewrite IHk. destruct (f c); auto. Qed.

Definition gupd (g : list bool -> list N) (p : list bool) (x : list N) (p' : list bool) : list N := if list_eq_dec bool_dec p' p then g p' ++ x else g p'.
Fixpoint gadd (q p : list bool) (x : list N) (g : list bool -> list N) : list bool -> list N :=
  match q with [] => g | b :: q' => gadd q' (p ++ [b]) x (gupd g p x) end.
Lemma gupd_eq : forall g p x, gupd g p x p = g p ++ x. Proof. intros. unfold gupd. destruct (list_eq_dec bool_dec p p); congruence. Qed.
Lemma gupd_neq : forall g p x p', p' <> p -> gupd g p x p' = g p'. Proof. intros. unfold gupd. destruct (list_eq_dec bool_dec p' p); congruence. Qed.
Lemma gadd_out : forall q p x g p', (forall e, p' <> p ++ e) -> gadd q p x g p' = g p'.
Proof.
  induction q as [|b q IH]; intros p x g p' H; cbn [gadd]; auto. rewrite IH. { apply gupd_neq. intros ->. apply (H []). rewrite app_nil_r. auto. } intros e E. apply (H (b :: e)). rewrite E, <- app_assoc. auto.
Qed.
Lemma gadd_filter : forall q p u c k g e l r, sub t p = Some u -> sub u q = Some (CL (N.to_nat c)) -> sub t (p ++ e) = Some (CN l r) ->
  filter (mem (CN l r)) (gadd q p (repeat c k) g (p ++ e)) = filter (mem (CN l r)) (g (p ++ e) ++ repeat c k).
Proof.
  induction q as [|b q IH]; intros p u c k g e l r U Q E; cbn [gadd].
  - destruct u; cbn in Q; [|discriminate]. rewrite sub_app, U in E. destruct e; discriminate.
  - destruct u as [|l0 r0]; [discriminate|]. cbn [sub] in Q. destruct e as [|b' e].
    + rewrite app_nil_r. rewrite gadd_out. { rewrite gupd_eq. auto. } intros e X. apply (f_equal (@length bool)) in X. rewrite !app_length in X. cbn in X. lia.
    + assert (NE : p ++ b' :: e <> p). { intros X. apply (f_equal (@length bool)) in X. rewrite app_length in X. cbn in X. lia. }
      destruct (bool_dec b' b) as [-> | NB].
      * replace (p ++ b :: e) with ((p ++ [b]) ++ e) in * by (rewrite <- app_assoc; auto). rewrite (IH (p ++ [b]) (if b then r0 else l0) c) by (auto; rewrite sub_snoc, U; auto). rewrite gupd_neq by auto. auto.
      * rewrite gadd_out. 2: { intros e' X. rewrite <- app_assoc in X. cbn [app] in X. apply app_inv_head in X. congruence. } rewrite gupd_neq by auto. rewrite filter_app, rep_filter.
        replace (mem (CN l r) c) with false. { rewrite app_nil_r. auto. } symmetry. destruct (mem (CN l r) c) eqn:M; auto. exfalso.
        rewrite sub_app, U in E. cbn [sub] in E. pose proof (sub_mem _ _ _ _ E M) as M1. assert (M2 : mem (if b then r0 else l0) c = true). { eapply sub_mem; eauto. rewrite mem_leaf. apply N.eqb_refl. }
        pose proof (sub_nodup _ _ _ ND U) as N0. assert (M3 : mem (CN l0 r0) c = true). { rewrite mem_CN. destruct b; rewrite M2; auto. apply orb_true_r. } pose proof (mem_split l0 r0 c N0 M3) as MM. destruct b, b'; try congruence; rewrite M1, M2 in MM; discriminate.
Qed.
Lemma disjoint : forall v v' p p' l r l' r' d d', v <> v' -> at_ v p -> at_ v' p' -> sub t p = Some (CN l r) -> sub t p' = Some (CN l' r') -> nth_error ns v = Some d -> nth_error ns v' = Some d' ->
  d_pos d + wts (CN l r) <= d_pos d' \/ d_pos d' + wts (CN l' r') <= d_pos d.
Proof.
  intros v v' p p' l r l' r' d d' NE A A' U U' D D'. destruct (Nat.lt_total v v') as [L|[L|L]]; [left|congruence|right].
  - apply (ly_ord _ _ _ _ _ LY v v' p l r d d'); auto.
  - apply (ly_ord _ _ _ _ _ LY v' v p' l' r' d' d); auto.
Qed.
Lemma ins_ok : forall q p u v wd c k g T pos bv, at_ v p -> sub t p = Some u -> sub u q = Some (CL (N.to_nat c)) -> bits_are wd q -> k <= 64 -> wr g pos bv ->
  (forall e, g (p ++ e) = T) -> (exists R, S0 = T ++ repeat c k ++ R) ->
  exists pos' bv', ins_loop ns (length q) wd v k pos bv = Some (pos', bv') /\ wr (gadd q p (repeat c k) g) pos' bv'.
Proof.
  induction q as [|b q IH]; intros p u v wd c k g T pos bv A U Q B K W G PR; cbn [length ins_loop gadd].
  - exists pos, bv. auto.
  - destruct u as [|l r]; [discriminate|]. cbn [sub] in Q. apply bits_are_tl in B. destruct B as [OB B]. rewrite OB. destruct (at_node v p A) as [d D].
    pose proof (wr_pos _ _ _ W v p l r d A U D) as PV. rewrite PV. cbn [obind]. assert (GP : g p = T) by (rewrite <- (app_nil_r p); apply G). rewrite GP in *.
    set (F := filter (mem (CN l r)) T) in *. assert (MC : mem (if b then r else l) c = true). { eapply sub_mem; eauto. rewrite mem_leaf. apply N.eqb_refl. }
    assert (MU : mem (CN l r) c = true). { rewrite mem_CN. destruct b; rewrite MC; auto. apply orb_true_r. } pose proof (mem_split l r c (sub_nodup _ _ _ ND U) MU) as MS. assert (MR : mem r c = b). { destruct b; auto. rewrite MC in MS. destruct (mem r c); auto; discriminate. }
    assert (ROOM : length F + k <= wts (CN l r)). { destruct PR as [R PR]. unfold wts. replace (filter (mem (CN l r)) S0) with (filter (mem (CN l r)) (T ++ repeat c k ++ R)) by (f_equal; auto). rewrite !filter_app, !app_length, rep_filter, MU, repeat_length. fold F. lia. }
    pose proof (ly_range _ _ _ _ _ LY v p l r d A U D) as RG. rewrite <- (wr_bl _ _ _ W) in RG.
    assert (VL : v < length pos). { apply nth_error_Some. congruence. }
    assert (X : exists bv1, (if b then set_ones bv (d_pos d + length F) k else Some bv) = Some bv1 /\ length bv1 = length bv /\ forall i, t_bit bv1 i = if b && ((d_pos d + length F <=? i) && (i <? d_pos d + length F + k)) then true else t_bit bv i).
    { destruct b. { apply set_ones_bit; auto. lia. } exists bv. auto. }
    destruct X as (bv1 & -> & BL & BB). cbn [obind]. rewrite aset_some by auto. cbn [obind].
    destruct (la_node _ _ _ LA v p l r d A U D) as (i0 & i1 & C0 & C1 & A0 & A1). assert (CH : child ns v b = Some (if b then i1 else i0)) by (unfold child; rewrite D; cbn [obind]; destruct b; auto). rewrite CH. cbn [obind].
    apply (IH (p ++ [b]) (if b then r else l) (if b then i1 else i0) _ c k _ T); auto.
    + destruct b; auto.
    + rewrite sub_snoc, U. auto.
    + (* the new state *)
      assert (FN : filter (mem (CN l r)) (gupd g p (repeat c k) p) = F ++ repeat c k). { rewrite gupd_eq, filter_app, rep_filter, MU, GP. auto. }
      constructor.
      * rewrite upd_length. apply (wr_pl _ _ _ W).
      * rewrite BL. apply (wr_bl _ _ _ W).
      * intros v' p' l' r' d' A' U' D'. destruct (Nat.eq_dec v' v) as [-> | NE].
        -- rewrite A in A'. injection A' as <-. rewrite U in U'. injection U' as <- <-. rewrite D in D'. injection D' as <-. rewrite FN, nth_error_upd_eq by auto. rewrite app_length, repeat_length. f_equal. lia.
        -- rewrite nth_error_upd_neq by auto. rewrite gupd_neq. 2: { intros ->. apply NE. eapply nd_fun; eauto. apply (la_nd _ _ _ LA). } apply (wr_pos _ _ _ W v'); auto.
      * intros v' p' l' r' d' j A' U' D' J. rewrite BB. destruct (Nat.eq_dec v' v) as [-> | NE].
        -- rewrite A in A'. injection A' as <-. rewrite U in U'. injection U' as <- <-. rewrite D in D'. injection D' as <-. rewrite FN, app_length, repeat_length. pose proof (wr_bit _ _ _ W v p l r d j A U D J) as WB. rewrite GP in WB. fold F in WB. rewrite WB.
           destruct (Nat.ltb_spec j (length F)) as [J1|J1].
           { destruct (Nat.leb_spec (d_pos d + length F) (d_pos d + j)); [lia|]. rewrite andb_false_r. destruct (Nat.ltb_spec j (length F + k)); [|lia]. rewrite app_nth1 by auto. auto. }
           destruct (Nat.leb_spec (d_pos d + length F) (d_pos d + j)); [|lia]. destruct (Nat.ltb_spec j (length F + k)) as [J2|J2].
           { destruct (Nat.ltb_spec (d_pos d + j) (d_pos d + length F + k)); [|lia]. rewrite app_nth2 by auto. rewrite (nth_indep _ 0%N c) by (rewrite repeat_length; lia). rewrite nth_repeat, MR. cbn [andb]. destruct b; auto. }
           destruct (Nat.ltb_spec (d_pos d + j) (d_pos d + length F + k)); [lia|]. rewrite andb_false_r. cbn. rewrite ?andb_false_r. auto.
        -- destruct (disjoint v v' p p' l r l' r' d d') as [X|X]; auto.
           ++ destruct (Nat.ltb_spec (d_pos d' + j) (d_pos d + length F + k)); [lia|]. rewrite !andb_false_r. rewrite gupd_neq. { apply (wr_bit _ _ _ W v'); auto. } intros ->. apply NE. eapply nd_fun; eauto. apply (la_nd _ _ _ LA).
           ++ destruct (Nat.leb_spec (d_pos d + length F) (d_pos d' + j)); [lia|]. rewrite !andb_false_r. rewrite gupd_neq. { apply (wr_bit _ _ _ W v'); auto. } intros ->. apply NE. eapply nd_fun; eauto. apply (la_nd _ _ _ LA).
    + intros e. rewrite <- app_assoc. rewrite gupd_neq. { apply G. } intros E. apply (f_equal (@length bool)) in E. rewrite !app_length in E. cbn in E. lia.
Qed.
Lemma insert_ok : forall c k T R pos bv, S0 = T ++ repeat c k ++ R -> mem t c = true -> k <= 64 -> wr (fun _ => T) pos bv ->
  exists pos' bv', insert_char byte ns path c k pos bv = Some (pos', bv') /\ wr (fun _ => T ++ repeat c k) pos' bv'.
Proof.
  intros c k T R pos bv E M K W. destruct (leaf_path t (N.to_nat c)) as [p P]. { apply mem_in. auto. } destruct (PATH c p P) as (w & B & PL & BA & _). unfold insert_char. rewrite B. cbn [obind]. rewrite PL.
  destruct (ins_ok p [] t 0 w c k (fun _ => T) T pos bv) as (pos' & bv' & I & W'); auto. { apply (la_0 _ _ _ LA). } { exists R. auto. }
  exists pos', bv'. split; auto. eapply wr_ext; [|apply W']. intros p' l r U'. apply (gadd_filter p [] t c k (fun _ => T) p' l r); auto.
Qed.
Lemma repeat_S : forall (c : N) k R, repeat c k ++ c :: R = repeat c (k + 1) ++ R.
Proof. intros. rewrite repeat_app, <- app_assoc. auto. Qed.
Lemma text_ok : forall r old k T pos bv, S0 = T ++ repeat old k ++ r -> mem t old = true -> k < 64 -> wr (fun _ => T) pos bv -> exists bv' pos', text_loop byte ns path r old k pos bv = Some bv' /\ wr (fun _ => S0) pos' bv'.
Proof.
  induction r as [|c r IH]; intros old k T pos bv E M K W; cbn [text_loop].
  - destruct (Nat.ltb_spec 0 k).
    + destruct (insert_ok old k T [] pos bv E M ltac:(lia) W) as (pos' & bv' & -> & W'). cbn [obind snd]. exists bv', pos'. split; auto. rewrite app_nil_r in E. rewrite E. auto.
    + assert (k = 0) by lia. subst k. cbn in E. rewrite app_nil_r in E. exists bv, pos. split; auto. rewrite E. auto.
  - destruct (N.eqb_spec c old) as [-> | NE]; cbn [negb].
    + rewrite repeat_S in E. destruct (Nat.eqb_spec (k + 1) 64) as [Z|Z].
      * destruct (insert_ok old (k + 1) T r pos bv E M ltac:(lia) W) as (pos' & bv' & -> & W'). cbn [obind fst snd]. apply (IH old 0 (T ++ repeat old (k + 1))); auto; [|lia]. rewrite <- app_assoc. auto.
      * apply (IH old (k + 1) T); auto. lia.
    + destruct (insert_ok old k T (c :: r) pos bv E M ltac:(lia) W) as (pos' & bv' & -> & W'). cbn [obind fst snd]. apply (IH c 1 (T ++ repeat old k)); auto; [| |lia].
      * rewrite <- app_assoc. auto.
      * apply CV. rewrite E. apply in_or_app. right. apply in_or_app. right. left. auto.
Qed.
Lemma wr_init : wr (fun _ => []) (map d_pos ns) (repeat false size).
Proof.
  constructor.
  - apply map_length.
  - apply repeat_length.
  - intros v p l r d A U D. rewrite nth_error_map, D. cbn. f_equal. lia.
  - intros v p l r d k A U D K. cbn. unfold t_bit. apply nth_repeat.
Qed.
Lemma init_ranks_ok : forall bv l, (forall d, In d l -> d_c0 d <> None -> d_pos d <= length bv) ->
  exists l', init_ranks bv l = Some l' /\ length l' = length l /\ forall i d, nth_error l i = Some d -> nth_error l' i = Some (if is_some (d_c0 d) then w_rnk (rank_of (t_bit bv) (d_pos d)) d else d).
Proof.
  induction l as [|d l IH]; intros H; cbn [init_ranks]. { exists []. split; auto. split; auto. intros [|i]; discriminate. }
  destruct IH as (l' & E & LL & L). { intros d' I. apply H. right. auto. }
  assert (X : (if is_some (d_c0 d) then let* r := t_rank bv (d_pos d) in Some (w_rnk r d) else Some d) = Some (if is_some (d_c0 d) then w_rnk (rank_of (t_bit bv) (d_pos d)) d else d)).
  { destruct (d_c0 d) eqn:C; auto. cbn [is_some]. rewrite t_rank_some. { auto. } apply H; [left; auto|congruence]. }
  rewrite X. cbn [obind]. rewrite E. cbn [obind]. eexists. split; eauto. split; [cbn; lia|]. intros [|i] d' D; cbn [nth_error] in *; auto. injection D as <-. auto.
Qed.
Theorem bits_ok : S0 <> [] -> exists bv ns', text_loop byte ns path S0 (nth 0 S0 0%N) 0 (map d_pos ns) (repeat false size) = Some bv /\ init_ranks bv ns = Some ns' /\ laid t ns' pth /\ filled S0 t ns' pth bv.
Proof.
  intros NE. assert (M0 : mem t (nth 0 S0 0%N) = true). { apply CV. apply nth_In. destruct S0; [congruence|cbn; lia]. }
  destruct (text_ok S0 (nth 0 S0 0%N) 0 [] (map d_pos ns) (repeat false size)) as (bv & pos & TL & W); auto; try lia. { apply wr_init. }
  pose proof (wr_bl _ _ _ W) as BL.
  destruct (init_ranks_ok bv ns) as (ns' & IR & NL & NN).
  { intros d I C. apply In_nth_error in I. destruct I as [v D]. destruct (node_at v d D) as (p & u & A & U). destruct u as [s|l r]. { destruct (la_leaf _ _ _ LA v p s d A U D). congruence. } pose proof (ly_range _ _ _ _ _ LY v p l r d A U D). lia. }
  exists bv, ns'. split; auto. split; auto.
  assert (BACK : forall v p u d', at_ v p -> sub t p = Some u -> nth_error ns' v = Some d' -> exists d, nth_error ns v = Some d /\ d' = if is_some (d_c0 d) then w_rnk (rank_of (t_bit bv) (d_pos d)) d else d).
  { intros v p u d' A U D'. destruct (at_node v p A) as [d D]. exists d. split; auto. rewrite (NN v d D) in D'. congruence. }
  split; constructor.
  - rewrite NL. apply (la_len _ _ _ LA).
  - rewrite NL. apply (la_size _ _ _ LA).
  - apply (la_0 _ _ _ LA).
  - apply (la_nd _ _ _ LA).
  - intros v p s d' A U D'. destruct (BACK v p _ d' A U D') as (d & D & ->). destruct (la_leaf _ _ _ LA v p s d A U D) as [C R]. rewrite C. cbn [is_some]. auto.
  - intros v p l r d' A U D'. destruct (BACK v p _ d' A U D') as (d & D & ->). destruct (la_node _ _ _ LA v p l r d A U D) as (i0 & i1 & C0 & C1 & X). rewrite C0. cbn [is_some w_rnk d_c0 d_c1]. exists i0, i1. auto.
  - apply (la_sub _ _ _ LA).
  - intros v p b d' A D'. pose proof (la_sub _ _ _ LA v _ A) as US. destruct (sub t (p ++ [b])) as [u|] eqn:U; [|congruence]. destruct (BACK v _ u d' A U D') as (d & D & ->). destruct (la_par _ _ _ LA v p b d A D) as (q & Q & AQ). exists q. destruct (is_some (d_c0 d)); auto.
  - intros v p l r d' A U D'. destruct (BACK v p _ d' A U D') as (d & D & ->). pose proof (ly_range _ _ _ _ _ LY v p l r d A U D). unfold wts in H. destruct (is_some (d_c0 d)); cbn [w_rnk d_pos]; lia.
  - intros v p l r d' k A U D' K. destruct (BACK v p _ d' A U D') as (d & D & ->). pose proof (wr_bit _ _ _ W v p l r d k A U D K) as WB. cbv beta in WB. replace (k <? length (filter (mem (CN l r)) S0)) with true in WB by (symmetry; apply Nat.ltb_lt; auto). destruct (is_some (d_c0 d)); cbn [w_rnk d_pos]; auto.
  - intros v p l r d' A U D'. destruct (BACK v p _ d' A U D') as (d & D & ->). destruct (la_node _ _ _ LA v p l r d A U D) as (i0 & i1 & C0 & _). rewrite C0. cbn [is_some w_rnk d_rank d_pos]. auto.
Qed.
End B.
