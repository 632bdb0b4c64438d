(** * Foundations: 64-bit words, word memory, bit strings.

    A [uint64_t] is an [N] below [2^64]; indices are [nat]. *)
From Coq Require Import NArith ZArith List Lia Bool Arith.
From Coq Require Export ZifyBool ZifyNat ZifyN.
Import ListNotations.

Ltac Zify.zify_post_hook ::= Z.div_mod_to_equations.

Global Arguments Nat.div : simpl never.
Global Arguments Nat.mul : simpl never.
Global Arguments Nat.modulo : simpl never.
Global Arguments Nat.ltb : simpl never.
Global Arguments N.add : simpl never.
Global Arguments N.mul : simpl never.
Global Arguments N.pow : simpl never.
Global Arguments N.div : simpl never.
Global Arguments N.modulo : simpl never.
Global Arguments N.sub : simpl never.

(** ** Option monad: [None] is undefined behaviour (out-of-bounds access, shift
    by 64 or more, exhausted fuel). *)
Definition obind {A B} (o : option A) (f : A -> option B) : option B :=
  match o with Some a => f a | None => None end.
Notation "'let*' x ':=' e 'in' f" := (obind e (fun x => f))
  (at level 200, x pattern, right associativity).

Lemma obind_some : forall A B (a : A) (f : A -> option B), obind (Some a) f = f a.
Proof. reflexivity. Qed.

Lemma some_inj : forall A (a b : A), Some a = Some b -> a = b.
Proof. intros. congruence. Qed.

Lemma obind_inv : forall A B (o : option A) (f : A -> option B) b,
  obind o f = Some b -> exists a, o = Some a /\ f a = Some b.
Proof. intros A B [a|] f b H; simpl in H; [eauto|discriminate]. Qed.

(** ** Words *)
Definition W64 : N := 18446744073709551616%N.   (* 2^64 *)

Lemma W64_pow : W64 = (2 ^ 64)%N. Proof. reflexivity. Qed.

Definition is_word (x : N) : Prop := (x < W64)%N.

(** bit [k] of [x] *)
Definition tb (x : N) (k : nat) : bool := N.testbit x (N.of_nat k).

(** C++ operators on uint64_t *)
Definition wadd (x y : N) : N := ((x + y) mod W64)%N.
Definition wsub (x y : N) : N := ((x + (W64 - y)) mod W64)%N.
Definition wmul (x y : N) : N := ((x * y) mod W64)%N.
Definition wnot (x : N) : N := N.lxor x (N.ones 64).
Definition shl (x : N) (k : nat) : N := (N.shiftl x (N.of_nat k) mod W64)%N.
Definition shr (x : N) (k : nat) : N := N.shiftr x (N.of_nat k).
(** checked shifts: a shift distance of 64 or more is undefined behaviour *)
Definition shl_c (x : N) (k : nat) : option N := if k <? 64 then Some (shl x k) else None.
Definition shr_c (x : N) (k : nat) : option N := if k <? 64 then Some (shr x k) else None.
(** bits::lo_set[k]: the [k] low bits set *)
Definition lo_set (k : nat) : N := N.ones (N.of_nat k).

Global Arguments tb : simpl never.
Global Arguments shl : simpl never.
Global Arguments shr : simpl never.
Global Arguments lo_set : simpl never.
Global Arguments wnot : simpl never.
Global Arguments wadd : simpl never.
Global Arguments wsub : simpl never.
Global Arguments wmul : simpl never.

Definition b2n (b : bool) : N := if b then 1%N else 0%N.
Definition b2nat (b : bool) : nat := if b then 1 else 0.

(** ** Bit level characterisations *)

Lemma tb_land : forall x y k, tb (N.land x y) k = tb x k && tb y k.
Proof. intros. unfold tb. apply N.land_spec. Qed.
Lemma tb_lor : forall x y k, tb (N.lor x y) k = tb x k || tb y k.
Proof. intros. unfold tb. apply N.lor_spec. Qed.
Lemma tb_lxor : forall x y k, tb (N.lxor x y) k = xorb (tb x k) (tb y k).
Proof. intros. unfold tb. apply N.lxor_spec. Qed.
Lemma tb_ldiff : forall x y k, tb (N.ldiff x y) k = tb x k && negb (tb y k).
Proof. intros. unfold tb. apply N.ldiff_spec. Qed.
Lemma tb_0 : forall k, tb 0 k = false.
Proof. intros. unfold tb. apply N.bits_0. Qed.
Lemma tb_ones : forall n k, tb (N.ones (N.of_nat n)) k = (k <? n).
Proof.
  intros. unfold tb. destruct (Nat.ltb_spec k n).
  - apply N.ones_spec_low. lia.
  - apply N.ones_spec_high. lia.
Qed.
Lemma tb_lo_set : forall n k, tb (lo_set n) k = (k <? n).
Proof. intros. apply tb_ones. Qed.
Lemma tb_mod_pow2 : forall x n k, tb (x mod 2 ^ (N.of_nat n)) k = (k <? n) && tb x k.
Proof.
  intros. unfold tb. destruct (Nat.ltb_spec k n).
  - rewrite N.mod_pow2_bits_low by lia. reflexivity.
  - rewrite N.mod_pow2_bits_high by lia. reflexivity.
Qed.
Lemma tb_modW : forall x k, tb (x mod W64) k = (k <? 64) && tb x k.
Proof. intros. rewrite W64_pow. change 64%N with (N.of_nat 64). apply tb_mod_pow2. Qed.
Lemma tb_shiftl : forall x n k, tb (N.shiftl x (N.of_nat n)) k = (n <=? k) && tb x (k - n).
Proof.
  intros. unfold tb. destruct (Nat.leb_spec n k).
  - rewrite N.shiftl_spec_high' by lia. simpl. f_equal. lia.
  - rewrite N.shiftl_spec_low by lia. reflexivity.
Qed.
Lemma tb_shl : forall x n k, tb (shl x n) k = (k <? 64) && ((n <=? k) && tb x (k - n)).
Proof. intros. unfold shl. rewrite tb_modW, tb_shiftl. reflexivity. Qed.
Lemma tb_shr : forall x n k, tb (shr x n) k = tb x (k + n).
Proof. intros. unfold tb, shr. rewrite N.shiftr_spec'. f_equal. lia. Qed.
Lemma tb_wnot : forall x k, tb (wnot x) k = xorb (tb x k) (k <? 64).
Proof. intros. unfold wnot. rewrite tb_lxor. change 64%N with (N.of_nat 64). rewrite tb_ones. reflexivity. Qed.

Lemma tb_high : forall x n k, (x < 2 ^ N.of_nat n)%N -> n <= k -> tb x k = false.
Proof.
  intros. unfold tb. destruct (N.eq_dec x 0).
  - subst. apply N.bits_0.
  - apply N.bits_above_log2. apply N.log2_lt_pow2; [lia|].
    eapply N.lt_le_trans; [eassumption|]. apply N.pow_le_mono_r; lia.
Qed.
Lemma tb_word_high : forall x k, is_word x -> 64 <= k -> tb x k = false.
Proof. intros. apply tb_high with 64; auto. Qed.

Lemma tb_ext : forall x y, (forall k, tb x k = tb y k) -> x = y.
Proof.
  intros. apply N.bits_inj. intro n. specialize (H (N.to_nat n)).
  unfold tb in H. rewrite N2Nat.id in H. assumption.
Qed.

Lemma tb_lt_pow2 : forall x n, (forall k, n <= k -> tb x k = false) -> (x < 2 ^ N.of_nat n)%N.
Proof.
  intros. destruct (N.eq_dec x 0) as [->|E].
  - apply N.neq_0_lt_0. apply N.pow_nonzero. lia.
  - apply N.log2_lt_pow2; [lia|].
    destruct (N.lt_ge_cases (N.log2 x) (N.of_nat n)) as [L|L]; auto.
    exfalso. pose proof (N.bit_log2 x E) as B.
    specialize (H (N.to_nat (N.log2 x))). unfold tb in H. rewrite N2Nat.id in H.
    rewrite H in B; [discriminate|lia].
Qed.

Lemma is_word_tb : forall x, (forall k, 64 <= k -> tb x k = false) -> is_word x.
Proof. intros. unfold is_word. rewrite W64_pow. change 64%N with (N.of_nat 64). apply tb_lt_pow2. auto. Qed.

Lemma tb_word_ext : forall x y, is_word x -> is_word y ->
  (forall k, k < 64 -> tb x k = tb y k) -> x = y.
Proof.
  intros. apply tb_ext. intro k. destruct (Nat.lt_ge_cases k 64); auto.
  rewrite !tb_word_high; auto.
Qed.

Lemma is_word_0 : is_word 0. Proof. reflexivity. Qed.
Lemma is_word_mod : forall x, is_word (x mod W64).
Proof. intros. apply N.mod_lt. discriminate. Qed.
Lemma is_word_shl : forall x k, is_word (shl x k).
Proof. intros. apply is_word_mod. Qed.
Lemma is_word_shr : forall x k, is_word x -> is_word (shr x k).
Proof. intros. apply is_word_tb. intros. rewrite tb_shr. apply tb_word_high; auto. lia. Qed.
Lemma is_word_land_l : forall x y, is_word x -> is_word (N.land x y).
Proof. intros. apply is_word_tb. intros. rewrite tb_land, (tb_word_high x); auto. Qed.
Lemma is_word_land_r : forall x y, is_word y -> is_word (N.land x y).
Proof. intros. rewrite N.land_comm. apply is_word_land_l; auto. Qed.
Lemma is_word_lor : forall x y, is_word x -> is_word y -> is_word (N.lor x y).
Proof. intros. apply is_word_tb. intros. rewrite tb_lor, !tb_word_high; auto. Qed.
Lemma is_word_lxor : forall x y, is_word x -> is_word y -> is_word (N.lxor x y).
Proof. intros. apply is_word_tb. intros. rewrite tb_lxor, !tb_word_high; auto. Qed.
Lemma is_word_wnot : forall x, is_word x -> is_word (wnot x).
Proof. intros. apply is_word_lxor; auto. reflexivity. Qed.
Lemma is_word_lo_set : forall k, k <= 64 -> is_word (lo_set k).
Proof. intros. apply is_word_tb. intros. rewrite tb_lo_set. apply Nat.ltb_ge. lia. Qed.
Lemma is_word_wadd : forall x y, is_word (wadd x y). Proof. intros; apply is_word_mod. Qed.
Lemma is_word_wsub : forall x y, is_word (wsub x y). Proof. intros; apply is_word_mod. Qed.
Lemma is_word_wmul : forall x y, is_word (wmul x y). Proof. intros; apply is_word_mod. Qed.

Global Hint Resolve is_word_0 is_word_mod is_word_shl is_word_shr is_word_land_l is_word_lor
  is_word_lxor is_word_wnot is_word_lo_set is_word_wadd is_word_wsub is_word_wmul : word.

Lemma is_word_small : forall x, (x < W64)%N -> is_word x. Proof. auto. Qed.

Lemma wadd_small : forall x y, (x + y < W64)%N -> wadd x y = (x + y)%N.
Proof. intros. unfold wadd. apply N.mod_small. auto. Qed.
Lemma wsub_small : forall x y, (y <= x)%N -> is_word x -> wsub x y = (x - y)%N.
Proof.
  intros. unfold wsub, is_word in *. replace (x + (W64 - y))%N with (x - y + 1 * W64)%N by lia.
  rewrite N.mod_add by discriminate. apply N.mod_small. lia.
Qed.
Lemma wmul_small : forall x y, (x * y < W64)%N -> wmul x y = (x * y)%N.
Proof. intros. unfold wmul. apply N.mod_small. auto. Qed.

(** shifts as arithmetic *)
Lemma shr_div : forall x k, shr x k = (x / 2 ^ N.of_nat k)%N.
Proof. intros. apply N.shiftr_div_pow2. Qed.
Lemma shl_mul : forall x k, shl x k = ((x * 2 ^ N.of_nat k) mod W64)%N.
Proof. intros. unfold shl. rewrite N.shiftl_mul_pow2. reflexivity. Qed.
Lemma land_lo_set : forall x k, N.land x (lo_set k) = (x mod 2 ^ N.of_nat k)%N.
Proof. intros. apply N.land_ones. Qed.
Lemma lo_set_val : forall k, lo_set k = (2 ^ N.of_nat k - 1)%N.
Proof. intros. unfold lo_set. rewrite N.ones_equiv. lia. Qed.

Lemma lo_set_64 : lo_set 64 = (W64 - 1)%N. Proof. reflexivity. Qed.

(** the mask covers a full word *)
Lemma tb_mask_word : forall x k, is_word x -> (k <? 64) && tb x k = tb x k.
Proof.
  intros. destruct (Nat.ltb_spec k 64); auto. rewrite tb_word_high; auto.
Qed.

(** disjoint or is addition *)
Lemma lor_disjoint_add : forall x y, N.land x y = 0%N -> N.lor x y = (x + y)%N.
Proof.
  intros. symmetry. rewrite N.add_nocarry_lxor by auto.
  rewrite <- N.lxor_lor by auto. reflexivity.
Qed.

(** ** List utilities *)
Fixpoint upd {A} (l : list A) (i : nat) (v : A) : list A :=
  match l, i with
  | [], _ => []
  | _ :: t, 0 => v :: t
  | h :: t, S i' => h :: upd t i' v
  end.

Lemma upd_length : forall A (l : list A) i v, length (upd l i v) = length l.
Proof. induction l; destruct i; simpl; auto. Qed.
Lemma nth_upd : forall A (l : list A) i j v d,
  nth j (upd l i v) d = if (j =? i) && (j <? length l) then v else nth j l d.
Proof.
  induction l; intros; simpl.
  - rewrite andb_false_r. reflexivity.
  - destruct i; simpl.
    + destruct j; simpl; auto.
    + destruct j; simpl; auto. rewrite IHl. reflexivity.
Qed.
Lemma nth_upd_eq : forall A (l : list A) i v d, i < length l -> nth i (upd l i v) d = v.
Proof. intros. rewrite nth_upd, Nat.eqb_refl. apply Nat.ltb_lt in H. rewrite H. auto. Qed.
Lemma nth_upd_neq : forall A (l : list A) i j v d, i <> j -> nth j (upd l i v) d = nth j l d.
Proof. intros. rewrite nth_upd. destruct (Nat.eqb_spec j i); auto. congruence. Qed.
Lemma nth_error_upd_eq : forall A (l : list A) i v, i < length l -> nth_error (upd l i v) i = Some v.
Proof. induction l; destruct i; simpl; intros; auto; try lia. apply IHl. lia. Qed.
Lemma nth_error_upd_neq : forall A (l : list A) i j v, i <> j -> nth_error (upd l i v) j = nth_error l j.
Proof. induction l; destruct i, j; simpl; intros; auto; try congruence. Qed.
Lemma upd_forall : forall A (P : A -> Prop) l i v, Forall P l -> P v -> Forall P (upd l i v).
Proof. intros A P l i v H. revert i. induction H; destruct i; simpl; intros; auto. Qed.
Lemma upd_app_l : forall A (l1 l2 : list A) i v, i < length l1 -> upd (l1 ++ l2) i v = upd l1 i v ++ l2.
Proof. induction l1; destruct i; simpl; intros; auto; try lia. rewrite IHl1; auto. lia. Qed.
Lemma upd_app_r : forall A (l1 l2 : list A) i v, length l1 <= i ->
  upd (l1 ++ l2) i v = l1 ++ upd l2 (i - length l1) v.
Proof.
  induction l1; simpl; intros. { rewrite Nat.sub_0_r; auto. }
  destruct i; simpl; [lia|]. rewrite IHl1; auto. lia.
Qed.
Lemma upd_out : forall A (l : list A) i v, length l <= i -> upd l i v = l.
Proof. induction l; destruct i; simpl; intros; auto; try lia. rewrite IHl; auto. lia. Qed.

Lemma nth_error_some_nth : forall A (l : list A) i d, i < length l -> nth_error l i = Some (nth i l d).
Proof. induction l; destruct i; simpl; intros; auto; try lia. apply IHl. lia. Qed.

Lemma list_nth_ext : forall A (d : A) l1 l2, length l1 = length l2 ->
  (forall i, i < length l1 -> nth i l1 d = nth i l2 d) -> l1 = l2.
Proof. intros. apply (nth_ext _ _ d d); auto. Qed.

Lemma nth_repeat_lt : forall A (x d : A) n i, i < n -> nth i (repeat x n) d = x.
Proof. induction n; destruct i; simpl; intros; auto; try lia. apply IHn. lia. Qed.

Lemma nth_map_seq : forall A (f : nat -> A) n i d, i < n -> nth i (map f (seq 0 n)) d = f i.
Proof.
  intros. rewrite nth_indep with (d' := f 0) by (rewrite map_length, seq_length; auto).
  rewrite map_nth. rewrite seq_nth; auto.
Qed.

Lemma map_seq_shift : forall A (f : nat -> A) k n,
  map f (seq k n) = map (fun i => f (k + i)) (seq 0 n).
Proof.
  intros. rewrite <- (Nat.add_0_r k) at 1. generalize 0 as o. induction n; intros; simpl; auto.
  f_equal. rewrite <- Nat.add_succ_r. apply IHn.
Qed.

Lemma firstn_skipn_nth : forall A (l : list A) i n k d, k < n ->
  nth k (firstn n (skipn i l)) d = nth (i + k) l d.
Proof.
  intros. rewrite <- (firstn_skipn i l) at 2.
  destruct (Nat.lt_ge_cases i (length l)) as [L|L].
  - rewrite app_nth2; rewrite firstn_length_le by lia; [|lia].
    replace (i + k - i) with k by lia.
    rewrite <- (firstn_skipn n (skipn i l)) at 2.
    destruct (Nat.lt_ge_cases k (length (firstn n (skipn i l)))).
    + rewrite app_nth1; auto.
    + rewrite nth_overflow by auto. rewrite app_nth2 by auto.
      rewrite firstn_length in *.
      rewrite nth_overflow; auto.
      rewrite skipn_length in *. rewrite skipn_length. lia.
  - rewrite (skipn_all2 l) by lia. rewrite firstn_nil. rewrite app_nil_r.
    rewrite firstn_all2 by lia. rewrite (nth_overflow l) by lia. destruct k; auto.
Qed.

(** ** Word memory *)
Definition mem := list N.
Definition ld (m : mem) (i : nat) : option N := nth_error m i.
Definition st (m : mem) (i : nat) (v : N) : option mem :=
  if i <? length m then Some (upd m i v) else None.

Definition words_ok (m : mem) : Prop := Forall is_word m.

Lemma ld_some : forall m i, i < length m -> ld m i = Some (nth i m 0%N).
Proof. intros. apply nth_error_some_nth; auto. Qed.
Lemma ld_none : forall m i, length m <= i -> ld m i = None.
Proof. intros. apply nth_error_None; auto. Qed.
Lemma st_some : forall m i v, i < length m -> st m i v = Some (upd m i v).
Proof. intros. unfold st. apply Nat.ltb_lt in H. rewrite H. auto. Qed.
Lemma words_ok_nth : forall m i, words_ok m -> is_word (nth i m 0%N).
Proof.
  intros. destruct (Nat.lt_ge_cases i (length m)).
  - apply (proj1 (Forall_forall _ _) H). apply nth_In; auto.
  - rewrite nth_overflow by lia. reflexivity.
Qed.
Lemma words_ok_upd : forall m i v, words_ok m -> is_word v -> words_ok (upd m i v).
Proof. intros. apply upd_forall; auto. Qed.
Global Hint Resolve words_ok_nth words_ok_upd : word.

(** bit [p] of the memory, counted from the least significant bit of word 0 *)
Definition mbit (m : mem) (p : nat) : bool := tb (nth (p / 64) m 0%N) (p mod 64).

Lemma mbit_out : forall m p, 64 * length m <= p -> mbit m p = false.
Proof. intros. unfold mbit. rewrite nth_overflow by lia. apply tb_0. Qed.

Lemma mbit_wo : forall m w o, o < 64 -> mbit m (64 * w + o) = tb (nth w m 0%N) o.
Proof.
  intros. unfold mbit. replace ((64 * w + o) / 64) with w by lia.
  replace ((64 * w + o) mod 64) with o by lia. reflexivity.
Qed.

Lemma mbit_upd : forall m i v p, i < length m ->
  mbit (upd m i v) p = if p / 64 =? i then tb v (p mod 64) else mbit m p.
Proof.
  intros. unfold mbit. rewrite nth_upd. destruct (Nat.eqb_spec (p / 64) i); simpl; auto.
  subst. apply Nat.ltb_lt in H. rewrite H. auto.
Qed.

(** memories of words are determined by length and bits *)
Lemma mem_ext : forall m1 m2, words_ok m1 -> words_ok m2 -> length m1 = length m2 ->
  (forall p, p < 64 * length m1 -> mbit m1 p = mbit m2 p) -> m1 = m2.
Proof.
  intros. apply list_nth_ext with (d := 0%N); auto. intros.
  apply tb_word_ext; auto with word. intros.
  rewrite <- !mbit_wo by auto. apply H2. lia.
Qed.

(** ** Bit strings as lists of booleans *)
Fixpoint N_of_bits (l : list bool) : N :=
  match l with
  | [] => 0%N
  | b :: t => (b2n b + 2 * N_of_bits t)%N
  end.

Definition bits_of_N (n : nat) (x : N) : list bool := map (tb x) (seq 0 n).

Lemma tb_N_of_bits : forall l k, tb (N_of_bits l) k = nth k l false.
Proof.
  induction l; intros.
  - simpl. rewrite tb_0. destruct k; auto.
  - simpl N_of_bits. unfold tb. destruct k.
    + simpl nth. destruct a; simpl b2n; [rewrite N.add_comm|rewrite N.add_0_l].
      * apply N.testbit_odd_0. * apply N.testbit_even_0.
    + rewrite Nat2N.inj_succ. simpl nth. rewrite <- IHl. unfold tb.
      destruct a; simpl b2n; [rewrite N.add_comm|rewrite N.add_0_l].
      * apply N.testbit_odd_succ. lia. * apply N.testbit_even_succ. lia.
Qed.

Lemma bits_of_N_length : forall n x, length (bits_of_N n x) = n.
Proof. intros. unfold bits_of_N. rewrite map_length, seq_length. auto. Qed.

Lemma nth_bits_of_N : forall n x k, nth k (bits_of_N n x) false = (k <? n) && tb x k.
Proof.
  intros. destruct (Nat.ltb_spec k n).
  - unfold bits_of_N. rewrite nth_map_seq; auto.
  - rewrite nth_overflow; auto. rewrite bits_of_N_length. auto.
Qed.

Lemma N_of_bits_lt : forall l, (N_of_bits l < 2 ^ N.of_nat (length l))%N.
Proof. intros. apply tb_lt_pow2. intros. rewrite tb_N_of_bits. apply nth_overflow; auto. Qed.

Lemma N_of_bits_of_N : forall n x, N_of_bits (bits_of_N n x) = (x mod 2 ^ N.of_nat n)%N.
Proof.
  intros. apply tb_ext. intros. rewrite tb_N_of_bits, nth_bits_of_N, tb_mod_pow2. auto.
Qed.

Lemma bits_of_N_of_bits : forall l, bits_of_N (length l) (N_of_bits l) = l.
Proof.
  intros. apply list_nth_ext with (d := false). { apply bits_of_N_length. }
  rewrite bits_of_N_length. intros. rewrite nth_bits_of_N, tb_N_of_bits.
  apply Nat.ltb_lt in H. rewrite H. auto.
Qed.

(** the bit string stored in a memory *)
Definition mbits (m : mem) : list bool := map (mbit m) (seq 0 (64 * length m)).
(** the first [n] bits *)
Definition mbits_n (m : mem) (n : nat) : list bool := map (mbit m) (seq 0 n).

Lemma mbits_n_length : forall m n, length (mbits_n m n) = n.
Proof. intros. unfold mbits_n. rewrite map_length, seq_length. auto. Qed.
Lemma nth_mbits_n : forall m n k, k < n -> nth k (mbits_n m n) false = mbit m k.
Proof. intros. unfold mbits_n. apply nth_map_seq; auto. Qed.

(** the integer stored in bits [p .. p+len-1] *)
Definition field (m : mem) (p len : nat) : N := N_of_bits (map (mbit m) (seq p len)).

Lemma tb_field : forall m p len k, tb (field m p len) k = (k <? len) && mbit m (p + k).
Proof.
  intros. unfold field. rewrite tb_N_of_bits. destruct (Nat.ltb_spec k len).
  - rewrite nth_indep with (d' := mbit m 0) by (rewrite map_length, seq_length; auto).
    rewrite map_nth, seq_nth by auto. reflexivity.
  - rewrite nth_overflow; auto. rewrite map_length, seq_length. auto.
Qed.

Lemma field_lt : forall m p len, (field m p len < 2 ^ N.of_nat len)%N.
Proof. intros. apply tb_lt_pow2. intros. rewrite tb_field. apply andb_false_iff. left. apply Nat.ltb_ge; auto. Qed.

Lemma field_ext : forall m1 m2 p1 p2 len, (forall k, k < len -> mbit m1 (p1 + k) = mbit m2 (p2 + k)) ->
  field m1 p1 len = field m2 p2 len.
Proof.
  intros. apply tb_ext. intros. rewrite !tb_field. destruct (Nat.ltb_spec k len); simpl; auto.
Qed.

(** simplification of bit formulas; leaves comparisons to [lia] *)
Ltac tbs := repeat rewrite ?tb_land, ?tb_lor, ?tb_lxor, ?tb_ldiff, ?tb_0, ?tb_lo_set, ?tb_modW,
  ?tb_shl, ?tb_shr, ?tb_wnot, ?tb_field.

Ltac cmp_case :=
  match goal with
  | |- context [?a <? ?b] => destruct (Nat.ltb_spec a b); try lia
  | |- context [?a <=? ?b] => destruct (Nat.leb_spec a b); try lia
  | |- context [?a =? ?b] => destruct (Nat.eqb_spec a b); try lia
  end.
Ltac cmp_cases := repeat (cmp_case; simpl).

(** number of [true] in a list *)
Definition count_true (l : list bool) : nat := length (filter (fun b => b) l).

Lemma count_true_app : forall l1 l2, count_true (l1 ++ l2) = count_true l1 + count_true l2.
Proof. intros. unfold count_true. rewrite filter_app, app_length. auto. Qed.
Lemma count_true_cons : forall b l, count_true (b :: l) = b2nat b + count_true l.
Proof. intros. unfold count_true. destruct b; simpl; auto. Qed.
Lemma count_true_le : forall l, count_true l <= length l.
Proof. induction l; auto. rewrite count_true_cons. simpl. destruct a; simpl; lia. Qed.
