(** * int_vector<0> as an array of integers below 2^width

    PropIntVector.v (C04) proves that int_vector behaves like this array: element i reads back the
    last value written to it, reduced modulo 2^width.  The higher layers use the array. *)
From Coq Require Import NArith List Bool Arith Lia.
From Verif Require Import Base Bits.
Import ListNotations.

Record avec := mkav { av_w : nat; av_l : list N }.

(** int_vector<0>(size, default_value, width), int_vector.hpp:1249-1256 *)
Definition av_new (n : nat) (x : N) (w : nat) : avec := mkav w (repeat (x mod 2 ^ N.of_nat w)%N n).
(** default constructor: no elements, width 64 *)
Definition av_nil : avec := mkav 64 [].
Definition av_size (v : avec) : nat := length (av_l v).
Definition av_get (v : avec) (i : nat) : option N := nth_error (av_l v) i.
Definition av_set (v : avec) (i : nat) (x : N) : option avec :=
  if i <? av_size v then Some (mkav (av_w v) (upd (av_l v) i (x mod 2 ^ N.of_nat (av_w v))%N)) else None.

Lemma av_get_some : forall v i, i < av_size v -> av_get v i = Some (nth i (av_l v) 0%N).
Proof. intros. unfold av_get. apply nth_error_nth'. auto. Qed.
Lemma av_get_inv : forall v i x, av_get v i = Some x -> i < av_size v /\ x = nth i (av_l v) 0%N.
Proof.
  intros v i x H. unfold av_get in H. assert (i < av_size v) by (apply nth_error_Some; congruence).
  split; auto. rewrite (nth_error_nth' _ 0%N) in H; auto. congruence.
Qed.
Lemma av_set_some : forall v i x, i < av_size v -> (x < 2 ^ N.of_nat (av_w v))%N ->
  av_set v i x = Some (mkav (av_w v) (upd (av_l v) i x)).
Proof. intros. unfold av_set. replace (i <? av_size v) with true by lia. rewrite N.mod_small; auto. Qed.
Lemma av_size_new : forall n x w, av_size (av_new n x w) = n.
Proof. intros. apply repeat_length. Qed.

(** the width bits::hi(x)+1 holds every value up to x *)
Definition hiw (x : N) : nat := N.to_nat (hi x) + 1.

(** arrays of any type *)
Definition aset {A} (l : list A) (i : nat) (x : A) : option (list A) :=
  if i <? length l then Some (upd l i x) else None.
Lemma aset_some : forall A (l : list A) i x, i < length l -> aset l i x = Some (upd l i x).
Proof. intros. unfold aset. replace (i <? length l) with true by lia. auto. Qed.
