(** * C57: bidirectional search

    Property (properties.jsonl): given the interval of w in the index of the text and the interval of the reversed w
    in the index of the backward text, bidirectional_search_backward returns the two intervals of Pw,
    bidirectional_search_forward those of wP, and both return the number of occurrences.  [bd_make a T sa] builds what
    the functions use of a csa_wt with alphabet strategy [a]; intervals [l, r) are half open.  Specification:
    SpecCsa.v, SpecBidir.v.

    Missing from the _partial theorems, because false: pattern symbols >= 256 on an integer alphabet
    (C57_wide_symbol_refuted). *)
From Coq Require Import List Arith Bool Lia Permutation.
From Verif Require Import Base SpecBits WtBase SpecCsa SpecBidir Alphabet Csa CsaSample CsaProofs6 Bidir BidirProofs.
Import ListNotations.

Theorem C57_backward_partial : forall a T sa sa', text_ok T -> is_sa T sa -> is_sa (rtext T) sa' -> (forall c, In c T -> sym_fits a c) ->
  exists fwd bwd, bd_make a T sa = Some fwd /\ bd_make a (rtext T) sa' = Some bwd /\
  forall P w l r l' r', ~ In 0 (P ++ w) -> (forall c, In c P -> c < 256) -> bi_interval T sa sa' w l r l' r' ->
  exists l1 r1 l2 r2, bidir_backward fwd bwd l r l' r' P = Some (l1, r1, l2, r2) /\ bi_interval T sa sa' (P ++ w) l1 r1 l2 r2 /\
    r1 - l1 = length (occs T (P ++ w)).
Proof. exact s_backward. Qed.
Print Assumptions C57_backward_partial.

Theorem C57_forward_partial : forall a T sa sa', text_ok T -> is_sa T sa -> is_sa (rtext T) sa' -> (forall c, In c T -> sym_fits a c) ->
  exists fwd bwd, bd_make a T sa = Some fwd /\ bd_make a (rtext T) sa' = Some bwd /\
  forall P w l r l' r', ~ In 0 (w ++ P) -> (forall c, In c P -> c < 256) -> bi_interval T sa sa' w l r l' r' ->
  exists l1 r1 l2 r2, bidir_forward fwd bwd l r l' r' P = Some (l1, r1, l2, r2) /\ bi_interval T sa sa' (w ++ P) l1 r1 l2 r2 /\
    r1 - l1 = length (occs T (w ++ P)).
Proof. exact s_forward_bi. Qed.
Print Assumptions C57_forward_partial.

(** the text abracadabra$ (a=1, b=2, c=3, d=4, r=5) *)
Definition bd_T : list nat := [1; 2; 5; 1; 3; 1; 4; 1; 2; 5; 1; 0].
Definition bd_SA : list nat := [11; 10; 7; 0; 3; 5; 8; 1; 4; 6; 9; 2].
Definition bd_SA' : list nat := [11; 10; 5; 3; 7; 0; 9; 2; 6; 4; 8; 1].
Example bd_demo_ok : text_ok bd_T /\ is_sa bd_T bd_SA /\ is_sa (rtext bd_T) bd_SA' /\ (forall c, In c bd_T -> sym_fits ABYTE c) /\
  bi_interval bd_T bd_SA bd_SA' [] 0 12 0 12.
Proof.
  split; [|split; [|split; [|split]]].
  - exists (firstn 11 bd_T). split; [reflexivity|]. cbn. intuition lia.
  - apply sa_check_ok. vm_compute. reflexivity.
  - apply sa_check_ok. vm_compute. reflexivity.
  - intros c C. cbn [sym_fits]. apply Nat.ltb_lt. cbn in C. repeat (destruct C as [<- | C]; [vm_compute; reflexivity|]). tauto.
  - split; (split; [vm_compute; lia|]); intros j J; (split; [intros _; reflexivity|]); intros _; (split; [lia|exact J]).
Qed.
(** first b, then r to its right, then a to its left: the intervals of abr and rba *)
Example bd_demo_run : exists fwd bwd, bd_make ABYTE bd_T bd_SA = Some fwd /\ bd_make ABYTE (rtext bd_T) bd_SA' = Some bwd /\
  bidir_backward fwd bwd 0 12 0 12 [2] = Some (6, 8, 6, 8) /\ bidir_forward fwd bwd 6 8 6 8 [5] = Some (6, 8, 10, 12) /\
  bidir_backward fwd bwd 6 8 10 12 [1] = Some (2, 4, 10, 12) /\ bidir_backward fwd bwd 6 8 10 12 [4; 1] = Some (9, 10, 11, 12).
Proof. do 2 eexists. repeat split; vm_compute; reflexivity. Qed.

(** the type of the symbol is uint8_t also for integer alphabets: the pattern 257 3 occurs, the search says it does not *)
Theorem C57_wide_symbol_refuted : exists T sa sa' fwd bwd P, text_ok T /\ is_sa T sa /\ is_sa (rtext T) sa' /\
  bd_make AINT T sa = Some fwd /\ bd_make AINT (rtext T) sa' = Some bwd /\ ~ In 0 P /\ occs T P = [0] /\
  exists l l', bidir_backward fwd bwd 0 (length T) 0 (length T) P = Some (l, l, l', l').
Proof.
  exists [257; 3; 1; 2; 0], [4; 2; 3; 1; 0], [4; 1; 0; 2; 3]. do 2 eexists. exists [257; 3].
  split; [exists [257; 3; 1; 2]; split; [reflexivity|cbn; intuition lia]|]. do 2 (split; [apply sa_check_ok; vm_compute; reflexivity|]).
  do 2 (split; [vm_compute; reflexivity|]). split; [cbn; intuition lia|]. split; [vm_compute; reflexivity|]. do 2 eexists. vm_compute. reflexivity.
Qed.
Print Assumptions C57_wide_symbol_refuted.
