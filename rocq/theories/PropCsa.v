(** * C40, C41, C42, C54: compressed suffix arrays and their alphabets

    Properties (properties.jsonl): count, locate, backward and forward search of an FM-index / CSA return the occurrences
    in the text (C40); lf and psi are mutually inverse and move the suffix by one position, bwt access, rank and select
    are those of the Burrows-Wheeler transform (C41); csa[i], isa, text and extract return the suffix array, its inverse
    and the text for every sampling strategy and density (C42); the alphabet strategies map symbols to ranks and back
    (C54).  [build k a T sa] runs the construction of csa_wt ([KWT]), csa_sada ([KSADA]) or csa_bitcompressed ([KBC]) with
    the alphabet strategy [a] on a text with its suffix array.  Specification: SpecCsa.v.

    Missing from every _partial theorem below, because false: csa_sada with the fuzzy ISA sampling and the bwt sampling
    ([kind_ok] leaves them out; C42_sada_fuzzy_refuted, C42_bwt_sampling_refuted); from those of C40 also patterns with a
    0 in the interior (C40_interior_zero_refuted), from forward_search any 0 (C40_forward_zero_refuted). *)
From Coq Require Import List Arith Bool Lia Permutation.
From Verif Require Import Base SpecBits RankSelect AbsVec FnArr WtBase SpecCsa Alphabet AlphabetProofs AlphabetProofs2 Csa CsaSample CsaProofs CsaProofs2 CsaProofs3 CsaProofs4 CsaProofs5 CsaProofs6.
Import ListNotations.

(** ** C40 *)
(** count(csa, P) is the number of occurrences.  A 0 may only be the last symbol of P *)
Theorem C40_count_partial : forall k a T sa, kind_ok k -> text_ok T -> is_sa T sa -> (forall c, In c T -> sym_fits a c) ->
  exists x, build k a T sa = Some x /\
  forall P, (forall c, In c P -> sym_fits a c) -> ~ In 0 (removelast P) -> count x P = Some (length (occs T P)).
Proof. exact s_count. Qed.
Print Assumptions C40_count_partial.

(** locate(csa, P) lists every occurrence exactly once *)
Theorem C40_locate_partial : forall k a T sa, kind_ok k -> text_ok T -> is_sa T sa -> (forall c, In c T -> sym_fits a c) ->
  exists x, build k a T sa = Some x /\
  forall P, (forall c, In c P -> sym_fits a c) -> ~ In 0 (removelast P) -> exists o, locate x P = Some o /\ Permutation o (occs T P).
Proof. exact s_locate. Qed.
Print Assumptions C40_locate_partial.

(** backward_search extends an interval to the left by a pattern *)
Theorem C40_backward_search_partial : forall k a T sa, kind_ok k -> text_ok T -> is_sa T sa -> (forall c, In c T -> sym_fits a c) ->
  exists x, build k a T sa = Some x /\
  forall P w l r, (forall c, In c P -> sym_fits a c) -> ~ In 0 (removelast (P ++ w)) -> sa_interval T sa w l r ->
  exists l' r', bsearch x l r P = Some (l', r') /\ sa_interval T sa (P ++ w) l' r'.
Proof. exact s_bsearch. Qed.
Print Assumptions C40_backward_search_partial.

(** forward_search selects, within any interval of rows, exactly the rows whose suffixes start with P *)
Theorem C40_forward_search_partial : forall k a T sa, kind_ok k -> text_ok T -> is_sa T sa -> (forall c, In c T -> sym_fits a c) ->
  exists x, build k a T sa = Some x /\
  forall P l r, (forall c, In c P -> sym_fits a c) -> ~ In 0 P -> l <= r <= length T ->
  exists l' r', forward_search x l r P = Some (l', r') /\ l <= l' <= r' /\ r' <= r /\
    forall j, l <= j < r -> (l' <= j < r' <-> occurs_at T P (nth j sa 0)).
Proof. exact s_forward. Qed.
Print Assumptions C40_forward_search_partial.

(** ** C41 *)
(** lf and psi: the row of the suffix one position to the left / right (cyclically), inverse to each other *)
Theorem C41_lf_psi_partial : forall k a T sa, kind_ok k -> text_ok T -> is_sa T sa -> (forall c, In c T -> sym_fits a c) ->
  exists x, build k a T sa = Some x /\
  forall i, i < length T -> exists j q, c_lf x i = Some j /\ c_psi x i = Some q /\ j < length T /\ q < length T /\
    nth j sa 0 = (nth i sa 0 + length T - 1) mod length T /\ nth q sa 0 = (nth i sa 0 + 1) mod length T /\
    c_psi x j = Some i /\ c_lf x q = Some i.
Proof. exact s_lf_psi. Qed.
Print Assumptions C41_lf_psi_partial.

(** bwt[i] and rank_bwt(i, c); [bwt_spec T sa] lists the symbols in front of the sorted suffixes *)
Theorem C41_bwt_rank_partial : forall k a T sa, kind_ok k -> text_ok T -> is_sa T sa -> (forall c, In c T -> sym_fits a c) ->
  exists x, build k a T sa = Some x /\ construct_bwt T sa = Some (bwt_spec T sa) /\
  (forall i, i < length T -> psi_bwt (c_al x) (c_lf x) i = Some (nth i (bwt_spec T sa) 0)) /\
  (forall i c, i <= length T -> sym_fits a c -> c_rank x i c = Some (count_occ Nat.eq_dec (firstn i (bwt_spec T sa)) c)).
Proof. exact s_bwt. Qed.
Print Assumptions C41_bwt_rank_partial.

(** select_bwt(i, c): the position of the i-th c, or size() *)
Theorem C41_bwt_select_partial : forall k a T sa, kind_ok k -> text_ok T -> is_sa T sa -> (forall c, In c T -> sym_fits a c) ->
  exists x, build k a T sa = Some x /\
  forall i c, 1 <= i -> sym_fits a c ->
  exists p, psi_select_bwt (c_al x) (c_psi x) (c_n x) i c = Some p /\ wt_select_bwt (bwt_spec T sa) (c_al x) i c = Some p /\
  if i <=? count_occ Nat.eq_dec (bwt_spec T sa) c
  then p < length T /\ nth p (bwt_spec T sa) 0 = c /\ count_occ Nat.eq_dec (firstn p (bwt_spec T sa)) c = i - 1 else p = length T.
Proof. exact s_select_bwt. Qed.
Print Assumptions C41_bwt_select_partial.

(** ** C42 *)
(** csa[i] and isa[i], size() *)
Theorem C42_sa_isa_partial : forall k a T sa, kind_ok k -> text_ok T -> is_sa T sa -> (forall c, In c T -> sym_fits a c) ->
  exists x, build k a T sa = Some x /\ c_n x = length T /\
  forall i, i < length T -> c_sa x i = Some (nth i sa 0) /\ c_isa x (nth i sa 0) = Some i.
Proof. exact s_sa_isa. Qed.
Print Assumptions C42_sa_isa_partial.

(** text[i] and extract(csa, b, e), for the lf and the psi variant *)
Theorem C42_text_extract_partial : forall k a T sa, kind_ok k -> text_ok T -> is_sa T sa -> (forall c, In c T -> sym_fits a c) ->
  exists x, build k a T sa = Some x /\ (forall p, p < length T -> text_at x p = Some (nth p T 0)) /\
  forall b e, b <= e < length T -> extract_psi x b e = Some (firstn (e + 1 - b) (skipn b T)) /\
    extract_lf (bwt_spec T sa) x b e = Some (firstn (e + 1 - b) (skipn b T)).
Proof. exact s_extract. Qed.
Print Assumptions C42_text_extract_partial.

(** ** C54 *)
(** [alph_ok M t A]: sigma is the number of distinct symbols; char2comp and comp2char are the ranks of the symbols among
    the distinct ones and back; symbols below M that do not occur map to 0; C[k] counts the smaller symbols of the text *)
Theorem C54_byte_alphabet : forall t, t <> [] -> (forall c, In c t -> c < 256) -> exists A, ba_make t = Some A /\
  al_sigma A = dist t /\ (forall c, In c t -> al_c2c A c = Some (dless t c) /\ al_c2ch A (dless t c) = Some c /\ nth_error (al_C A) (dless t c) = Some (less t c)) /\
  (forall c, c < 256 -> ~ In c t -> al_c2c A c = Some 0) /\ nth_error (al_C A) (dist t) = Some (length t).
Proof. exact ba_ok'. Qed.
Print Assumptions C54_byte_alphabet.

Theorem C54_succinct_byte_alphabet : forall t, t <> [] -> (forall c, In c t -> c < 256) -> exists A, sba_make t = Some A /\
  al_sigma A = dist t /\ (forall c, In c t -> al_c2c A c = Some (dless t c) /\ al_c2ch A (dless t c) = Some c /\ nth_error (al_C A) (dless t c) = Some (less t c)) /\
  (forall c, c < 256 -> ~ In c t -> al_c2c A c = Some 0) /\ nth_error (al_C A) (dist t) = Some (length t).
Proof. exact sba_ok'. Qed.
Print Assumptions C54_succinct_byte_alphabet.

Theorem C54_int_alphabet : forall t, t <> [] -> exists A, ia_make t = Some A /\
  al_sigma A = dist t /\ (forall c, In c t -> al_c2c A c = Some (dless t c) /\ al_c2ch A (dless t c) = Some c /\ nth_error (al_C A) (dless t c) = Some (less t c)) /\
  (forall c, ~ In c t -> al_c2c A c = Some 0) /\ nth_error (al_C A) (dist t) = Some (length t).
Proof. exact ia_ok'. Qed.
Print Assumptions C54_int_alphabet.

(** ** A concrete text: "abracadabra" with b=2, c=3, d=4, r=5 *)
Definition csa_T : list nat := [1; 2; 5; 1; 3; 1; 4; 1; 2; 5; 1; 0].
Definition csa_SA : list nat := [11; 10; 7; 0; 3; 5; 8; 1; 4; 6; 9; 2].
Example csa_demo_text : text_ok csa_T /\ is_sa csa_T csa_SA /\ forall c, In c csa_T -> sym_fits ABYTE c.
Proof.
  split; [|split].
  - exists (firstn 11 csa_T). split; [reflexivity|]. cbn. intuition lia.
  - apply sa_check_ok. vm_compute. reflexivity.
  - intros c C. cbn [sym_fits]. apply Nat.ltb_lt. cbn in C. repeat (destruct C as [<- | C]; [vm_compute; reflexivity|]). tauto.
Qed.
Definition abra : list nat := [1; 2; 5; 1].
Example csa_demo_kinds : kind_ok (KWT (SaOrder 4 3)) /\ kind_ok (KWT (Fuzzy2 3)) /\ kind_ok (KSADA 2 true (TextOrder2 4)) /\ kind_ok KBC.
Proof. cbn. lia. Qed.
Example csa_demo_runs :
  forall k, In k [KWT (SaOrder 4 3); KWT (TextOrder 3 2); KWT (Fuzzy2 3); KSADA 2 true (TextOrder2 4); KSADA 3 false (SaOrder 5 5); KBC] ->
  exists x, build k ABYTE csa_T csa_SA = Some x /\ count x abra = Some 2 /\ locate x abra = Some [7; 0] /\
    bsearch x 0 12 abra = Some (2, 4) /\ forward_search x 0 12 abra = Some (2, 4) /\ extract_psi x 2 6 = Some [5; 1; 3; 1; 4].
Proof.
  intros k I. repeat (destruct I as [<- | I]; [eexists; split; [cbv [build]; reflexivity || (vm_compute; reflexivity)|vm_compute; auto 10]|]). destruct I.
Qed.
Example csa_demo_alph : dist csa_T = 6 /\ dless csa_T 5 = 5 /\ less csa_T 5 = 10.
Proof. vm_compute. auto. Qed.

(** ** Findings *)
(** a 0 in the interior of the pattern matches cyclically: count("\0a") is 1 although it does not occur *)
Theorem C40_interior_zero_refuted : exists x P, build KBC ABYTE csa_T csa_SA = Some x /\ count x P = Some 1 /\ occs csa_T P = [].
Proof. eexists _, [0; 1]. split; [vm_compute; reflexivity|]. split; vm_compute; reflexivity. Qed.
Print Assumptions C40_interior_zero_refuted.

(** forward_search does not find a pattern that contains the terminating 0, backward_search does *)
Theorem C40_forward_zero_refuted : exists x P, build KBC ABYTE csa_T csa_SA = Some x /\ occs csa_T P = [9] /\
  bsearch x 0 12 P = Some (10, 11) /\ exists l, forward_search x 0 12 P = Some (l, l).
Proof. eexists _, [5; 1; 0]. split; [vm_compute; reflexivity|]. split; [vm_compute; reflexivity|]. split; [vm_compute; reflexivity|]. eexists. vm_compute. reflexivity. Qed.
Print Assumptions C40_forward_zero_refuted.

(** the bwt sampling strategy (density 2, no extra sample characters) stores SA values but multiplies them by the density *)
Theorem C42_bwt_sampling_refuted : exists b al m v i p, construct_bwt csa_T csa_SA = Some b /\ ba_make b = Some al /\
  bws_loop 2 [] csa_SA b = Some (m, v) /\ i < length csa_T /\
  c_sa (csa_wt b al (bws_smp 2 m v) (iss_ismp 1 csa_SA)) i = Some p /\ p <> nth i csa_SA 0.
Proof.
  do 4 eexists. exists 1. eexists. split; [vm_compute; reflexivity|]. split; [vm_compute; reflexivity|]. split; [vm_compute; reflexivity|].
  split; [vm_compute; lia|]. split; [vm_compute; reflexivity|]. vm_compute. discriminate.
Qed.
Print Assumptions C42_bwt_sampling_refuted.

(** csa_sada with the fuzzy ISA sampling: the sample returned for position 0 lies behind it, the difference wraps *)
Theorem C42_sada_fuzzy_refuted : exists T sa x i, text_ok T /\ is_sa T sa /\ build (KSADA 2 true (Fuzzy2 2)) ABYTE T sa = Some x /\ i < length T /\ c_isa x i = None.
Proof.
  exists [2; 1; 1; 2; 1; 0], [5; 4; 1; 2; 3; 0]. eexists. exists 0. split. { exists [2; 1; 1; 2; 1]. split; [reflexivity|]. cbn. intuition lia. }
  split. { apply sa_check_ok. vm_compute. reflexivity. } split; [vm_compute; reflexivity|]. split; [vm_compute; lia|]. vm_compute. reflexivity.
Qed.
Print Assumptions C42_sada_fuzzy_refuted.
