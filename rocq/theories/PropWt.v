(** * C30, C31, C32: the wavelet tree of an integer sequence *)
From Coq Require Import NArith List Bool Arith Lia Permutation Sorted.
From Verif Require Import Base SpecWt WtInt WtIntProofs6.
Import ListNotations.

(** ** C30: construction, operator[], rank, select, inverse_select *)
(** the constructor succeeds; size() and sigma are those of the sequence *)
Theorem C30_build : forall S ml, S <> [] -> wt_dom S ml -> exists w, wt_make S ml = Some w /\ wt_n w = length S /\ wt_sigma w = distinct S.
Proof. exact build. Qed.
Print Assumptions C30_build.
Theorem C30_access : forall S ml w i x, S <> [] -> wt_dom S ml -> wt_make S ml = Some w -> nth_error S i = Some x ->
  wt_access w i = Some x.
Proof. exact access. Qed.
Print Assumptions C30_access.
(** rank for every symbol, also those outside the alphabet *)
Theorem C30_rank : forall S ml w i c, S <> [] -> wt_dom S ml -> wt_make S ml = Some w -> i <= length S ->
  wt_rank w i c = Some (occ S c i).
Proof. exact rank. Qed.
Print Assumptions C30_rank.
Theorem C30_inverse_select : forall S ml w i x, S <> [] -> wt_dom S ml -> wt_make S ml = Some w -> nth_error S i = Some x ->
  wt_inverse_select w i = Some (occ S x i, x).
Proof. exact inverse_select. Qed.
Print Assumptions C30_inverse_select.
(** select(i,c) is the position of the i-th c: S[p] = c and i-1 symbols c precede it *)
Theorem C30_select : forall S ml w i c, S <> [] -> wt_dom S ml -> wt_make S ml = Some w -> 1 <= i -> i <= occ S c (length S) ->
  exists p, wt_select w i c = Some (SPos p) /\ nth_error S p = Some c /\ occ S c p + 1 = i.
Proof. exact select. Qed.
Print Assumptions C30_select.
(** ... and there is an exception if there are fewer than i *)
Theorem C30_select_throws : forall S ml w i c, S <> [] -> wt_dom S ml -> wt_make S ml = Some w ->
  (c < 2 ^ N.of_nat (wt_L w))%N -> occ S c (length S) < i -> wt_select w i c = Some SThrow.
Proof. exact select_throw. Qed.
Print Assumptions C30_select_throws.

(** a 64-bit symbol: the constructor computes 1ULL << 64 *)
Theorem C30_wide_symbol_refuted : exists S, S <> [] /\ Forall (fun x => (x < W64)%N) S /\ wt_make S 0 = None.
Proof. exists [5%N; (2 ^ 63)%N]. split; [discriminate|]. split; [repeat constructor|]. vm_compute. reflexivity. Qed.
Print Assumptions C30_wide_symbol_refuted.

(** ** C31: order queries on S[i..j-1] *)
Theorem C31_lex_count : forall S ml w i j c, S <> [] -> wt_dom S ml -> wt_make S ml = Some w -> i <= j -> j <= length S ->
  wt_lex_count w i j c = Some (occ S c i, smaller c (slice S i j), greater c (slice S i j)).
Proof. exact lex_count. Qed.
Print Assumptions C31_lex_count.
Theorem C31_lex_smaller_count : forall S ml w i c, S <> [] -> wt_dom S ml -> wt_make S ml = Some w -> i <= length S ->
  wt_lex_smaller_count w i c = Some (occ S c i, smaller c (slice S 0 i)).
Proof. exact lex_smaller_count. Qed.
Print Assumptions C31_lex_smaller_count.
(** exactly the different symbols of the interval, in increasing order, each with its ranks at i and j *)
Theorem C31_interval_symbols : forall S ml w i j cap, S <> [] -> wt_dom S ml -> wt_make S ml = Some w ->
  i <= j -> j <= length S -> distinct S <= cap ->
  exists r, wt_interval_symbols w i j cap = Some r /\ StronglySorted N.lt (map (fun z => fst (fst z)) r) /\
    (forall c a b, In (c, a, b) r <-> In c (slice S i j) /\ a = occ S c i /\ b = occ S c j).
Proof. exact interval_symbols. Qed.
Print Assumptions C31_interval_symbols.

(** ** C32: range_search_2d *)
(** missing: the single lower value bound vlb = 2^max_level (see below) *)
Theorem C32_range_search_partial : forall S ml w lb rb vlb vrb report, S <> [] -> wt_dom S ml -> wt_make S ml = Some w ->
  (rb < length S \/ rb < lb) -> vlb <> (2 ^ N.of_nat (wt_L w))%N ->
  exists pts, wt_range_search_2d w lb rb vlb vrb report = Some (length (points S lb rb vlb vrb), pts) /\
    (if report then Permutation pts (points S lb rb vlb vrb) else pts = []).
Proof. exact range_search. Qed.
Print Assumptions C32_range_search_partial.
(** vrb is clipped to 2^max_level instead of 2^max_level - 1: the query [2^max_level, ...] reports symbols below it *)
Theorem C32_clip_refuted : exists S w lb rb vlb vrb, wt_dom S 0 /\ wt_make S 0 = Some w /\ rb < length S /\
  points S lb rb vlb vrb = [] /\ wt_range_search_2d w lb rb vlb vrb true = Some (1, [(1, 7%N)]).
Proof.
  destruct (wt_make [3; 7; 2]%N 0) as [w|] eqn:E; [|vm_compute in E; discriminate].
  exists [3; 7; 2]%N, w, 0, 2, 8%N, 9%N. split; [split; [lia|repeat constructor]|]. split; auto. split; [simpl; lia|]. split; auto.
  vm_compute in E. injection E as <-. vm_compute. reflexivity.
Qed.
Print Assumptions C32_clip_refuted.

(** non-vacuity: 70 symbols (more than one word of tree bits), 5 levels *)
Definition demo : list N := map (fun i => (N.of_nat i * N.of_nat i) mod 29)%N (seq 0 70).
Example demo_dom : demo <> [] /\ wt_dom demo 0 /\ wt_dom demo 7.
Proof. split; [discriminate|]. split; (split; [lia|]); apply Forall_forall; intros x Hx; apply N.ltb_lt; revert x Hx; apply forallb_forall; vm_compute; reflexivity. Qed.
Example demo_run : (let* w := wt_make demo 0 in
  Some (wt_n w, wt_sigma w, wt_L w, wt_access w 67, wt_rank w 65 16, wt_rank w 3 99, wt_select w 4 16, wt_select w 40 16,
    wt_inverse_select w 69, wt_lex_count w 3 60 16)) =
  Some (70, 15, 5, Some 23%N, Some 5, Some 0, Some (SPos 54), Some SThrow, Some (4, 5%N), Some (0, 29, 24)).
Proof. vm_compute. reflexivity. Qed.
Example demo_run2 : (let* w := wt_make demo 0 in
  Some (wt_interval_symbols w 3 7 20, wt_range_search_2d w 10 20 20 28 true, wt_range_search_2d w 10 20 32 31 true)) =
  Some (Some [(7%N, 0, 1); (9%N, 0, 1); (16%N, 0, 1); (25%N, 0, 1)],
    Some (7, [(14, 22%N); (15, 22%N); (20, 23%N); (13, 24%N); (16, 24%N); (12, 28%N); (17, 28%N)]), Some (0, [])).
Proof. vm_compute. reflexivity. Qed.
