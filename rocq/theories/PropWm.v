(** * C33 (and C32 for wm_int): the wavelet matrix of an integer sequence *)
From Coq Require Import NArith List Bool Arith Lia Permutation Sorted.
From Verif Require Import Base SpecWt SpecWtAlg WtInt WmInt WtAlg WmIntProofs4.
Import ListNotations.

(** the constructor succeeds, also for 64-bit symbols; size() and sigma are those of the sequence *)
Theorem C33_build : forall S ml, S <> [] -> wm_dom S ml -> exists w, wm_make S ml = Some w /\ wm_n w = length S /\ wm_sigma w = distinct S.
Proof. exact wm_build. Qed.
Print Assumptions C33_build.
Theorem C33_access : forall S ml w i x, S <> [] -> wm_dom S ml -> wm_make S ml = Some w -> nth_error S i = Some x ->
  wm_access w i = Some x.
Proof. exact wm_access_m. Qed.
Print Assumptions C33_access.
Theorem C33_inverse_select : forall S ml w i x, S <> [] -> wm_dom S ml -> wm_make S ml = Some w -> nth_error S i = Some x ->
  wm_inverse_select w i = Some (occ S x i, x).
Proof. exact wm_inverse_select_m. Qed.
Print Assumptions C33_inverse_select.
(** select(i,c) is the position of the i-th c *)
Theorem C33_select : forall S ml w i c, S <> [] -> wm_dom S ml -> wm_make S ml = Some w -> 1 <= i -> i <= occ S c (length S) ->
  exists p, wm_select w i c = Some p /\ nth_error S p = Some c /\ occ S c p + 1 = i.
Proof. exact wm_select_m. Qed.
Print Assumptions C33_select.
(** rank for every symbol, also those outside the alphabet; missing: symbols of 64 bits (see below) *)
Theorem C33_rank_partial : forall S ml w i c, S <> [] -> wt_dom S ml -> wm_make S ml = Some w -> i <= length S ->
  wm_rank w i c = Some (occ S c i).
Proof. exact wm_rank_m. Qed.
Print Assumptions C33_rank_partial.
(** with 64-bit symbols rank computes 1ULL << 64 *)
Theorem C33_rank_wide_refuted : exists S w i c, S <> [] /\ wm_dom S 0 /\ wm_make S 0 = Some w /\ i <= length S /\ wm_rank w i c = None.
Proof.
  destruct (wm_make [5; 2 ^ 63]%N 0) as [w|] eqn:E; [|vm_compute in E; discriminate].
  exists [5; 2 ^ 63]%N, w, 1, 5%N. split; [discriminate|]. split; [split; [lia|repeat constructor]|]. split; auto. split; [simpl; lia|].
  vm_compute in E. injection E as <-. vm_compute. reflexivity.
Qed.
Print Assumptions C33_rank_wide_refuted.

(** exactly the different symbols of the interval, in increasing order, each with its ranks at i and j *)
Theorem C31_wm_interval_symbols : forall S ml w i j cap, S <> [] -> wm_dom S ml -> wm_make S ml = Some w ->
  i <= j -> j <= length S -> distinct S <= cap ->
  exists r, wm_interval_symbols w i j cap = Some r /\ StronglySorted N.lt (map (fun z => fst (fst z)) r) /\
    (forall c a b, In (c, a, b) r <-> In c (slice S i j) /\ a = occ S c i /\ b = occ S c j).
Proof. exact wm_isym_m. Qed.
Print Assumptions C31_wm_interval_symbols.

(** missing: the single lower value bound vlb = 2^max_level (see below), symbols of 64 bits *)
Theorem C32_wm_range_search_partial : forall S ml w lb rb vlb vrb report, S <> [] -> wt_dom S ml -> wm_make S ml = Some w ->
  (rb < length S \/ rb < lb) -> vlb <> (2 ^ N.of_nat (wm_L w))%N ->
  exists pts, wm_range_search_2d w lb rb vlb vrb report = Some (length (points S lb rb vlb vrb), pts) /\
    (if report then Permutation pts (points S lb rb vlb vrb) else pts = []).
Proof. exact wm_range_search_m. Qed.
Print Assumptions C32_wm_range_search_partial.
(** the same clipping mistake as in wt_int *)
Theorem C32_wm_clip_refuted : exists S w lb rb vlb vrb, wm_dom S 0 /\ wm_make S 0 = Some w /\ rb < length S /\
  points S lb rb vlb vrb = [] /\ wm_range_search_2d w lb rb vlb vrb true = Some (1, [(1, 7%N)]).
Proof.
  destruct (wm_make [3; 7; 2]%N 0) as [w|] eqn:E; [|vm_compute in E; discriminate].
  exists [3; 7; 2]%N, w, 0, 2, 8%N, 9%N. split; [split; [lia|repeat constructor]|]. split; auto. split; [simpl; lia|]. split; auto.
  vm_compute in E. injection E as <-. vm_compute. reflexivity.
Qed.
Print Assumptions C32_wm_clip_refuted.

(** non-vacuity: 70 symbols, 5 levels; and 64-bit symbols *)
Definition wdemo : list N := map (fun i => (N.of_nat i * N.of_nat i) mod 29)%N (seq 0 70).
Example wdemo_dom : wdemo <> [] /\ wt_dom wdemo 0 /\ wm_dom wdemo 7.
Proof. split; [discriminate|]. split; (split; [lia|]); apply Forall_forall; intros x Hx; apply N.ltb_lt; revert x Hx; apply forallb_forall; vm_compute; reflexivity. Qed.
Example wdemo_run : (let* w := wm_make wdemo 0 in
  Some (wm_n w, wm_sigma w, wm_L w, wm_access w 67, wm_rank w 65 16, wm_rank w 3 99, wm_select w 4 16,
    wm_inverse_select w 69, wm_interval_symbols w 3 7 20)) =
  Some (70, 15, 5, Some 23%N, Some 5, Some 0, Some 54, Some (4, 5%N),
    Some [(7%N, 0, 1); (9%N, 0, 1); (16%N, 0, 1); (25%N, 0, 1)]).
Proof. vm_compute. reflexivity. Qed.
Example wdemo_run2 : (let* w := wm_make wdemo 0 in Some (wm_range_search_2d w 10 20 20 28 true)) =
  Some (Some (7, [(14, 22%N); (15, 22%N); (20, 23%N); (13, 24%N); (16, 24%N); (12, 28%N); (17, 28%N)])).
Proof. vm_compute. reflexivity. Qed.
Example wdemo_wide : (let* w := wm_make [5; 2 ^ 63; 5]%N 0 in Some (wm_L w, wm_access w 1, wm_select w 2 5, wm_inverse_select w 2)) =
  Some (64, Some (2 ^ 63)%N, Some 2, Some (1, 5%N)).
Proof. vm_compute. reflexivity. Qed.
