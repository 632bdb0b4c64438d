(** * C31 (quantile_freq) and C53: the queries of wt_algorithm.hpp on wt_int and wm_int *)
From Coq Require Import NArith List Bool Arith Lia Permutation Sorted.
From Verif Require Import Base SpecWt SpecWtAlg WtInt WmInt WtAlg WmIntProofs4.
Import ListNotations.

(** the q-th smallest symbol of S[lb..rb] and how often it is there *)
Theorem C31_quantile_freq : forall p S ml lb rb q, builds p S ml -> lb <= rb -> rb < length S -> q <= rb - lb ->
  exists x, quantile_freq p lb rb q = Some (x, count x (slice S lb (rb + 1))) /\ is_quantile (slice S lb (rb + 1)) q x.
Proof. exact quantile_freq_m. Qed.
Print Assumptions C31_quantile_freq.

(** the greatest symbol <= c and the least symbol >= c *)
Theorem C53_symbol_lte : forall p S ml c, builds p S ml -> wt_dom S ml -> exists r, symbol_lte p c = Some r /\ lte_spec S c r.
Proof. exact symbol_lte_m. Qed.
Print Assumptions C53_symbol_lte.
Theorem C53_symbol_gte : forall p S ml c, builds p S ml -> wt_dom S ml -> exists r, symbol_gte p c = Some r /\ gte_spec S c r.
Proof. exact symbol_gte_m. Qed.
Print Assumptions C53_symbol_gte.
(** the symbols in at least t of the ranges (t = 0: in all of them), with their total frequency *)
Theorem C53_intersect : forall p S ml rs t, builds p S ml -> Forall (rok S) rs ->
  exists out, intersect p rs t = Some out /\ isx_spec S (if t =? 0 then Nat.max 1 (length rs) else t) rs out.
Proof. exact intersect_m. Qed.
Print Assumptions C53_intersect.
(** the different symbols of S[xi..xj] with a value in [yi, yj], in increasing order *)
Theorem C53_restricted_unique_range_values : forall p S ml xi xj yi yj, builds p S ml -> wt_dom S ml ->
  exists out, restricted_unique p xi xj yi yj = Some out /\ StronglySorted N.lt out /\
    forall x, In x out <-> In x (slice S xi (Nat.min xj (length S - 1) + 1)) /\ (yi <= x <= yj)%N.
Proof. exact restricted_unique_m. Qed.
Print Assumptions C53_restricted_unique_range_values.
(** a wavelet matrix with 64-bit symbols: 1ULL << 64 in symbol_lte, symbol_gte and restricted_unique_range_values *)
Theorem C53_wide_refuted : exists p S, builds p S 0 /\ symbol_lte p 6 = None /\ symbol_gte p 6 = None /\ restricted_unique p 0 1 0 9 = None.
Proof.
  destruct (wm_make [5; 2 ^ 63]%N 0) as [w|] eqn:E; [|vm_compute in E; discriminate].
  exists (PMat w), [5; 2 ^ 63]%N. split. { split; [discriminate|]. split; auto. split; [lia|repeat constructor]. }
  vm_compute in E. injection E as <-. vm_compute. auto.
Qed.
Print Assumptions C53_wide_refuted.

(** non-vacuity *)
Definition ademo : list N := map (fun i => 3 + (N.of_nat i * N.of_nat i) mod 29)%N (seq 0 70).
Definition arun (p : ptree) := (quantile_freq p 3 60 20, symbol_lte p 11, symbol_lte p 2, symbol_gte p 11, symbol_gte p 40,
  intersect p [(0, 6); (20, 30); (5, 12)] 2, intersect p [(0, 6); (24, 30)] 0, restricted_unique p 10 16 9 26).
Definition aexp := (Some (10%N, 4), Some (true, 10%N), Some (false, 0%N), Some (true, 12%N), Some (false, 0%N),
  Some [(3%N, 2); (4%N, 2); (7%N, 2); (9%N, 2); (10%N, 2); (12%N, 2); (19%N, 2); (23%N, 2); (26%N, 2); (28%N, 3)],
  Some [(3%N, 2); (4%N, 2); (7%N, 2); (12%N, 2); (19%N, 2); (28%N, 2)], Some [16; 25]%N).
Example ademo_dom : ademo <> [] /\ wt_dom ademo 0 /\ wm_dom ademo 0.
Proof. split; [discriminate|]. split; (split; [lia|]); apply Forall_forall; intros x Hx; apply N.ltb_lt; revert x Hx; apply forallb_forall; vm_compute; reflexivity. Qed.
Example ademo_run : (let* w := wt_make ademo 0 in Some (arun (PInt w))) = Some aexp.
Proof. vm_compute. reflexivity. Qed.
Example ademo_run2 : (let* w := wm_make ademo 0 in Some (arun (PMat w))) = Some aexp.
Proof. vm_compute. reflexivity. Qed.
