(** * C29: dac_vector<t_b> and dac_vector_dp store the sequence

    A container is a list of 64-bit values.  [covers bs c]: every value of c has its highest set bit below one of the
    level widths bs. *)
From Coq Require Import NArith List Bool Arith Lia.
From Verif Require Import Base Bits SpecBits Dac DacProofs DacProofs2.
Import ListNotations.

(** dac_vector<b>: the constructor stays in bounds, size() is the length, operator[] returns the stored value *)
Theorem C29_dac : forall b c, 1 <= b <= 63 -> Forall is_word c ->
  exists d, dac_make b c = Some d /\ dac_size d = Some (length c) /\
  forall i x, nth_error c i = Some x -> dac_get b d i = Some x.
Proof. exact dac_m. Qed.
Print Assumptions C29_dac.
(** dac_vector_dp with the plan of the optimiser, for every cost type with an infinity: all finite costs stay finite and
    below infinity, and infinite costs improve on nothing.  At most [maxl] levels are made and the size recomputed by
    load() is the length. *)
Theorem C29_dp : forall V (inf zero : V) lt cw (fin : V -> Prop) maxl c,
  fin zero -> (forall v, fin v -> v <> inf) -> (forall b b2 v, fin v -> fin (cw b b2 v) /\ lt (cw b b2 v) inf = true) ->
  (forall b b2 v, lt (cw b b2 inf) v = false) -> 1 <= maxl ->
  exists d, dp_make inf zero lt cw maxl c = Some d /\ p_size d = length c /\ dp_load_size d = length c /\ length (p_data d) <= maxl /\
    forall i x, nth_error c i = Some x -> dp_get d i = Some x.
Proof. exact dp_make_m. Qed.
Print Assumptions C29_dp.
(** whatever plan is chosen, as long as it covers the values *)
Theorem C29_dp_plan : forall bs c, covers bs c -> exists d, dp_build bs c = Some d /\ p_size d = length c /\ dp_load_size d = length c /\
  forall i x, nth_error c i = Some x -> dp_get d i = Some x.
Proof. exact dp_plan_m. Qed.
Print Assumptions C29_dp_plan.

(** ** Concrete cases *)
Definition dac_demo : list N := [5; 300; 0; 70000; 15; 16; 18446744073709551615; 255; 256]%N.
Definition dac_all (b : nat) : list (option N) :=
  match dac_make b dac_demo with Some d => map (dac_get b d) (seq 0 9) | None => [] end.
Example dac_demo_ok : Forall is_word dac_demo /\ dac_all 4 = map Some dac_demo /\ dac_all 1 = map Some dac_demo /\ dac_all 63 = map Some dac_demo.
Proof. split; [repeat constructor; reflexivity|]. vm_compute. auto. Qed.
(** costs: [None] is infinity; a step from b to b2 pays b2 - b bits per value and one bit for the overflow *)
Definition demo_lt (x y : option nat) : bool := match x, y with Some a, Some b => a <? b | Some _, None => true | None, _ => false end.
Definition demo_cw (b b2 : nat) (v : option nat) : option nat := match v with Some x => Some (x + (b2 - b) * (64 - b) + 1) | None => None end.
Example dp_demo_costs : (forall v : option nat, (exists x, v = Some x) -> v <> None) /\
  (forall b b2 v, (exists x, v = Some x) -> (exists x, demo_cw b b2 v = Some x) /\ demo_lt (demo_cw b b2 v) None = true) /\
  (forall b b2 v, demo_lt (demo_cw b b2 None) v = false).
Proof. split; [intros v [x ->]; discriminate|]. split; [intros b b2 v [x ->]; cbn; eauto|]. intros; reflexivity. Qed.
Definition dp_all (d : option dacp) : list (option N) := match d with Some d => map (dp_get d) (seq 0 9) | None => [] end.
Example dp_demo_ok : dp_all (dp_make None (Some 0) demo_lt demo_cw 2 dac_demo) = map Some dac_demo /\
  dp_all (dp_build [3; 9; 20; 64] dac_demo) = map Some dac_demo.
Proof. vm_compute. auto. Qed.
Example dp_demo_covers : covers [3; 9; 20; 64] dac_demo.
Proof.
  assert (A : forallb (fun x => N.to_nat (hi x) <? 64) dac_demo = true) by (vm_compute; reflexivity).
  intros x Hx. exists 64. split; [cbn; auto|]. rewrite forallb_forall in A. apply Nat.ltb_lt, A. auto.
Qed.
