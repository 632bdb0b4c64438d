(** * C44: balanced parentheses

    Property (properties.jsonl): find_close, find_open, enclose, excess, rank and select return the positions defined by
    matching in the parentheses sequence.  [matches], [encl], [ancestor]: SpecBp.v; [g] are the bits behind the sequence. *)
From Coq Require Import NArith ZArith List Bool Arith Lia.
From Verif Require Import Base SpecBits AbsVec WtBase WtProofs Bp SpecBp BpProofs BpProofs2 BpProofs3 BpProofs4 BpProofs5.
Import ListNotations.

(** find_close, for every sequence (balanced or not) and every matched pair *)
Theorem C44_find_close : forall g B deg, B mod 8 = 0 -> 0 < B -> 0 < deg -> forall bp i j, matches bp i j ->
  exists t, bp_make B deg bp = Some t /\ find_close g B deg bp t i = Some j /\ find_close g B deg bp t j = Some j.
Proof. exact find_close_ok. Qed.
Print Assumptions C44_find_close.

(** find_open; a medium block needs at least two small blocks *)
Theorem C44_find_open : forall g B deg, B mod 8 = 0 -> 0 < B -> 2 <= deg -> forall bp i j, matches bp i j ->
  exists t, bp_make B deg bp = Some t /\ find_open g B deg bp t j = Some i /\ find_open g B deg bp t i = Some i.
Proof. exact find_open_ok. Qed.
Print Assumptions C44_find_open.

(** enclose of an opening parenthesis: the closest enclosing pair *)
Theorem C44_enclose : forall g B deg, B mod 8 = 0 -> 0 < B -> 2 <= deg -> forall bp i k, nth i bp false = true -> encl bp k i ->
  exists t, bp_make B deg bp = Some t /\ enclose g B deg bp t i = Some k.
Proof. exact enclose_ok. Qed.
Print Assumptions C44_enclose.

(** ... and size() if there is none *)
Theorem C44_enclose_root : forall g B deg, B mod 8 = 0 -> 0 < B -> 2 <= deg -> forall bp i, balanced bp -> nth i bp false = true -> (forall k, ~ around bp k i) ->
  exists t, bp_make B deg bp = Some t /\ enclose g B deg bp t i = Some (length bp).
Proof. exact enclose_none. Qed.
Print Assumptions C44_enclose_root.

(** level_anc(i, d) goes up d levels.  Missing (and false): i = 0 *)
Theorem C44_level_anc_partial : forall g B deg, B mod 8 = 0 -> 0 < B -> 2 <= deg -> forall bp i d j, 0 < i -> nth i bp false = true -> ancestor bp i d j ->
  exists t, bp_make B deg bp = Some t /\ level_anc g B deg bp t i d = Some j.
Proof. exact level_anc_ok. Qed.
Print Assumptions C44_level_anc_partial.

(** excess(i) is the number of opening minus the number of closing parentheses up to i *)
Theorem C44_excess : forall bp i, i < length bp -> exc bp (i + 1) =
  Some (Z.of_nat (length (filter (fun b => b) (firstn (i + 1) bp))) - Z.of_nat (length (filter negb (firstn (i + 1) bp))))%Z.
Proof. exact excess_count. Qed.
Print Assumptions C44_excess.

(** in a balanced sequence every position has exactly one partner, so the theorems above cover every query *)
Theorem C44_partner : forall bp i, balanced bp -> i < length bp -> exists j, (if nth i bp false then matches bp i j else matches bp j i) /\ forall j', matches bp i j -> matches bp i j' -> j' = j.
Proof. exact partner. Qed.
Print Assumptions C44_partner.

(** ** What does not hold *)
(** t_med_deg = 1: find_open of a closing parenthesis whose partner is in the first block *)
Definition bp1 : list bool := map (Nat.eqb 1) [1;0;1;0;1;0;1;1; 1;0;1;0;1;0;1;0; 1;0;0;0].
Theorem C44_deg1_refuted : exists bp i j t, balanced bp /\ matches bp i j /\ bp_make 8 1 bp = Some t /\ forall g, exists k, find_open g 8 1 bp t j = Some k /\ k <> i.
Proof.
  exists bp1, 6, 19. eexists. split.
  { apply (ex_balanced 20); [vm_compute; lia|vm_compute; reflexivity|]. intros k K. do 21 (destruct k as [|k]; [vm_compute; discriminate|]). exfalso. cbn in K. lia. }
  split.
  { apply (ex_match (fun _ => false)); [split; [lia|apply Nat.ltb_lt; reflexivity]|reflexivity|reflexivity|]. intros k K. do 20 (destruct k as [|k]; [try lia; vm_compute; reflexivity|]). lia. }
  split; [vm_compute; reflexivity|]. intros g. exists 0. split; [vm_compute; reflexivity|lia].
Qed.
Print Assumptions C44_deg1_refuted.

(** a block size that is not a multiple of 8 *)
Theorem C44_block_refuted : exists bp i j t, balanced bp /\ matches bp i j /\ bp_make 12 2 bp = Some t /\ exists g, find_open g 12 2 bp t j <> Some i.
Proof.
  exists (repeat true 16 ++ repeat false 16), 14, 17. eexists. split.
  { apply (ex_balanced 32); [vm_compute; lia|vm_compute; reflexivity|]. intros k K. do 33 (destruct k as [|k]; [vm_compute; discriminate|]). exfalso. cbn in K. lia. }
  split.
  { apply (ex_match (fun _ => false)); [split; [lia|apply Nat.ltb_lt; reflexivity]|reflexivity|reflexivity|]. intros k K. do 18 (destruct k as [|k]; [try lia; vm_compute; reflexivity|]). lia. }
  split; [vm_compute; reflexivity|]. exists (fun _ => false). vm_compute. discriminate.
Qed.
Print Assumptions C44_block_refuted.

(** level_anc(0, 0) is size() instead of 0 *)
Theorem C44_level_anc_refuted : exists t, bp_make 8 2 [true; false] = Some t /\ forall g, level_anc g 8 2 [true; false] t 0 0 = Some 2.
Proof. eexists. split; [vm_compute; reflexivity|]. intros g. reflexivity. Qed.
Print Assumptions C44_level_anc_refuted.

(** an unmatched parenthesis: find_close reads behind the sequence and returns a position there, or reads the tree out of
    bounds, instead of returning size(); find_open of a closing parenthesis at 0 returns 0 *)
Theorem C44_unmatched_refuted :
  (exists t, bp_make 8 2 [true; true] = Some t /\ find_close (fun _ => false) 8 2 [true; true] t 0 = Some 3) /\
  (exists bp t, length bp = 24 /\ bp_make 8 1 bp = Some t /\ forall g, find_close g 8 1 bp t 22 = None) /\
  (exists t, bp_make 8 2 [false] = Some t /\ forall g, find_open g 8 2 [false] t 0 = Some 0).
Proof.
  split; [eexists; split; vm_compute; reflexivity|]. split.
  - exists (map (Nat.eqb 1) [1;0;1;0;1;0;1;0; 1;0;1;0;1;0;1;0; 1;0;1;0;1;0;1;1]). eexists. split; [reflexivity|]. split; [vm_compute; reflexivity|]. intros g. vm_compute. reflexivity.
  - eexists. split; [vm_compute; reflexivity|]. intros g. reflexivity.
Qed.
Print Assumptions C44_unmatched_refuted.

(** a sequence of 40 parentheses over several blocks: the hypotheses hold and the queries can be computed *)
Definition bp2 : list bool := [true; true] ++ repeat true 17 ++ repeat false 17 ++ [true; false; false; false].
Example C44_example : exists t, bp_make 8 2 bp2 = Some t /\ matches bp2 1 38 /\ find_close (fun _ => false) 8 2 bp2 t 1 = Some 38 /\ find_open (fun _ => true) 8 2 bp2 t 38 = Some 1 /\ enclose (fun _ => true) 8 2 bp2 t 36 = Some 1.
Proof.
  eexists. split; [vm_compute; reflexivity|]. split; [|split; [vm_compute; reflexivity|split; vm_compute; reflexivity]].
  apply (ex_match (fun _ => false)); [split; [lia|apply Nat.ltb_lt; reflexivity]|reflexivity|reflexivity|]. intros k K. do 39 (destruct k as [|k]; [try lia; vm_compute; reflexivity|]). lia.
Qed.
