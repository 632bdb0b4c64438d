(** * C44, C45: range minimum queries on parentheses and rmq_succinct_sct *)
From Coq Require Import NArith ZArith List Bool Arith Lia.
From Verif Require Import Base SpecBp SpecBpRmq SpecRmq Bp BpRmq BpProofs3 BpProofs5 BpRmqProofs BpRmqProofs4 BpRmqProofs6 BpRmqProofs7.
Import ListNotations.
Open Scope nat_scope.

(** rmq(l, r) returns the last position of the smallest excess in l..r, for every sequence, balanced or not *)
Theorem C44_rmq : forall g B deg bp l r, B mod 8 = 0 -> 0 < B -> 2 <= deg -> l <= r < length bp ->
  exists t p, bp_make B deg bp = Some t /\ bp_rmq g B deg bp t l r = Some p /\ last_min bp l r p.
Proof.
  intros g B deg bp l r HB HB0 Hd L. destruct (make_ok g B deg bp HB0 ltac:(lia) (not_nil bp r ltac:(lia))) as (t & h & T & _).
  destruct (rmq_spec_ok g B deg HB HB0 Hd bp t T l r L) as (p & E & H). eauto.
Qed.
Print Assumptions C44_rmq.

(** rmq_open(l, r) returns the leftmost opening parenthesis in [l, r) that is closed at r or later *)
Theorem C44_rmq_open : forall g B deg bp l r, B mod 8 = 0 -> 0 < B -> 2 <= deg -> balanced bp -> l < r < length bp ->
  exists t k, bp_make B deg bp = Some t /\ rmq_open g B deg bp t l r = Some k /\ least_or (spans bp l r) (length bp) k.
Proof.
  intros g B deg bp l r HB HB0 Hd BAL L. destruct (make_ok g B deg bp HB0 ltac:(lia) (not_nil bp r ltac:(lia))) as (t & h & T & _).
  destruct (rmq_open_ok g B deg HB HB0 Hd bp BAL t T l r L) as (p & E & H). eauto.
Qed.
Print Assumptions C44_rmq_open.

(** rr_enclose(i, j) returns the leftmost opening parenthesis between the partner of i and j whose pair encloses j *)
Theorem C44_rr_enclose : forall g B deg bp i mi j, B mod 8 = 0 -> 0 < B -> 2 <= deg -> balanced bp -> matches bp i mi -> mi < j < length bp -> nth j bp false = true ->
  exists t k, bp_make B deg bp = Some t /\ rr_enclose g B deg bp t i j = Some k /\ least_or (rr_spec bp mi j) (length bp) k.
Proof.
  intros g B deg bp i mi j HB HB0 Hd BAL M L F. destruct (make_ok g B deg bp HB0 ltac:(lia) (not_nil bp j ltac:(lia))) as (t & h & T & _).
  destruct (rr_enclose_ok g B deg HB HB0 Hd bp BAL t T i mi j M L ltac:(rewrite f_in by lia; exact F)) as (p & E & H). eauto.
Qed.
Print Assumptions C44_rr_enclose.

(** double_enclose(i, j) returns the innermost pair around both i and j *)
Theorem C44_double_enclose : forall g B deg bp i mi j, B mod 8 = 0 -> 0 < B -> 2 <= deg -> balanced bp -> matches bp i mi -> mi < j < length bp -> nth j bp false = true ->
  exists t k, bp_make B deg bp = Some t /\ double_enclose g B deg bp t i j = Some k /\ largest_or (both bp i j) (length bp) k.
Proof.
  intros g B deg bp i mi j HB HB0 Hd BAL M L F. destruct (make_ok g B deg bp HB0 ltac:(lia) (not_nil bp j ltac:(lia))) as (t & h & T & _).
  destruct (double_enclose_ok g B deg HB HB0 Hd bp BAL t T i mi j M L ltac:(rewrite f_in by lia; exact F)) as (p & E & H). eauto.
Qed.
Print Assumptions C44_double_enclose.

(** rmq_succinct_sct answers every query with the leftmost best element *)
Theorem C45_succinct_sct : forall t_min v g B deg, B mod 8 = 0 -> 0 < B -> 2 <= deg -> v <> [] ->
  exists bp t, sct_bp t_min v = Some bp /\ bp_make B deg bp = Some t /\
  forall l r, l <= r < length v -> exists m, sct_query g B deg bp t l r = Some m /\ is_rmq t_min v l r m.
Proof. exact sct_ok. Qed.
Print Assumptions C45_succinct_sct.

(** both constructions build the same balanced sequence of 2n parentheses *)
Theorem C45_sct_constructions : forall t_min v, exists bp, sct_bp t_min v = Some bp /\ sct_bp_simple t_min v = Some bp /\ length bp = 2 * length v /\ balanced bp.
Proof.
  intros tm v. destruct (sct_bp_ok tm v) as (bp & E & H). exists bp. split; auto. split; [rewrite sct_simple_eq; exact E|]. split; [apply H|]. exact (r_bal tm v bp H).
Qed.
Print Assumptions C45_sct_constructions.

(** ** the hypotheses are met: 8-bit small blocks, 2 small blocks per medium block, several levels of the tree *)
Definition demo_v : list N := [5; 3; 8; 3; 9; 1; 7; 2; 6; 4; 4; 1; 8; 2; 9; 7; 3; 5; 8; 6; 0; 9; 2; 7; 7; 3; 6; 1; 4; 8; 5; 2; 9; 3; 7; 6; 8; 4; 5; 9; 6; 7; 8; 3; 9; 5]%N.
Definition demo_q (t_min : bool) (l r : nat) : option nat :=
  match sct_bp t_min demo_v with
  | Some bp => match bp_make 8 2 bp with Some t => sct_query (fun _ => true) 8 2 bp t l r | None => None end
  | None => None
  end.
Example demo_sct_min : map (fun q => demo_q true (fst q) (snd q)) [(0, 45); (0, 19); (2, 45); (21, 45); (28, 45); (32, 44); (6, 6); (1, 3)] =
  [Some 20; Some 5; Some 20; Some 27; Some 31; Some 33; Some 6; Some 1].
Proof. vm_compute. reflexivity. Qed.
Example demo_sct_max : map (fun q => demo_q false (fst q) (snd q)) [(0, 45); (5, 13); (15, 20); (33, 45)] = [Some 4; Some 12; Some 18; Some 39].
Proof. vm_compute. reflexivity. Qed.
Definition demo_bp : list bool := [true; true; true; false; true; true; false; false; false; true; true; false; true; true; false; false; true; false; false; false].
Definition demo_bp_op (f : list bool -> bps -> option nat) : option nat := match bp_make 8 2 demo_bp with Some t => f demo_bp t | None => None end.
Example demo_rr : (demo_bp_op (fun bp t => rr_enclose (fun _ => true) 8 2 bp t 1 13), demo_bp_op (fun bp t => rr_enclose (fun _ => true) 8 2 bp t 1 9),
  demo_bp_op (fun bp t => double_enclose (fun _ => true) 8 2 bp t 2 13), demo_bp_op (fun bp t => double_enclose (fun _ => true) 8 2 bp t 2 5), demo_bp_op (fun bp t => bp_rmq (fun _ => true) 8 2 bp t 2 17)) =
  (Some 9, Some 20, Some 0, Some 1, Some 8).
Proof. vm_compute. reflexivity. Qed.
