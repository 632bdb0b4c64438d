(** * C43, C55: LCP arrays

    [text_ok T]: the text ends with its only 0 byte; [is_sa T sa]: [sa] is the suffix array of [T] (SpecCsa.v);
    [is_lcp T sa L]: [L] holds the longest common prefix lengths of neighbouring suffixes (SpecLcp.v).  [w] is the width
    of the suffix array file, which construct_sa sets to bits::hi(n)+1, so that 2^w is at least the text length. *)
From Coq Require Import List Bool Arith NArith Lia.
From Verif Require Import Base SpecBits SpecCsa SpecWt SpecLcp WtPc CsaSample CsaProofs6 Lcp LcpProofs LcpRep.
Import ListNotations.

(** construct() for byte alphabets *)
Theorem C43_semi_extern_PHI : forall T sa w, text_ok T -> is_sa T sa -> length T <= 2 ^ w -> exists L, lcp_semi T sa w = Some L /\ is_lcp T sa L.
Proof. intros T sa w H S W. eexists. split; [exact (semi_ok T sa H S w W)|exact (LC_is T sa H S w W)]. Qed.
Print Assumptions C43_semi_extern_PHI.
(** construct() for integer alphabets *)
Theorem C43_PHI : forall T sa w, text_ok T -> is_sa T sa -> length T <= 2 ^ w -> exists L, lcp_PHI T sa w = Some L /\ is_lcp T sa L.
Proof. intros T sa w H S W. eexists. split; [exact (phi_ok T sa H S w W)|exact (LC_is T sa H S w W)]. Qed.
Print Assumptions C43_PHI.
Theorem C43_kasai : forall T sa w, text_ok T -> is_sa T sa -> length T <= 2 ^ w -> exists L, lcp_kasai T sa w = Some L /\ is_lcp T sa L.
Proof. intros T sa w H S W. eexists. split; [exact (kasai_ok T sa H S w W)|exact (LC_is T sa H S w W)]. Qed.
Print Assumptions C43_kasai.

(** lcp_support_sada: built from the inverse suffix array and the LCP array, then asked with the suffix array *)
Theorem C55_lcp_support_sada : forall T sa, text_ok T -> is_sa T sa -> forall L, is_lcp T sa L -> exists data isa,
  construct_isa sa = Some isa /\ sada_make isa L = Some data /\
  forall i, i < length T -> sada_at (fun i => nth_error sa i) data i = Some (nth i L 0).
Proof. exact sada_ok. Qed.
Print Assumptions C55_lcp_support_sada.
(** lcp_byte: any list of values, small and large *)
Theorem C55_lcp_byte : forall L i l, nth_error L i = Some l -> lb_at (lb_make L) i = Some l.
Proof. exact lb_ok. Qed.
Print Assumptions C55_lcp_byte.
(** lcp_wt: whenever the constructor returns; it has no undefined behaviour, and it cannot throw with at most 57
    different small values *)
Theorem C55_lcp_wt : forall L v i l, lw_make L = Some (Ok v) -> nth_error L i = Some l -> lw_at v i = Some l.
Proof. exact lw_ok. Qed.
Print Assumptions C55_lcp_wt.
Theorem C55_lcp_wt_build : forall L, L <> [] -> lw_make L <> None /\
  (distinct (map (fun l => N.of_nat (Nat.min l 255)) L) <= 57 -> exists v, lw_make L = Some (Ok v)).
Proof. exact lw_build. Qed.
Print Assumptions C55_lcp_wt_build.

(** abracadabra$ *)
Definition lcp_T := [1;2;5;1;3;1;4;1;2;5;1;0].
Definition lcp_sa := [11;10;7;0;3;5;8;1;4;6;9;2].
Definition lcp_L := [0;0;1;4;1;1;0;3;0;0;0;2].
Example C43_demo : lcp_semi lcp_T lcp_sa 4 = Some lcp_L /\ lcp_PHI lcp_T lcp_sa 4 = Some lcp_L /\ lcp_kasai lcp_T lcp_sa 4 = Some lcp_L.
Proof. vm_compute. auto. Qed.
Example C43_demo_hyp : text_ok lcp_T /\ is_sa lcp_T lcp_sa /\ length lcp_T <= 2 ^ 4 /\ is_lcp lcp_T lcp_sa lcp_L.
Proof.
  assert (TK : text_ok lcp_T). { exists (firstn 11 lcp_T). split; [reflexivity|]. cbn. intuition lia. }
  assert (SA : is_sa lcp_T lcp_sa) by (apply sa_check_ok; vm_compute; reflexivity).
  split; auto. split; auto. split; [cbn; lia|]. destruct (C43_PHI lcp_T lcp_sa 4 TK SA ltac:(cbn; lia)) as (L & E & H). replace (lcp_PHI lcp_T lcp_sa 4) with (Some lcp_L) in E by (vm_compute; auto). injection E as <-. auto.
Qed.
(** a text longer than one sample of the semi external algorithm: 70 times the same letter *)
Example C43_demo_long : lcp_semi (repeat 1 70 ++ [0]) (rev (seq 0 71)) 7 = Some (0 :: seq 0 70).
Proof. vm_compute. reflexivity. Qed.
Example C55_demo : exists data isa, construct_isa lcp_sa = Some isa /\ sada_make isa lcp_L = Some data /\ sada_at (fun i => nth_error lcp_sa i) data 3 = Some 4.
Proof. eexists. eexists. split; [vm_compute; reflexivity|]. split; vm_compute; reflexivity. Qed.
Definition lcp_big := [0; 3; 254; 255; 7; 256; 1000; 255; 3].
Example C55_demo_byte : map (fun i => lb_at (lb_make lcp_big) i) (seq 0 9) = map Some lcp_big.
Proof. vm_compute. reflexivity. Qed.
Example C55_demo_wt : exists v, lw_make lcp_big = Some (Ok v) /\ map (fun i => lw_at v i) (seq 0 9) = map Some lcp_big.
Proof. eexists. split; [vm_compute; reflexivity|]. vm_compute. reflexivity. Qed.
