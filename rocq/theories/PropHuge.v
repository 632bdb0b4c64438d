(** * C39: the hugepage allocator keeps live allocations apart and intact, for every history

    Property (properties.jsonl): live allocations never overlap and stay inside the arena; alloc, free and realloc leave
    the contents of all other live allocations unchanged; realloc carries over the common prefix; freed memory can be
    allocated again. *)
From Coq Require Import NArith List Bool Arith Lia.
From Verif Require Import Base Hugepage SpecHuge HugepageProofs4.
Import ListNotations.

(** after any history, no two live allocations share a word and all are inside the arena *)
Theorem C39_disjoint : forall h live, reach h live ->
  ForallOrdPairs apart live /\ Forall (fun a => 1 <= fst a /\ fst a + words (snd a) <= length (h_mem h)) live.
Proof. exact (fun h l R => rel_apart h l (reach_rel h l R)). Qed.
Print Assumptions C39_disjoint.

(** alloc is defined in every reachable state for every size below 2^62 that is not 1 modulo 8, changes no live contents,
    and reports ENOMEM only when the unused end of the arena is smaller than the request plus overhead.
    Missing (and false): sizes 1 modulo 8, sizes close to 2^64. *)
Theorem C39_alloc_partial : forall h live n, reach h live -> req n ->
  match mm_alloc h n with
  | Ok (p, h') => reach h' ((p, n) :: live) /\ Forall (same_data (h_mem h) (h_mem h')) live
  | Nomem => (h_tot h < 8 * N.of_nat (h_top h) + N.max 32 (n + 23))%N
  | Ub => False
  end.
Proof. exact alloc_reach. Qed.
Print Assumptions C39_alloc_partial.

(** free of a live pointer is always defined and changes no other live contents; afterwards any request that is not larger
    is served without growing the used part of the arena *)
Theorem C39_free : forall h l1 l2 p n, reach h (l1 ++ (p, n) :: l2) ->
  exists h', mm_free h p = Some h' /\ reach h' (l1 ++ l2) /\ Forall (same_data (h_mem h) (h_mem h')) (l1 ++ l2) /\ h_top h' = h_top h /\
    forall n', req n' -> (n' <= n)%N -> exists p' h'', mm_alloc h' n' = Ok (p', h'') /\ h_top h'' = h_top h.
Proof. exact free_reach. Qed.
Print Assumptions C39_free.

(** realloc of a live pointer (memcpy read as a byte-wise copy): contents up to the smaller size are carried over, no other
    live contents change.  Missing (and false): with the standard's rule that memcpy's regions may not overlap the call can
    be undefined ([strict = true]). *)
Theorem C39_realloc_partial : forall strict g h l1 l2 p n n', reach h (l1 ++ (p, n) :: l2) -> req n' -> (1 <= n')%N ->
  match mm_realloc strict g h (Some p) n' with
  | Ok (Some p', h') => reach h' ((p', n') :: l1 ++ l2) /\ Forall (same_data (h_mem h) (h_mem h')) (l1 ++ l2) /\
      forall i, i < words n -> i < words n' -> nth_error (h_mem h') (p' + i) = nth_error (h_mem h) (p + i)
  | Ok (None, _) => False
  | Nomem => True
  | Ub => strict = true
  end.
Proof. exact realloc_reach. Qed.
Print Assumptions C39_realloc_partial.

(** once everything is freed, all the memory ever used is available again as one block *)
Theorem C39_reuse : forall h n, reach h [] -> req n -> (n + 16 <= 8 * N.of_nat (h_top h))%N -> exists p h', mm_alloc h n = Ok (p, h') /\ h_top h' = h_top h.
Proof. exact (fun h n R => rel_empty h n (reach_rel h [] R)). Qed.
Print Assumptions C39_reuse.

(** ** Where the full statement fails *)
Definition demo_heap : hp := hp_init (repeat 0%N 64).
Definition alloc_s (h : hp) n : nat * hp := match mm_alloc h n with Ok r => r | _ => (0, h) end.
Definition free_s (h : hp) p : hp := match mm_free h p with Some h' => h' | None => h end.

(** a request of 17 bytes is served with a freed 16-byte block: writing 255 to its 17th byte replaces the low byte of the
    footer (32) and the next free of the neighbour reads outside the arena *)
Definition short_h1 := alloc_s demo_heap 16.
Definition short_h2 := alloc_s (snd short_h1) 16.
Definition short_h3 := free_s (snd short_h2) (fst short_h1).
Definition short_h4 := alloc_s short_h3 17.
Theorem C39_short_refuted : mm_alloc short_h3 17 = Ok short_h4 /\ 2 < words 17 /\
  exists m, st (h_mem (snd short_h4)) (fst short_h4 + 2) 255 = Some m /\ mm_free (h_setmem (snd short_h4) m) (fst short_h2) = None.
Proof. split; [vm_compute; reflexivity|]. split; [apply Nat.ltb_lt; vm_compute; reflexivity|]. eexists. split; vm_compute; reflexivity. Qed.
Print Assumptions C39_short_refuted.

(** growing a 16-byte allocation to 100 bytes calls memcpy with the new size: source and destination overlap *)
Theorem C39_realloc_memcpy_refuted : reach (snd short_h2) [(fst short_h2, 16%N); (fst short_h1, 16%N)] /\ forall g, mm_realloc true g (snd short_h2) (Some (fst short_h1)) 100 = Ub.
Proof.
  split; [|intros; vm_compute; reflexivity]. apply (r_alloc (snd short_h1)); [apply (r_alloc demo_heap); [apply r_init; reflexivity| |]| |]; try (split; [reflexivity|discriminate]); vm_compute; reflexivity.
Qed.
Print Assumptions C39_realloc_memcpy_refuted.

(** a request of 2^64 - 16 bytes succeeds and gets a 32-byte block *)
Theorem C39_huge_refuted : exists p h', mm_alloc demo_heap (2 ^ 64 - 16) = Ok (p, h') /\ h_top h' = 4.
Proof. eexists. eexists. split; vm_compute; reflexivity. Qed.
Print Assumptions C39_huge_refuted.

(** ** A concrete history: three allocations, a free, a realloc that moves down into the hole *)
Definition ex1 := alloc_s demo_heap 40.
Definition ex2 := alloc_s (snd ex1) 24.
Definition ex3 := alloc_s (snd ex2) 8.
Definition ex4 := free_s (snd ex3) (fst ex1).
Definition ex5 := match mm_realloc true (fun _ => 0%N) ex4 (Some (fst ex2)) 48 with Ok (Some p, h) => (p, h) | _ => (0, ex4) end.
Example C39_example : reach (snd ex5) ([(fst ex5, 48%N)] ++ [(fst ex3, 8%N)]) /\ fst ex5 = fst ex1 /\ h_top (snd ex5) = h_top (snd ex3).
Proof.
  assert (Q : forall n, (n < 2 ^ 62)%N -> (n mod 8 =? 1)%N = false -> req n) by (intros n H E; split; auto; apply N.eqb_neq; auto).
  split; [|split; vm_compute; reflexivity].
  apply (r_realloc true (fun _ => 0%N) ex4 [(fst ex3, 8%N)] [] (fst ex2) 24); [|apply Q; reflexivity|discriminate|vm_compute; reflexivity].
  apply (r_free (snd ex3) [(fst ex3, 8%N); (fst ex2, 24%N)] [] (fst ex1) 40); [|vm_compute; reflexivity].
  apply (r_alloc (snd ex2)); [|apply Q; reflexivity|vm_compute; reflexivity]. apply (r_alloc (snd ex1)); [|apply Q; reflexivity|vm_compute; reflexivity].
  apply (r_alloc demo_heap); [|apply Q; reflexivity|vm_compute; reflexivity]. apply r_init. reflexivity.
Qed.
