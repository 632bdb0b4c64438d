(** * C34: wavelet trees in the shape of a prefix code (wt_huff, wt_blcd)

    [wp_make sh byte dfs T] is the constructor of wt_pc: [sh] the shape ([Huff]: Huffman, [Balanced]: balanced), [byte]
    the tree strategy (byte_tree or int_tree), [dfs] its layout parameter (the default is false).  Its results are [None]
    (undefined behaviour), [Some Throw] (std::logic_error) and [Some (Ok w)].  Missing for the full property: the
    Hu-Tucker shape and the depth-first layout (for which the order queries are refuted below). *)
From Coq Require Import NArith List Bool Arith Lia Sorted.
From Verif Require Import Base SpecWt WtPc WtPcAll.
Import ListNotations.

(* the symbols a tree over the byte alphabet can be asked for *)
Definition pc_dom (byte : bool) (c : N) : Prop := byte = true -> (c < 256)%N.

(** no sequence makes the constructor run into undefined behaviour *)
Theorem C34_build_defined_partial : forall T sh byte, T <> [] -> (forall x, In x T -> pc_dom byte x) -> wp_make sh byte false T <> None.
Proof. exact o_total. Qed.
Print Assumptions C34_build_defined_partial.
(** it throws only if a code has more than 56 bits: never for the balanced shape, and not below 58 different symbols *)
Theorem C34_build_partial : forall T sh byte, T <> [] -> (forall x, In x T -> pc_dom byte x) ->
  distinct T <= 57 \/ (sh = Balanced /\ (N.of_nat (distinct T) <= 2 ^ 56)%N) -> exists w, wp_make sh byte false T = Some (Ok w).
Proof. exact o_build. Qed.
Print Assumptions C34_build_partial.
Theorem C34_size_partial : forall T sh byte w, (forall x, In x T -> pc_dom byte x) -> wp_make sh byte false T = Some (Ok w) ->
  w_n w = length T /\ w_sigma w = distinct T.
Proof. exact o_size. Qed.
Print Assumptions C34_size_partial.
Theorem C34_access_partial : forall T sh byte w, (forall x, In x T -> pc_dom byte x) -> wp_make sh byte false T = Some (Ok w) ->
  forall i x, nth_error T i = Some x -> wp_access w i = Some x.
Proof. exact o_access. Qed.
Print Assumptions C34_access_partial.
Theorem C34_inverse_select_partial : forall T sh byte w, (forall x, In x T -> pc_dom byte x) -> wp_make sh byte false T = Some (Ok w) ->
  forall i x, nth_error T i = Some x -> wp_inverse_select w i = Some (occ T x i, x).
Proof. exact o_isel. Qed.
Print Assumptions C34_inverse_select_partial.
(** rank of every symbol, also of those that do not occur *)
Theorem C34_rank_partial : forall T sh byte w, (forall x, In x T -> pc_dom byte x) -> wp_make sh byte false T = Some (Ok w) ->
  forall i c, i <= length T -> pc_dom byte c -> wp_rank w i c = Some (occ T c i).
Proof. exact o_rank. Qed.
Print Assumptions C34_rank_partial.
(** select(i,c) is the position of the i-th c *)
Theorem C34_select_partial : forall T sh byte w, (forall x, In x T -> pc_dom byte x) -> wp_make sh byte false T = Some (Ok w) ->
  forall i c, 1 <= i -> i <= occ T c (length T) -> exists q, wp_select w i c = Some q /\ nth_error T q = Some c /\ occ T c q + 1 = i.
Proof. exact o_select. Qed.
Print Assumptions C34_select_partial.
(** interval_symbols lists each different symbol of T[i..j-1] once, with its ranks at i and j; in increasing order for a
    lexicographically ordered (balanced) tree *)
Theorem C34_interval_symbols_partial : forall T sh byte w, (forall x, In x T -> pc_dom byte x) -> wp_make sh byte false T = Some (Ok w) ->
  forall lex i j, i <= j -> j <= length T -> (lex = true -> sh = Balanced) ->
  exists r, wp_interval_symbols lex w i j = Some r /\ NoDup (map (fun z => fst (fst z)) r) /\
    (lex = true -> StronglySorted N.lt (map (fun z => fst (fst z)) r)) /\
    forall c a b, In (c, a, b) r <-> In c (slice T i j) /\ a = occ T c i /\ b = occ T c j.
Proof. exact o_isym. Qed.
Print Assumptions C34_interval_symbols_partial.
(** lex_count and lex_smaller_count of the balanced tree, for every symbol c, whether it occurs or not *)
Theorem C34_lex_count_partial : forall T sh byte w, (forall x, In x T -> pc_dom byte x) -> wp_make sh byte false T = Some (Ok w) ->
  forall i j c, sh = Balanced -> (forall x, In x T -> (x < 2 ^ 56)%N) -> i <= j -> j <= length T -> pc_dom byte c ->
  wp_lex_count 3 w i j c = Some (occ T c i, smaller c (slice T i j), greater c (slice T i j)).
Proof. exact o_lex. Qed.
Print Assumptions C34_lex_count_partial.
Theorem C34_lex_smaller_count_partial : forall T sh byte w, (forall x, In x T -> pc_dom byte x) -> wp_make sh byte false T = Some (Ok w) ->
  forall i c, sh = Balanced -> (forall x, In x T -> (x < 2 ^ 56)%N) -> i <= length T -> pc_dom byte c ->
  wp_lex_smaller 3 w i c = Some (occ T c i, smaller c (firstn i T)).
Proof. exact o_lexs. Qed.
Print Assumptions C34_lex_smaller_count_partial.

Definition pc_text : list N := [5; 3; 5; 5; 7; 2; 3; 9; 5; 5; 3; 7]%N.
(** with the depth-first layout the children of a node whose right child is a leaf are swapped, and lex_count of the
    balanced tree counts the wrong side *)
Theorem C34_dfs_lex_refuted : exists T w i j c, (forall x, In x T -> pc_dom true x) /\ wp_make Balanced true true T = Some (Ok w) /\
  i <= j /\ j <= length T /\ wp_lex_count 3 w i j c <> Some (occ T c i, smaller c (slice T i j), greater c (slice T i j)).
Proof.
  destruct (wp_make Balanced true true pc_text) as [[|w]|] eqn:E; [vm_compute in E; discriminate| |vm_compute in E; discriminate].
  exists pc_text, w, 0, 12, 5%N. split. { intros x X _. unfold pc_text in X. simpl in X. lia. } split; auto. split; [lia|]. split; [simpl; lia|].
  vm_compute in E. injection E as <-. vm_compute. discriminate.
Qed.
Print Assumptions C34_dfs_lex_refuted.

(** The hypotheses are met: a sequence over five symbols in every shape and strategy. *)
Example C34_demo_dom : forall byte x, In x pc_text -> pc_dom byte x /\ (x < 2 ^ 56)%N.
Proof. intros byte x X. unfold pc_text, pc_dom in *. simpl in X. repeat (destruct X as [<- |X]; [split; intros; reflexivity|]). destruct X. Qed.
Example C34_demo : forall sh byte, exists w, wp_make sh byte false pc_text = Some (Ok w) /\
  wp_access w 4 = Some 7%N /\ wp_rank w 9 5 = Some 4 /\ wp_rank w 9 4 = Some 0 /\ wp_select w 3 3 = Some 10 /\ wp_inverse_select w 8 = Some (3, 5%N).
Proof. intros [|] [|]; eexists; (split; [vm_compute; reflexivity|]); repeat split. Qed.
Example C34_demo_order : exists w, wp_make Balanced true false pc_text = Some (Ok w) /\
  wp_lex_count 3 w 2 9 6 = Some (0, 5, 2) /\ wp_lex_count 3 w 2 9 1 = Some (0, 0, 7) /\ wp_lex_smaller 3 w 7 5 = Some (3, 3) /\
  wp_interval_symbols true w 1 6 = Some [(2%N, 0, 1); (3%N, 0, 1); (5%N, 1, 3); (7%N, 0, 1)].
Proof. eexists; (split; [vm_compute; reflexivity|]); repeat split. Qed.
