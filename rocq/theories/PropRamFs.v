(** * C50: the RAM file system

    Property (properties.jsonl): after any history of store, remove and rename the file system maps exactly the live names
    to their last contents; what is written through a stream is what a later stream reads. *)
From Coq Require Import NArith List Bool Arith Lia.
From Verif Require Import Base RamFs SpecRamFs RamFsProofs.
Import ListNotations.

(** for every history from the empty file system, what exists(), file_size() and content() report is what the abstract map
    says.  Missing (and false): renames of a missing file and of a file to its own name. *)
Theorem C50_history_partial : forall l k, hist_ok (fun _ => None) l ->
  let m := fold_left cop l [] in let a := fold_left aop l (fun _ => None) in
  fs_exists m k = (match a k with Some _ => true | None => false end) /\
  fs_file_size m k = length (match a k with Some c => c | None => [] end) /\
  (forall c, a k = Some c -> fs_content m k = (c, m)).
Proof.
  intros l k H. cbv zeta. rewrite <- (history_ok l [] (fun _ => None) (fun _ => eq_refl) H k). exact (observe_ok (fold_left cop l []) k).
Qed.
Print Assumptions C50_history_partial.

(** any sequence of single-character writes and absolute seeks on a newly opened output stream gives the file the abstract
    file's contents, leaves all other files alone, and any later input stream, positioned anywhere, reads those contents;
    [WPut moved c]: whether or not the vector moved *)
Theorem C50_stream : forall m k ops, exists m1 b b', fb_open m k md_o = (Some b, m1) /\ cwops b ops = Some b' /\
  let d := fst (fold_left awop ops ([], 0)) in
  (forall k', mfind (fb_close m1 k b') k' = if name_dec k' k then Some d else mfind m k') /\
  forall pos n, pos <= length d -> exists r r' r'', fb_open (fb_close m1 k b') k md_i = (Some r, fb_close m1 k b') /\ fb_seekpos r pos false = Some r' /\ fb_read r' n = Some (firstn n (skipn pos d), r'').
Proof. exact stream_round. Qed.
Print Assumptions C50_stream.

(** writing a block of characters stores exactly these characters *)
Theorem C50_write : forall m k mv cs, exists m1 b b', fb_open m k md_o = (Some b, m1) /\ fb_write mv b cs = Some b' /\ fs_content (fb_close m1 k b') k = (cs, fb_close m1 k b').
Proof. exact write_read. Qed.
Print Assumptions C50_write.

(** names: the RAM name of a file is a RAM name; RAM and disk names of the same file determine each other *)
Theorem C50_names : forall f, is_ram_file (ram_file_name f) = true /\ ram_file_name (ram_file_name f) = ram_file_name f /\
  (is_ram_file f = false -> disk_file_name (ram_file_name f) = f /\ disk_file_name f = f) /\
  (is_ram_file f = true -> ram_file_name f = f /\ (is_ram_file (disk_file_name f) = false -> ram_file_name (disk_file_name f) = f)).
Proof. exact names_ok. Qed.
Print Assumptions C50_names.

(** ** Where the full statement fails *)
(** renaming a file to its own name deletes it *)
Theorem C50_rename_self_refuted : exists m f c, mfind m f = Some c /\ ram_rename m f f = Some (true, []) .
Proof. exists [([64; 97], [1; 2])]%N, [64; 97]%N, [1; 2]%N. split; reflexivity. Qed.
Print Assumptions C50_rename_self_refuted.
(** renaming a missing file succeeds and empties the target *)
Theorem C50_rename_missing_refuted : exists m old new c, mfind m old = None /\ mfind m new = Some c /\ c <> [] /\ exists m', ram_rename m old new = Some (true, m') /\ mfind m' new = Some [].
Proof. exists [([64; 97], [1; 2])]%N, [64; 98]%N, [64; 97]%N, [1; 2]%N. split; [reflexivity|]. split; [reflexivity|]. split; [discriminate|]. eexists. split; reflexivity. Qed.
Print Assumptions C50_rename_missing_refuted.
(** a stream opened for appending writes over the start of the file *)
Theorem C50_append_refuted : exists m k b m1 b', mfind m k = Some [1; 2]%N /\
  fb_open m k {| md_in := false; md_out := true; md_trunc := false; md_app := true |} = (Some b, m1) /\ fb_write (fun _ => false) b [3]%N = Some b' /\ b_data b' = [3; 2]%N.
Proof. exists [([64; 97], [1; 2])]%N, [64; 97]%N. eexists. eexists. eexists. split; [reflexivity|]. split; [reflexivity|]. split; reflexivity. Qed.
Print Assumptions C50_append_refuted.
(** seekp(0, cur) after writing jumps to the get pointer, i.e. back to the start *)
Theorem C50_seek_cur_refuted : exists b b' b'', fb_write (fun _ => false) (fb_set [] 0 0) [1; 2]%N = Some b /\ b_p b = 2 /\ fb_seekoff b 0 SCur true = Some b' /\ b_p b' = 0 /\
  fb_write (fun _ => true) (fb_set [] 0 0) [1; 2]%N = Some b'' /\ fb_seekoff b'' 0 SCur true = None.
Proof. eexists. eexists. eexists. repeat split. Qed.
Print Assumptions C50_seek_cur_refuted.

(** ** A concrete history *)
Definition demo_ops : list fsop := [OpStore [64; 97] [1; 2; 3]; OpStore [64; 98] [4]; OpRename [64; 97] [64; 98]; OpStore [64; 99] []; OpRemove [64; 99]]%N.
Example C50_example : hist_ok (fun _ => None) demo_ops /\ fold_left aop demo_ops (fun _ => None) [64; 98]%N = Some [1; 2; 3]%N /\ fold_left aop demo_ops (fun _ => None) [64; 97]%N = None /\
  fst (fold_left awop [WPut true 1; WPut false 2; WSeek 5; WPut true 3; WSeek 1; WPut false 9]%N ([], 0)) = [1; 9; 0; 0; 0; 3]%N.
Proof. repeat split; try discriminate. Qed.
