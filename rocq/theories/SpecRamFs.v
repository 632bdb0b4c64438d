(** * Specification for C50: the abstract file system and the abstract file *)
From Coq Require Import NArith List Bool Arith.
From Verif Require Import Base RamFs.
Import ListNotations.

(** the abstract file system: which names exist and what they hold *)
Definition afs := name -> option content.
Definition aset_f (a : afs) (k : name) (c : option content) : afs := fun k' => if name_dec k' k then c else a k'.
Inductive fsop := OpStore (k : name) (c : content) | OpRemove (k : name) | OpRename (old new : name).
(** what each operation should do *)
Definition aop (a : afs) (o : fsop) : afs :=
  match o with
  | OpStore k c => aset_f a k (Some c)
  | OpRemove k => aset_f a k None
  | OpRename old new => match a old with None => a | Some c => aset_f (aset_f a old None) new (Some c) end
  end.
(** what it does in the code *)
Definition cop (m : fsmap) (o : fsop) : fsmap :=
  match o with
  | OpStore k c => fs_store m k c
  | OpRemove k => fs_remove_file m k
  | OpRename old new => fs_rename m old new
  end.
(** histories in which every rename has an existing source different from its target *)
Fixpoint hist_ok (a : afs) (l : list fsop) : Prop :=
  match l with
  | [] => True
  | o :: l => match o with OpRename old new => a old <> None /\ old <> new | _ => True end /\ hist_ok (aop a o) l
  end.

(** the abstract file: contents and one position *)
Inductive wop := WPut (moved : bool) (c : N) | WSeek (p : nat).
(** writing at position p <= length d; seeking beyond the end of an output stream extends the file with zeros *)
Definition awop (s : content * nat) (o : wop) : content * nat :=
  let (d, p) := s in
  match o with
  | WPut _ c => (firstn p d ++ c :: skipn (p + 1) d, p + 1)
  | WSeek q => (d ++ repeat 0%N (q - length d), q)
  end.
Definition cwop (b : fbuf) (o : wop) : option fbuf :=
  match o with
  | WPut mv c => fb_sputc mv b c
  | WSeek q => fb_seekpos b q true
  end.
Fixpoint cwops (b : fbuf) (l : list wop) : option fbuf :=
  match l with
  | [] => Some b
  | o :: l => let* b := cwop b o in cwops b l
  end.
