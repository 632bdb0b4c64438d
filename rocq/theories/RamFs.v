(** * Model of lib/ram_fs.cpp and lib/ram_filebuf.cpp

    A file name and a file content (std::vector<char>) are lists of bytes.  The static std::map m_map is an association
    list without repeated keys; its order is not observable through the API.  The recursive mutex serialises the
    operations and is not modelled. *)
From Coq Require Import NArith List Bool Arith.
From Verif Require Import Base.
Import ListNotations.

Notation name := (list N).
Notation content := (list N).
Definition name_dec : forall a b : name, {a = b} + {a <> b} := list_eq_dec N.eq_dec.
Definition fsmap := list (name * content).

(** std::map::find *)
Fixpoint mfind (m : fsmap) (k : name) : option content :=
  match m with
  | [] => None
  | (k', c) :: m => if name_dec k k' then Some c else mfind m k
  end.
(** std::map::erase(key) *)
Fixpoint merase (m : fsmap) (k : name) : fsmap :=
  match m with
  | [] => []
  | (k', c) :: m => if name_dec k k' then merase m k else (k', c) :: merase m k
  end.
(** m_map[k] = c *)
Definition mset (m : fsmap) (k : name) (c : content) : fsmap := (k, c) :: merase m k.
(** m_map[k]: inserts an empty content when the key is missing *)
Definition mindex (m : fsmap) (k : name) : content * fsmap :=
  match mfind m k with
  | Some c => (c, m)
  | None => ([], mset m k [])
  end.

(** ram_fs.cpp:46-51: exists *)
Definition fs_exists (m : fsmap) (k : name) : bool := match mfind m k with Some _ => true | None => false end.
(** ram_fs.cpp:34-44: store *)
Definition fs_store (m : fsmap) (k : name) (c : content) : fsmap := if negb (fs_exists m k) then (k, c) :: m else mset m k c.
(** ram_fs.cpp:53-58: content (read access) *)
Definition fs_content (m : fsmap) (k : name) : content * fsmap := mindex m k.
(** ram_fs.cpp:60-69: file_size *)
Definition fs_file_size (m : fsmap) (k : name) : nat := if fs_exists m k then length (fst (mindex m k)) else 0.
(** ram_fs.cpp:71-77: remove *)
Definition fs_remove_file (m : fsmap) (k : name) : fsmap := merase m k.
(** ram_fs.cpp:79-86: rename.  Both operator[] calls come first (the order does not matter); the move leaves the source
    empty; for old = new it is a self-move, which also leaves the vector empty (libstdc++). *)
Definition fs_rename (m : fsmap) (old new : name) : fsmap :=
  let (c, m) := mindex m old in
  let (_, m) := mindex m new in
  let m := if name_dec old new then mset m old [] else mset (mset m old []) new c in
  fs_remove_file m old.

(** '@' *)
Definition at_sign : N := 64.
(** ram_fs.cpp:88-96: is_ram_file *)
Definition is_ram_file (f : name) : bool := match f with c :: _ => (c =? at_sign)%N | [] => false end.
(** ram_fs.cpp:98-105: ram_file_name *)
Definition ram_file_name (f : name) : name := if is_ram_file f then f else at_sign :: f.
(** ram_fs.cpp:107-114: disk_file_name; file.substr(1) *)
Definition disk_file_name (f : name) : name := if negb (is_ram_file f) then f else tl f.
(** ram_fs.cpp:125-135: rename (free function), the branch for RAM files; None: the call goes to the disk *)
Definition ram_rename (m : fsmap) (old new : name) : option (bool * fsmap) :=
  if is_ram_file old then
    if negb (is_ram_file new) then Some (false, m) else Some (true, fs_rename m old new)
  else None.
(** ram_fs.cpp:116-123: remove (free function), the branch for RAM files *)
Definition ram_remove (m : fsmap) (f : name) : option fsmap := if is_ram_file f then Some (fs_remove_file m f) else None.

(** ** ram_filebuf

    b_data: the vector m_ram_file points to.  The stream's pointers are offsets from its data(); a get pointer into a
    buffer that push_back has since reallocated is None. *)
Record fbuf := { b_data : content; b_g : option nat; b_ge : nat; b_p : nat; b_pe : nat }.
Record openmode := { md_in : bool; md_out : bool; md_trunc : bool; md_app : bool }.

(** setg and setp to the whole vector: get pointer and put pointer at g, p *)
Definition fb_set (d : content) (g p : nat) : fbuf := {| b_data := d; b_g := Some g; b_ge := length d; b_p := p; b_pe := length d |}.
(** ram_filebuf.cpp:28-66: open.  The result is None when the file must exist and does not; otherwise the map (a missing
    file is created) and the buffer.  The vector's new content is written back to the map by [fb_close]. *)
Definition fb_open (m : fsmap) (k : name) (md : openmode) : option fbuf * fsmap :=
  if md_in md && negb (md_trunc md) then
    match mfind m k with
    | None => (None, m)
    | Some c => (Some (fb_set c 0 0), m)
    end
  else
    let m := if negb (fs_exists m k) then fs_store m k [] else m in
    let (c, m) := fs_content m k in
    let c := if md_out md && negb (md_app md) then [] else c in
    let c := if md_trunc md then [] else c in
    (Some (fb_set c 0 0), mset m k c).
(** ram_filebuf.cpp:74-83: close; the vector is the map's, so the map holds b_data *)
Definition fb_close (m : fsmap) (k : name) (b : fbuf) : fsmap := mset m k (b_data b).

(** ram_filebuf.cpp:85-105: seekpos for sp >= 0; [out] is mode & out; None is the result -1.  vector::resize(sp, 0) *)
Definition fb_seekpos (b : fbuf) (sp : nat) (out : bool) : option fbuf :=
  if sp <=? length (b_data b) then Some (fb_set (b_data b) sp sp)
  else if out then let d := b_data b ++ repeat 0%N (sp - length (b_data b)) in Some (fb_set d sp sp)
  else None.
(** std::streambuf::sputc with ram_filebuf.cpp:145-156 (overflow).  [moved]: did push_back reallocate?  pptr beyond
    epptr does not occur.  Outcome None: a put pointer outside the vector. *)
Definition fb_sputc (moved : bool) (b : fbuf) (c : N) : option fbuf :=
  if b_p b <? b_pe b then
    if b_p b <? length (b_data b) then
      Some {| b_data := upd (b_data b) (b_p b) c; b_g := b_g b; b_ge := b_ge b; b_p := b_p b + 1; b_pe := b_pe b |}
    else None
  else
    let d := b_data b ++ [c] in
    Some {| b_data := d; b_g := if moved then None else b_g b; b_ge := length d; b_p := length d; b_pe := length d |}.
(** std::streambuf::sbumpc with the default underflow: None is undefined behaviour (dangling get pointer), Some (None, _)
    is end of file *)
Definition fb_sbumpc (b : fbuf) : option (option N * fbuf) :=
  match b_g b with
  | None => None
  | Some g =>
    if g <? b_ge b then
      match nth_error (b_data b) g with
      | None => None
      | Some c => Some (Some c, {| b_data := b_data b; b_g := Some (g + 1); b_ge := b_ge b; b_p := b_p b; b_pe := b_pe b |})
      end
    else Some (None, b)
  end.
(** std::streambuf::xsputn / xsgetn: character by character *)
Fixpoint fb_write (mv : nat -> bool) (b : fbuf) (cs : list N) : option fbuf :=
  match cs with
  | [] => Some b
  | c :: cs => let* b := fb_sputc (mv (length cs)) b c in fb_write mv b cs
  end.
Fixpoint fb_read (b : fbuf) (n : nat) : option (list N * fbuf) :=
  match n with
  | 0 => Some ([], b)
  | S n =>
    let* r := fb_sbumpc b in
    match fst r with
    | None => Some ([], snd r)
    | Some c => let* r := fb_read (snd r) n in Some (c :: fst r, snd r)
    end
  end.
(** ram_filebuf.cpp:107-127: pubseekoff; way cur: relative to the get pointer, for the put pointer too *)
Inductive seekdir := SBeg | SCur | SEnd.
Definition fb_seekoff (b : fbuf) (off : nat) (way : seekdir) (out : bool) : option fbuf :=
  match way with
  | SBeg => fb_seekpos b off out
  | SCur => match b_g b with Some g => fb_seekpos b (g + off) out | None => None end
  | SEnd => fb_seekpos b (b_ge b + off) out
  end.
