(** * Model of the construction cache: store_to_cache, load_from_cache, register_cache_file, delete_all_files

    Files are a map from names to contents of any type (what store_to_file writes and load_from_file reads back); several
    cache_config objects use the same files.  Simplifications: opening a file for writing succeeds; loading an existing file
    succeeds and gives what was stored, without regard to the type it is loaded into. *)
From Coq Require Import List Bool Arith NArith Ascii.
From Verif Require Import Base TmpFile.
Import ListNotations.

(** operator== of std::string *)
Definition str_eqb (a b : list ascii) : bool := if list_eq_dec ascii_dec a b then true else false.

Section Cache.
Variable V : Type.
Variable dirof idof : nat -> list ascii.       (* the members dir and id of the configs *)

(** the files and the member file_map (a std::map from keys to file names, config.hpp:29, 44) of every config *)
Record cst := mkcst { files : list ascii -> option V; fmap : nat -> list (list ascii * list ascii) }.
(** file_map.count / file_map.at, io.cpp:93-94 *)
Definition lookup (l : list (list ascii * list ascii)) (key : list ascii) : option (list ascii) :=
  match find (fun p => str_eqb (fst p) key) l with Some p => Some (snd p) | None => None end.
(** file_map[key] = file, io.hpp:625 *)
Definition insert (l : list (list ascii * list ascii)) (key file : list ascii) :=
  (key, file) :: filter (fun p => negb (str_eqb (fst p) key)) l.
(** update of one config *)
Definition set_fmap (y : cst) c l : cst := mkcst (files y) (fun d => if d =? c then l else fmap y d).
(** cache_file_name, io.cpp:91-97 *)
Definition cache_file_name (y : cst) (c : nat) (key : list ascii) : list ascii :=
  match lookup (fmap y c) key with
  | Some f => f
  | None => dirof c ++ ["/"%char] ++ key ++ ["_"%char] ++ idof c ++ sdsl_suffix
  end.
(** cache_file_name<T>, io.hpp:545-549; [hash] is class_to_hash of the type, if add_type_hash is set *)
Definition file_of (y : cst) c key (hash : option (list ascii)) : list ascii :=
  match hash with None => cache_file_name y c key | Some h => cache_file_name y c (key ++ ["_"%char] ++ h) end.
(** store_to_cache, io.hpp:615-631 *)
Definition store_to_cache (y : cst) c key hash (v : V) : cst :=
  let file := file_of y c key hash in
  set_fmap (mkcst (fun f => if str_eqb f file then Some v else files y f) (fmap y)) c (insert (fmap y c) key file).
(** load_from_cache, io.hpp:590-610 *)
Definition load_from_cache (y : cst) c key hash : option V := files y (file_of y c key hash).
(** register_cache_file, io.cpp:99-106 *)
Definition register_cache_file (y : cst) c key : cst :=
  let file := cache_file_name y c key in
  match files y file with None => y | Some _ => set_fmap y c (insert (fmap y c) key file) end.
(** cache_file_exists, io.cpp:109-118 *)
Definition cache_file_exists (y : cst) c key : bool := match files y (cache_file_name y c key) with Some _ => true | None => false end.
(** util::delete_all_files(config.file_map), util.cpp:145-151 *)
Definition delete_all_files (y : cst) c : cst :=
  set_fmap (mkcst (fun f => if existsb (fun p => str_eqb (snd p) f) (fmap y c) then None else files y f) (fmap y)) c [].

(** the calls a program makes on its configs *)
Inductive cop := CStore (c : nat) (key : list ascii) (hash : option (list ascii)) (v : V)
               | CRegister (c : nat) (key : list ascii) | CDeleteAll (c : nat).
Definition cexec (y : cst) (o : cop) : cst :=
  match o with
  | CStore c key hash v => store_to_cache y c key hash v
  | CRegister c key => register_cache_file y c key
  | CDeleteAll c => delete_all_files y c
  end.
Definition cexecs (y : cst) (l : list cop) : cst := fold_left cexec l y.
Definition no_files : cst := mkcst (fun _ => None) (fun _ => []).
End Cache.
(** the id that the constructor of cache_config makes, config.cpp:6-11 *)
Definition default_id (pid id : N) : list ascii := to_string pid ++ ["_"%char] ++ to_string id.
