(** * Model of util::id and tmp_file: the names of temporary files

    Characters are [ascii], strings lists of them; the process id is an argument. *)
From Coq Require Import List Bool Arith NArith Ascii Decimal.
From Verif Require Import Base.
Import ListNotations.
Local Open Scope N_scope.

(** util::to_string, util.hpp:613-619, of an unsigned number: its decimal digits *)
Fixpoint chars (d : Decimal.uint) : list ascii :=
  match d with
  | Nil => []
  | D0 d => "0" :: chars d | D1 d => "1" :: chars d | D2 d => "2" :: chars d | D3 d => "3" :: chars d | D4 d => "4" :: chars d
  | D5 d => "5" :: chars d | D6 d => "6" :: chars d | D7 d => "7" :: chars d | D8 d => "8" :: chars d | D9 d => "9" :: chars d
  end%char.
Definition to_string (n : N) : list ascii := chars (N.to_uint n).
(** _id_helper::getId, util.hpp:237-246: the value and the new counter; a uint64_t wraps *)
Definition get_id (ctr : N) : N * N := (ctr, (ctr + 1) mod 2 ^ 64).
(** tmp_file, io.cpp:120-129; [dir] is config.dir, or dirname of the file *)
Definition sdsl_suffix : list ascii := ["."; "s"; "d"; "s"; "l"]%char.
Definition tmp_file (pid ctr : N) (dir part : list ascii) : list ascii * N :=
  let r := get_id ctr in
  (dir ++ ["/"%char] ++ to_string pid ++ ["_"%char] ++ to_string (fst r) ++ part ++ sdsl_suffix, snd r).
(** the names a process gets for a list of requests (directory, name part) *)
Fixpoint tmp_files (pid ctr : N) (l : list (list ascii * list ascii)) : list (list ascii) :=
  match l with
  | [] => []
  | (dir, part) :: l => let r := tmp_file pid ctr dir part in fst r :: tmp_files pid (snd r) l
  end.

(** id++ is not atomic: a thread reads the counter in one step and writes it in another.  [busy i] is what thread [i] has read *)
Record idsys := mkid { ctr : N; busy : nat -> option N; got : list N }.
Definition id_step (y : idsys) (i : nat) : idsys :=
  match busy y i with
  | None => mkid (ctr y) (fun j => if Nat.eqb j i then Some (ctr y) else busy y j) (got y)
  | Some x => mkid ((x + 1) mod 2 ^ 64) (fun j => if Nat.eqb j i then None else busy y j) (got y ++ [x])
  end.
Definition id_run (schedule : list nat) : idsys := fold_left id_step schedule (mkid 0 (fun _ => None) []).
