(** * Models of enc_vector (include/sdsl/enc_vector.hpp) and vlc_vector (include/sdsl/vlc_vector.hpp)

    Both are generic in the self-delimiting coder, in the sample density and in the element type of
    the container.  [tb] is the width of that type: 64 (uint64_t, int_vector) or 32 (uint32_t).
    Narrower types are promoted to int before the subtraction; they are not modelled. *)
From Coq Require Import NArith List Bool Arith.
From Verif Require Import Base Bits IntVector AbsVec Coder CoderComma.
Import ListNotations.

(** what the vectors use of t_coder: encoding_length, encode, one round of decode, decode_prefix_sum *)
Record coder := mkcoder {
  c_len : N -> nat;
  c_enc : mem -> nat -> nat -> N -> option (mem * nat * nat);
  c_dec : mem -> nat -> nat -> option (N * nat * nat);
  c_psum : mem -> nat -> nat -> option N }.
Definition elias_gamma (sh : N -> nat -> option N) : coder := mkcoder eg_len eg_enc1 (eg_dec1 sh) (eg_prefix_sum sh).
Definition elias_delta (sh : N -> nat -> option N) : coder := mkcoder ed_len ed_enc1 (ed_dec1 sh) (ed_prefix_sum sh).
Definition comma (t : nat) : coder := mkcoder (cm_len t) (cm_enc1 t) (cm_dec1 t) (cm_prefix_sum t).

(** v2-v1 in the element type *)
Definition tsub (tb : nat) (v2 v1 : N) : N := ((v2 + (2 ^ N.of_nat tb - v1)) mod 2 ^ N.of_nat tb)%N.

(** ** enc_vector *)
Record encv := mkencv { ev_z : mem; ev_zbits : nat; ev_sp : avec; ev_size : nat }.
Section Enc.
Variable c : coder.
Variable dens tb : nat.

(** pass (1), enc_vector.hpp:230-240 and 297-307; the result is (max_sample_value, samples, z_size).
    no_sample counts down to the next sample; it is dens - 1 after a sample and the decrement *)
Fixpoint ev_pass1 (l : list N) (no_sample : nat) (v1 mx : N) (samples z : nat) : N * nat * nat :=
  match l with
  | [] => (mx, samples, z)
  | v2 :: t =>
    match no_sample with
    | 0 => ev_pass1 t (dens - 1) v2 (if (mx <? v2)%N then v2 else mx) (samples + 1) z
    | S ns => ev_pass1 t ns v2 mx samples (z + c_len c (tsub tb v2 v1))
    end
  end.
(** enc_vector.hpp:243-248, 311-316: width and size of the sample vector, all entries 0.  [tw] is
    t_width: 0 = the computed width, otherwise the fixed width of int_vector<t_width>, whose width()
    has no effect *)
Definition ev_init (tw : nat) (mx : N) (samples z : nat) : avec :=
  let w := if tw =? 0 then (if (N.of_nat (z + 1) <? mx)%N then hiw mx else hiw (N.of_nat (z + 1))) else tw in
  av_new (2 * samples + 2) 0 w.
(** pass (2) over the samples and pointers, enc_vector.hpp:249-264 *)
Fixpoint ev_pass2 (l : list N) (no_sample : nat) (v1 : N) (sp : avec) (j z : nat) : option (avec * nat * nat) :=
  match l with
  | [] => Some (sp, j, z)
  | v2 :: t =>
    match no_sample with
    | 0 =>
      let* sp := av_set sp j v2 in
      let* sp := av_set sp (j + 1) (N.of_nat z) in
      ev_pass2 t (dens - 1) v2 sp (j + 2) z
    | S ns => ev_pass2 t ns v2 sp j (z + c_len c (tsub tb v2 v1))
    end
  end.
(** the encoding loop, enc_vector.hpp:266-279 *)
Fixpoint ev_pass3 (l : list N) (no_sample : nat) (v1 : N) (m : mem) (w off : nat) : option (mem * nat * nat) :=
  match l with
  | [] => Some (m, w, off)
  | v2 :: t =>
    match no_sample with
    | 0 => ev_pass3 t (dens - 1) v2 m w off
    | S ns =>
      let* (m, w, off) := c_enc c m w off (tsub tb v2 v1) in
      ev_pass3 t ns v2 m w off
    end
  end.
Definition ev_empty : encv := mkencv [0%N] 0 av_nil 0.
(** enc_vector(const Container&), enc_vector.hpp:216-282.  m_z = int_vector<>(z_size, 0, 1) has
    z_size/64 + 1 words, all 0 (C04, C05) *)
Definition ev_make (tw : nat) (l : list N) : option encv :=
  match l with
  | [] => Some ev_empty
  | v1 :: _ =>
    let '(mx, samples, z) := ev_pass1 l 0 v1 0 0 0 in
    let* (sp, j, z) := ev_pass2 l 0 v1 (ev_init tw mx samples z) 0 0 in
    let* sp := av_set sp j 0 in
    let* sp := av_set sp (j + 1) (N.of_nat (z + 1)) in
    let* (m, w, off) := ev_pass3 l 0 v1 (repeat 0%N (z / 64 + 1)) 0 0 in
    Some (mkencv m z sp (length l))
  end.
(** the single writing loop of enc_vector(int_vector_buffer&), enc_vector.hpp:318-336 *)
Fixpoint ev_bpass (l : list N) (no_sample : nat) (v1 : N) (sp : avec) (j z : nat) (m : mem) (w off : nat) : option (avec * mem) :=
  match l with
  | [] => Some (sp, m)
  | v2 :: t =>
    match no_sample with
    | 0 =>
      let* sp := av_set sp j v2 in
      let* sp := av_set sp (j + 1) (N.of_nat z) in
      ev_bpass t (dens - 1) v2 sp (j + 2) z m w off
    | S ns =>
      let* (m, w, off) := c_enc c m w off (tsub tb v2 v1) in
      ev_bpass t ns v2 sp j (z + c_len c (tsub tb v2 v1)) m w off
    end
  end.
(** enc_vector(int_vector_buffer&), enc_vector.hpp:284-338; the values of the buffer are [l] (C35) and
    value_type is uint64_t *)
Definition ev_make_buf (tw : nat) (l : list N) : option encv :=
  match l with
  | [] => Some ev_empty
  | _ =>
    let '(mx, samples, z) := ev_pass1 l 0 0 0 0 0 in
    let* (sp, m) := ev_bpass l 0 0 (ev_init tw mx samples z) 0 0 (repeat 0%N (z / 64 + 1)) 0 0 in
    Some (mkencv m z sp (length l))
  end.
(** operator[], enc_vector.hpp:189-196; [after]: the memory behind m_z's words *)
Definition ev_get (v : encv) (after : list N) (i : nat) : option N :=
  let idx := i / dens in
  let* s := av_get (ev_sp v) (2 * idx) in
  let* p := av_get (ev_sp v) (2 * idx + 1) in
  let* d := c_psum c (ev_z v ++ after) (N.to_nat p) (i - dens * idx) in
  Some (wadd s d).
(** sample(i), enc_vector.hpp:198-204 *)
Definition ev_sample (v : encv) (i : nat) : option N := av_get (ev_sp v) (2 * i).
(** get_inter_sampled_values(i, it), enc_vector.hpp:177-186: the values written *)
Definition ev_inter (v : encv) (i : nat) : option (list N) :=
  let* p := av_get (ev_sp v) (2 * i + 1) in
  let n := if i * dens + dens - 1 <? ev_size v then dens - 1 else ev_size v - i * dens - 1 in
  let* l := cd_decode_n (c_dec c) true (ev_z v) (N.to_nat p) n in
  Some (0%N :: l).
End Enc.

(** ** vlc_vector *)
Record vlcv := mkvlcv { vv_z : mem; vv_zbits : nat; vv_sp : avec; vv_size : nat }.
Section Vlc.
Variable c : coder.
Variable dens tb : nat.
(** c[i]+1 in the element type *)
Definition tinc (x : N) : N := ((x + 1) mod 2 ^ N.of_nat tb)%N.
(** the writing loop, vlc_vector.hpp:210-220, 249-262 *)
Fixpoint vv_pass2 (l : list N) (no_sample sample_cnt : nat) (sp : avec) (z : nat) (m : mem) (w off : nat) : option (avec * mem) :=
  match l with
  | [] => Some (sp, m)
  | x :: t =>
    let* r := (match no_sample with
               | 0 => let* sp := av_set sp sample_cnt (N.of_nat z) in Some (sp, dens, sample_cnt + 1)
               | S _ => Some (sp, no_sample, sample_cnt)
               end) in
    let '(sp, no_sample, sample_cnt) := r in
    let* (m, w, off) := c_enc c m w off (tinc x) in
    vv_pass2 t (no_sample - 1) sample_cnt sp (z + c_len c (tinc x)) m w off
  end.
(** vlc_vector(const Container&) and vlc_vector(int_vector_buffer&) with tb = 64,
    vlc_vector.hpp:187-264.  [Some None] is the logic_error.  m_z.bit_resize leaves the fresh words [g]
    as they are, except that the last partial word is 0, as in [cd_encode] *)
Definition vv_make (g : nat -> N) (l : list N) : option (option vlcv) :=
  if length l =? 0 then Some (Some (mkvlcv [0%N] 0 av_nil 0)) else
  if existsb (fun x => (tinc x <? 1)%N) l then Some None else
  let z := list_sum (map (fun x => c_len c (tinc x)) l) in
  let samples := (length l + dens - 1) / dens in
  let sp := av_new (samples + 1) 0 (hiw (N.of_nat (z + 1))) in
  let m := map g (seq 0 (z / 64 + 1)) in
  let* m := (if negb (z mod 64 =? 0) then st m (z / 64) 0%N else Some m) in
  let* (sp, m) := vv_pass2 l 0 0 sp 0 m 0 0 in
  Some (Some (mkvlcv m z sp (length l))).
(** operator[], vlc_vector.hpp:168-175: decode<false, false> returns the last value *)
Definition vv_get (v : vlcv) (i : nat) : option N :=
  let idx := i / dens in
  let* p := av_get (vv_sp v) idx in
  let* l := cd_decode_n (c_dec c) false (vv_z v) (N.to_nat p) (i - dens * idx + 1) in
  Some (wsub (last l 0%N) 1).
End Vlc.
