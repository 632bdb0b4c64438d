(** * Proofs about the RAM file system *)
From Coq Require Import NArith List Bool Arith Lia.
From Verif Require Import Base RamFs SpecRamFs.
Import ListNotations.

Lemma mfind_erase : forall m k k', mfind (merase m k) k' = if name_dec k' k then None else mfind m k'.
Proof.
  induction m as [|[a c] m IH]; intros k k'; cbn [merase mfind]; [destruct (name_dec k' k); reflexivity|].
  destruct (name_dec k a) as [->|E]; [rewrite IH; destruct (name_dec k' a); reflexivity|]. cbn [mfind]. rewrite IH. destruct (name_dec k' a) as [->|E2]; [|reflexivity].
  destruct (name_dec a k); [congruence|reflexivity].
Qed.
Lemma mfind_set : forall m k c k', mfind (mset m k c) k' = if name_dec k' k then Some c else mfind m k'.
Proof. intros. unfold mset. cbn [mfind]. rewrite mfind_erase. destruct (name_dec k' k); reflexivity. Qed.
Lemma mfind_store : forall m k c k', mfind (fs_store m k c) k' = if name_dec k' k then Some c else mfind m k'.
Proof. intros. unfold fs_store. destruct (fs_exists m k); cbn [negb]; [apply mfind_set|reflexivity]. Qed.
Lemma mfind_rename : forall m old new c k', old <> new -> mfind m old = Some c ->
  mfind (fs_rename m old new) k' = if name_dec k' new then Some c else if name_dec k' old then None else mfind m k'.
Proof.
  intros m old new c k' NE E. unfold fs_rename, fs_remove_file. assert (E1 : mindex m old = (c, m)) by (unfold mindex; rewrite E; reflexivity). rewrite E1. destruct (mindex m new) as [c2 m2] eqn:E2. destruct (name_dec old new) as [X|_]; [congruence|].
  rewrite mfind_erase, !mfind_set. unfold mindex in E2. destruct (name_dec k' old) as [->|X]; [destruct (name_dec old new); [congruence|reflexivity]|].
  destruct (name_dec k' new) as [->|Y]; [reflexivity|]. destruct (mfind m new); injection E2 as _ <-; [reflexivity|]. rewrite mfind_set. destruct (name_dec k' new); [congruence|reflexivity].
Qed.
Lemma history_ok : forall l m a, (forall k, mfind m k = a k) -> hist_ok a l -> forall k, mfind (fold_left cop l m) k = fold_left aop l a k.
Proof.
  induction l as [|o l IH]; intros m a H HO k; cbn [fold_left]; [apply H|]. cbn [hist_ok] in HO. destruct HO as [HO HR]. apply IH; auto. intros k'.
  destruct o as [x c|x|x y]; cbn [cop aop].
  - rewrite mfind_store. unfold aset_f. rewrite H. reflexivity.
  - unfold fs_remove_file. rewrite mfind_erase. unfold aset_f. rewrite H. reflexivity.
  - destruct HO as [HO NE]. destruct (a x) as [c|] eqn:E; [|congruence]. rewrite (mfind_rename m x y c); auto; [|rewrite H; auto]. unfold aset_f. rewrite H.
    destruct (name_dec k' y), (name_dec k' x); reflexivity.
Qed.
Lemma observe_ok : forall m k, fs_exists m k = (match mfind m k with Some _ => true | None => false end) /\
  fs_file_size m k = length (match mfind m k with Some c => c | None => [] end) /\ (forall c, mfind m k = Some c -> fs_content m k = (c, m)).
Proof.
  intros m k. split; [reflexivity|]. unfold fs_file_size, fs_content, fs_exists, mindex. destruct (mfind m k) as [c|]; split; auto; intros c' E; [congruence|discriminate].
Qed.
(** ** streams *)
(** an open stream's pointers: put pointer inside, both ends at the vector's end *)
Definition wf (b : fbuf) (p : nat) : Prop := b_p b = p /\ p <= length (b_data b) /\ b_pe b = length (b_data b) /\ b_ge b = length (b_data b).
Lemma upd_split : forall (d : content) p c, p < length d -> upd d p c = firstn p d ++ c :: skipn (p + 1) d.
Proof.
  induction d as [|x d IH]; intros p c H; cbn [length] in H; [lia|]. destruct p as [|p]; [reflexivity|]. cbn [upd firstn app skipn Nat.add]. rewrite IH by lia. reflexivity.
Qed.
Lemma cwop_ok : forall b p o, wf b p -> exists b', cwop b o = Some b' /\ wf b' (snd (awop (b_data b, p) o)) /\ b_data b' = fst (awop (b_data b, p) o).
Proof.
  intros b p o (P & L & PE & GE). destruct o as [mv c|q]; cbn [cwop awop fst snd].
  - unfold fb_sputc. rewrite PE, P. destruct (Nat.ltb_spec p (length (b_data b))) as [H|H].
    + eexists. split; [reflexivity|]. unfold wf. cbn [b_data b_g b_p b_pe b_ge]. rewrite upd_length, <- upd_split by auto. repeat split; auto; lia.
    + eexists. split; [reflexivity|]. unfold wf. cbn [b_data b_g b_p b_pe b_ge]. assert (p = length (b_data b)) by lia. subst p. rewrite H0 in *.
      rewrite app_length, firstn_all, (skipn_all2 (n := length (b_data b) + 1)) by lia. cbn [length]. repeat split; auto; lia.
  - unfold fb_seekpos. destruct (Nat.leb_spec q (length (b_data b))) as [H|H].
    + eexists. split; [reflexivity|]. replace (q - length (b_data b)) with 0 by lia. cbn [repeat]. rewrite app_nil_r. unfold wf, fb_set. cbn. repeat split; auto.
    + eexists. split; [reflexivity|]. unfold wf, fb_set. cbn [b_data b_g b_p b_pe b_ge]. rewrite app_length, repeat_length. repeat split; auto; lia.
Qed.
Lemma cwops_ok : forall l b p, wf b p -> exists b', cwops b l = Some b' /\ wf b' (snd (fold_left awop l (b_data b, p))) /\ b_data b' = fst (fold_left awop l (b_data b, p)).
Proof.
  induction l as [|o l IH]; intros b p W; cbn [cwops fold_left]; [exists b; cbn; auto|]. destruct (cwop_ok b p o W) as (b' & E & W' & D). rewrite E. cbn [obind].
  destruct (IH b' _ W') as (b2 & E2 & W2 & D2). exists b2. rewrite D in *. destruct (awop (b_data b, p) o) as [d q]. cbn [fst snd] in *. auto.
Qed.
Lemma write_cwops : forall mv cs b, fb_write mv b cs = cwops b (map (fun ic => WPut (mv (fst ic)) (snd ic)) (combine (rev (seq 0 (length cs))) cs)).
Proof.
  intros mv. induction cs as [|c cs IH]; intros b; [reflexivity|]. cbn [fb_write length]. rewrite seq_S, rev_app_distr. cbn [rev app combine map cwops cwop fst snd Nat.add].
  destruct (fb_sputc (mv (length cs)) b c); cbn [obind]; auto.
Qed.
Lemma puts_app : forall l d, (forall o, In o l -> exists mv c, o = WPut mv c) -> fold_left awop l (d, length d) = (d ++ flat_map (fun o => match o with WPut _ c => [c] | _ => [] end) l, length d + length l).
Proof.
  induction l as [|o l IH]; intros d H; cbn [fold_left flat_map length]; [rewrite app_nil_r, Nat.add_0_r; reflexivity|].
  destruct (H o (or_introl eq_refl)) as (mv & c & ->). cbn [awop]. rewrite firstn_all, (skipn_all2 (n := length d + 1)) by lia.
  replace (length d + 1) with (length (d ++ [c])) by (rewrite app_length; cbn; lia). rewrite IH by (intros; apply H; right; auto). rewrite app_length. cbn [length app]. rewrite <- app_assoc.
  cbn [app]. apply f_equal. lia.
Qed.
Lemma write_end : forall mv cs b, wf b (length (b_data b)) -> exists b', fb_write mv b cs = Some b' /\ b_data b' = b_data b ++ cs /\ wf b' (length (b_data b')).
Proof.
  intros mv. induction cs as [|c cs IH]; intros b W; cbn [fb_write]; [exists b; rewrite app_nil_r; auto|].
  destruct (cwop_ok b _ (WPut (mv (length cs)) c) W) as (b' & E & W' & D). cbn [cwop] in E. rewrite E. cbn [obind]. cbn [awop fst snd] in W', D.
  rewrite firstn_all, (skipn_all2 (n := length (b_data b) + 1)) in D by lia. assert (LD : length (b_data b') = length (b_data b) + 1) by (rewrite D, app_length; reflexivity).
  rewrite <- LD in W'. destruct (IH b' W') as (b2 & E2 & D2 & W2). exists b2. split; auto. split; auto. rewrite D2, D, <- app_assoc. reflexivity.
Qed.
Lemma read_ok : forall n b g, b_g b = Some g -> b_ge b = length (b_data b) -> exists b', fb_read b n = Some (firstn n (skipn g (b_data b)), b') /\ b_data b' = b_data b /\ b_ge b' = b_ge b /\ b_g b' = Some (Nat.max g (Nat.min (g + n) (length (b_data b)))).
Proof.
  induction n as [|n IH]; intros b g G GE; cbn [fb_read]; [exists b; repeat split; auto; rewrite G; apply f_equal; lia|]. unfold fb_sbumpc. rewrite G, GE.
  destruct (Nat.ltb_spec g (length (b_data b))) as [H|H].
  - destruct (nth_error (b_data b) g) as [c|] eqn:E; [|apply nth_error_None in E; lia]. cbn [obind fst snd].
    destruct (IH {| b_data := b_data b; b_g := Some (g + 1); b_ge := length (b_data b); b_p := b_p b; b_pe := b_pe b |} (g + 1) eq_refl eq_refl) as (b' & E' & D' & GE' & G'). rewrite E'. cbn [obind fst snd]. exists b'.
    cbn [b_data b_g b_ge] in *. split; [|split; [|split]]; auto; [|rewrite G'; apply f_equal; lia].
    assert (SK : skipn g (b_data b) = c :: skipn (g + 1) (b_data b)).
    { clear - E. revert g E. induction (b_data b) as [|x l IH]; intros [|g] E; cbn in *; try discriminate; [congruence|]. apply IH. auto. }
    rewrite SK. reflexivity.
  - cbn [obind fst snd]. exists b. rewrite skipn_all2 by lia. cbn [firstn]. repeat split; auto. rewrite G. apply f_equal. lia.
Qed.
Definition md_o := {| md_in := false; md_out := true; md_trunc := false; md_app := false |}.
Definition md_i := {| md_in := true; md_out := false; md_trunc := false; md_app := false |}.
Lemma open_out : forall m k, exists m', fb_open m k md_o = (Some (fb_set [] 0 0), m') /\ forall k', k' <> k -> mfind m' k' = mfind m k'.
Proof.
  intros m k. unfold fb_open. cbn [md_o md_in md_out md_trunc md_app andb negb]. destruct (fs_content _ k) as [c m2] eqn:E. eexists. split; [reflexivity|]. intros k' NE. rewrite mfind_set.
  destruct (name_dec k' k); [congruence|]. unfold fs_content, mindex in E. destruct (negb (fs_exists m k)).
  - assert (X : mfind (fs_store m k []) k = Some []) by (rewrite mfind_store; destruct (name_dec k k); congruence). rewrite X in E. injection E as _ <-. rewrite mfind_store. destruct (name_dec k' k); congruence.
  - destruct (mfind m k); injection E as _ <-; auto. rewrite mfind_set. destruct (name_dec k' k); congruence.
Qed.
Lemma open_in : forall m k, fb_open m k md_i = (match mfind m k with Some c => Some (fb_set c 0 0) | None => None end, m).
Proof. intros m k. unfold fb_open. cbn [md_i md_in md_out md_trunc md_app andb negb]. destruct (mfind m k); reflexivity. Qed.
Lemma stream_round : forall m k ops, exists m1 b b', fb_open m k md_o = (Some b, m1) /\ cwops b ops = Some b' /\
  let d := fst (fold_left awop ops ([], 0)) in
  (forall k', mfind (fb_close m1 k b') k' = if name_dec k' k then Some d else mfind m k') /\
  forall pos n, pos <= length d -> exists r r' r'', fb_open (fb_close m1 k b') k md_i = (Some r, fb_close m1 k b') /\ fb_seekpos r pos false = Some r' /\ fb_read r' n = Some (firstn n (skipn pos d), r'').
Proof.
  intros m k ops. destruct (open_out m k) as (m1 & E & F). destruct (cwops_ok ops (fb_set [] 0 0) 0) as (b' & E2 & W & D); [unfold wf, fb_set; cbn; auto|].
  exists m1, (fb_set [] 0 0), b'. split; auto. split; auto. cbn [fb_set b_data] in D. split.
  - intros k'. unfold fb_close. rewrite mfind_set, D. destruct (name_dec k' k); auto.
  - intros pos n Hp. rewrite open_in. unfold fb_close at 1. rewrite mfind_set. destruct (name_dec k k) as [_|X]; [|congruence]. rewrite D.
    set (d := fst (fold_left awop ops ([], 0))) in *. exists (fb_set d 0 0), (fb_set d pos pos).
    destruct (read_ok n (fb_set d pos pos) pos eq_refl eq_refl) as (r'' & R & _). exists r''. split; auto. split; auto. unfold fb_seekpos. cbn [fb_set b_data].
    destruct (Nat.leb_spec pos (length d)); [reflexivity|lia].
Qed.
Lemma write_read : forall m k mv cs, exists m1 b b', fb_open m k md_o = (Some b, m1) /\ fb_write mv b cs = Some b' /\ fs_content (fb_close m1 k b') k = (cs, fb_close m1 k b').
Proof.
  intros m k mv cs. destruct (open_out m k) as (m1 & E & F). destruct (write_end mv cs (fb_set [] 0 0)) as (b' & E2 & D & W); [unfold wf, fb_set; cbn; auto|].
  exists m1, (fb_set [] 0 0), b'. split; auto. split; auto. unfold fs_content, mindex, fb_close. rewrite mfind_set. destruct (name_dec k k); [|congruence]. rewrite D. reflexivity.
Qed.
Lemma names_ok : forall f, is_ram_file (ram_file_name f) = true /\ ram_file_name (ram_file_name f) = ram_file_name f /\
  (is_ram_file f = false -> disk_file_name (ram_file_name f) = f /\ disk_file_name f = f) /\
  (is_ram_file f = true -> ram_file_name f = f /\ (is_ram_file (disk_file_name f) = false -> ram_file_name (disk_file_name f) = f)).
Proof.
  intros f. unfold disk_file_name, ram_file_name. destruct (is_ram_file f) eqn:E; cbn [negb]; rewrite ?E; cbn [negb tl].
  - repeat split; auto; try discriminate. destruct f as [|x f]; [discriminate|]. cbn [is_ram_file tl] in *. apply N.eqb_eq in E. subst x. intros H2. rewrite H2. reflexivity.
  - repeat split; auto; discriminate.
Qed.
