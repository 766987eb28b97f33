(** * Properties C05, C07, C24, C26, C32 *)
From Verif Require Import Base Tokens Ast Interner Lexer Driver Spec SmallFacts.
From Coq Require Import String.

(** ** C05 *)
Theorem C05_line_lookup : forall data pos,
  nondecreasing data -> nth_error data 0 = Some 0 ->
  exists l d, line_from_position data pos = Some l /\ nth_error data l = Some d /\ d <= pos /\
    forall k d', l < k -> nth_error data k = Some d' -> pos < d'.
Proof. exact line_lookup. Qed.
Print Assumptions C05_line_lookup.

Theorem C05_line_range : forall data pos end_pos,
  nondecreasing data -> nth_error data 0 = Some 0 -> pos < end_pos ->
  exists l a b, line_from_position data pos = Some l /\ line_range data end_pos l = Some (a, b) /\ a <= pos < b.
Proof. exact line_lookup_range. Qed.
Print Assumptions C05_line_range.

Example C05_example : nondecreasing [0; 6; 6; 11] /\
  line_from_position [0; 6; 6; 11] 7 = Some 2 /\ line_range [0; 6; 6; 11] 20 2 = Some (6, 11).
Proof.
  split; [|split; reflexivity].
  intros i j a b L A B.
  destruct i as [|[|[|[|[|i]]]]]; cbn in A; try discriminate; injection A as <-;
  destruct j as [|[|[|[|[|j]]]]]; cbn in B; try discriminate; injection B as <-; lia.
Qed.

(** ** C07 *)
Theorem C07_interning : forall history : list str,
  let (handles, _) := intern_all interner_new history in
  map rc_str handles = history /\
  forall h h', In h handles -> In h' handles -> (rc_id h = rc_id h' <-> rc_str h = rc_str h').
Proof. exact interner_history. Qed.
Print Assumptions C07_interning.

Example C07_example :
  fst (intern_all interner_new [s2l "a"; s2l "b"; s2l "a"]) =
  [mkRc 0 (s2l "a"); mkRc 1 (s2l "b"); mkRc 0 (s2l "a")].
Proof. reflexivity. Qed.

(** ** C24 *)
Theorem C24_member_modifiers : forall ms m,
  member_modifiers_has (member_modifiers_new ms) m = true <-> In m ms.
Proof. exact member_has. Qed.
Print Assumptions C24_member_modifiers.
Theorem C24_class_modifiers : forall ms m,
  class_modifiers_has (class_modifiers_new ms) m = true <-> In m ms.
Proof. exact class_has. Qed.
Print Assumptions C24_class_modifiers.
Theorem C24_member_set : forall ms ms', (forall m, In m ms <-> In m ms') ->
  member_modifiers_new ms = member_modifiers_new ms'.
Proof. exact member_mods_ext. Qed.
Print Assumptions C24_member_set.
Theorem C24_class_set : forall ms ms', (forall m, In m ms <-> In m ms') ->
  class_modifiers_new ms = class_modifiers_new ms'.
Proof. exact class_mods_ext. Qed.
Print Assumptions C24_class_set.

Example C24_example :
  member_modifiers_new [MStatic; MPublic; MStatic] = member_modifiers_new [MPublic; MStatic] /\
  member_modifiers_has (member_modifiers_new [MStatic; MPublic; MStatic]) MPrivate = false.
Proof. split; reflexivity. Qed.

(** ** C26 *)
Theorem C26_decode_encode : forall s, Forall scalar s -> from_utf8 (encode s) = Some s.
Proof. exact from_utf8_encode. Qed.
Print Assumptions C26_decode_encode.
Theorem C26_decode_only_encodings : forall bs s, from_utf8 bs = Some s -> Forall scalar s /\ encode s = bs.
Proof. exact from_utf8_sound. Qed.
Print Assumptions C26_decode_only_encodings.
Theorem C26_byte_length : forall s, List.length (encode s) = blen s.
Proof. exact encode_blen. Qed.
Print Assumptions C26_byte_length.

Example C26_example :
  Forall scalar [65; 228; 36716; 128512]%N /\
  encode [65; 228; 36716; 128512]%N = [65; 195; 164; 232; 189; 172; 240; 159; 152; 128]%N /\
  from_utf8 [192; 128]%N = None /\ from_utf8 [237; 160; 128]%N = None.
Proof. split; [repeat constructor; unfold scalar; lia|]. repeat split; reflexivity. Qed.

(** ** C32 *)
Theorem C32_search_restores : forall run src count disk,
  touches_own run -> (forall j, j < count -> disk j = src j) ->
  exists r disk', search run src count disk = Some (r, disk') /\ forall j, disk' j = disk j.
Proof.
  intros run src count disk T E. unfold search.
  destruct (search_loop_ok run src T count 0 count disk) as (l & h & d' & H & _ & _ & _ & _ & _ & R);
    [lia|lia|intros; apply E; lia|].
  rewrite H. eauto.
Qed.
Print Assumptions C32_search_restores.

(** The search ends at the first bad file [b]; the final report also indexes the
    file behind it, which panics when [b] is the last file. *)
Theorem C32_search_finds_first_bad : forall run src new bad count disk b,
  checks run src new bad -> bad_changes src new bad ->
  (forall j, j < count \/ bad j -> disk j = src j) ->
  bad b -> b < count -> (forall j, bad j -> b <= j) ->
  exists disk', search run src count disk =
      Some (if S b <? count then inl (b, S b) else inr PIndex, disk') /\
    forall j, disk' j = disk j.
Proof.
  intros run src new bad count disk b C BC E B BL LB. unfold search.
  destruct (search_loop_finds run src new bad C BC count 0 count disk b) as (d' & H & R);
    auto; try lia.
  { intros j J. apply E. intuition lia. }
  rewrite H. exists d'. split; auto. f_equal. f_equal.
  destruct (Nat.ltb_spec b count); [|lia]. reflexivity.
Qed.
Print Assumptions C32_search_finds_first_bad.

(** A tester run satisfying the hypotheses: five files, file 3 is bad. *)
Definition C32_new (i : nat) : str := [N.of_nat i + 100]%N.
Definition C32_src (i : nat) : str := [N.of_nat i]%N.
Definition C32_run (i : nat) (nocheck : bool) (d : fs) : bool * fs :=
  let d' := fs_set d i (C32_new i) in
  (nocheck || str_eqb (d' 3) (C32_src 3), d').
Example C32_example :
  checks C32_run C32_src C32_new (fun j => j = 3) /\ bad_changes C32_src C32_new (fun j => j = 3) /\
  option_map fst (search C32_run C32_src 5 C32_src) = Some (inl (3, 4)) /\
  option_map fst (search C32_run C32_src 4 C32_src) = Some (inr PIndex).
Proof.
  split; [|split; [|split; reflexivity]].
  - intros i nocheck d. split; [reflexivity|split].
    + intros ->. reflexivity.
    + intros ->. unfold C32_run. cbn [orb fst snd]. rewrite str_eqb_eq.
      split; [intros H j ->; auto|intros H; auto].
  - intros j -> H. discriminate.
Qed.
