(** * LexMore: white space, comments, HTML, property names, nowdocs *)
From Verif Require Import Base Tokens Lexer Spec SmallFacts LexBase LexSteps LexWords LexTok LexStr.
From Coq Require Import String.

Lemma find_close w r : no_close w -> find_sub (s2l "*/") (w ++ s2l "*/" ++ r) = Some (blen w).
Proof.
  induction w as [|c w IH]; intros N; [reflexivity|].
  assert (N' : no_close w).
  { intros a b E. apply (N (c :: a) b). rewrite E. reflexivity. }
  cbn [app find_sub blen]. replace (starts_with (s2l "*/") (c :: w ++ s2l "*/" ++ r)) with false.
  - rewrite IH; auto.
  - symmetry. destruct (starts_with _ _) eqn:E; auto. exfalso. apply starts_with_iff in E. destruct E as (q & E).
    change (s2l "*/" ++ q) with (42%N :: 47%N :: q) in E. injection E as -> E.
    destruct w as [|d w].
    + discriminate.
    + injection E as -> E. apply (N [] w). reflexivity.
Qed.
Lemma next_lines_facts n s : src_pos (next_lines n s) = src_pos s /\ ctl (next_lines n s) = ctl s.
Proof. revert s. induction n as [|n IH]; intros s; [auto|]. cbn [next_lines]. destruct (IH (next_line_st s)) as [A B]. rewrite A, B. auto. Qed.

Section More.
Variable code : str.
Notation at_ := (at_ code).
Variable nt : T tokspan.
Variable lf : nat.

(** ** White space *)
Lemma ws_split w r s : Forall (fun c => is_ws c = true) w ->
  whitespace_loop (w ++ r) s = whitespace_loop r (whitespace_loop w s).
Proof.
  intros F. revert s. induction F as [|c w E F IH]; intros s; [reflexivity|]. cbn [app whitespace_loop].
  unfold is_ws in E. destruct ((c =? 32) || (c =? 9) || (c =? 13))%N; [apply IH|]. cbn in E. rewrite E. apply IH.
Qed.
Lemma ws_skip w r s : Forall (fun c => is_ws c = true) w -> at_ s (w ++ r) ->
  at_ (whitespace_loop w s) r /\ ctl (whitespace_loop w s) = ctl s /\ src_pos s <= src_pos (whitespace_loop w s) /\
  whitespace code s = whitespace code (whitespace_loop w s).
Proof.
  intros F A.
  assert (X : at_ (whitespace_loop w s) r /\ ctl (whitespace_loop w s) = ctl s /\ src_pos s <= src_pos (whitespace_loop w s)).
  { clear - F A. revert s A. induction F as [|c w E F IH]; intros s A; [auto|].
    cbn [app whitespace_loop] in *. pose proof (ws_clen c E) as L. unfold is_ws in E.
    assert (A' : at_ (set_pos (src_pos s + 1) s) (w ++ r)).
    { apply (at_move_eq code s [c] (w ++ r)); auto. cbn. lia. }
    destruct ((c =? 32) || (c =? 9) || (c =? 13))%N.
    + apply IH in A'. cbn in A'. intuition lia.
    + cbn in E. rewrite E.
      assert (A'' : at_ (next_line_st (set_pos (src_pos s + 1) s)) (w ++ r)) by (eapply at_same; [|exact A']; reflexivity).
      apply IH in A''. cbn in A''. intuition lia. }
  destruct X as (X1 & X2 & X3). split; [|split; [|split]]; auto.
  unfold whitespace. rewrite (tbind_input _ _ _ _ A), (tbind_input _ _ _ _ X1), ws_split; auto.
Qed.

(** ** Comments *)
Lemma comm_chain s c r t s' : at_ s (c :: r) -> (c = 35 \/ c = 47)%N -> match_comments code s = TOk t s' ->
  in_scripting_token code nt lf s = TOk t s'.
Proof.
  intros H C M. unfold in_scripting_token. unfold tbind at 1, whitespace. rewrite (tbind_input _ _ _ _ H).
  rewrite ws_none by (destruct C; subst; reflexivity). rewrite (tbind_input _ _ _ _ H). unfold tbind at 1, input_pos at 1.
  rewrite (ret_none _ _ _ _ (doc_none code nt lf s _ H ltac:(destruct C; subst; reflexivity) ltac:(destruct C; subst; reflexivity))).
  rewrite (ret_none (bnum code) _ s s (pnum_none code s _ (s2l "0b") _ _ H ltac:(destruct C; subst; reflexivity))).
  rewrite (ret_none (hnum code) _ s s (pnum_none code s _ (s2l "0x") _ _ H ltac:(destruct C; subst; reflexivity))).
  rewrite (ret_none _ _ _ _ (onum_none code s _ H ltac:(destruct C; subst; reflexivity))).
  rewrite (ret_none _ _ _ _ (dq_none code nt lf s _ H ltac:(destruct C; subst; reflexivity) ltac:(destruct C; subst; reflexivity))).
  rewrite (ret_none _ _ _ _ (var_none code s _ H ltac:(destruct C; subst; reflexivity))).
  rewrite (ret_none _ _ _ _ (sq_none code lf s _ H ltac:(destruct C; subst; reflexivity) ltac:(destruct C; subst; reflexivity))).
  apply ret_ok. exact M.
Qed.
Lemma line_comment s hash w r : at_ s (s2l (if hash : bool then "#" else "//") ++ w ++ r) -> ~ In 10%N w ->
  head_is (fun c => negb (c =? 10)%N) r = false ->
  exists sp s', in_scripting_token code nt lf s = TOk (TComment w, sp) s' /\ at_ s' r /\ ctl s' = ctl s /\
    sp_start sp = src_pos s /\ src_pos s <= src_pos s'.
Proof.
  intros H N R.
  set (p := s2l (if hash : bool then "#" else "//")) in *.
  assert (M : match_comments code s =
    TOk (TComment w, mk_span (src_pos s) (src_pos s + blen p + blen w)) (next_lines (lines_count w - 1) (set_pos (src_pos s + blen p + blen w) s))).
  { unfold match_comments. rewrite (tbind_input _ _ _ _ H). unfold tbind at 1, input_pos at 1.
    pose proof (at_move code s p (w ++ r) H) as H1. pose proof (at_move code _ w r H1) as H2. cbn [src_pos set_pos] in H2. rewrite set_pos2 in H2.
    assert (S1 : (if starts_with_c 35 (p ++ w ++ r) then 1 else if starts_with (s2l "//") (p ++ w ++ r) then 2 else 0) = blen p) by (destruct hash; reflexivity).
    rewrite S1. assert (S2 : (0 <? blen p) = true) by (destruct hash; reflexivity). rewrite S2.
    unfold tbind at 1. rewrite (adv_bytes code s p (w ++ r) H). rewrite (tbind_input _ _ _ _ H1).
    assert (E : firstn (match position (fun x => x =? 10)%N (w ++ r) with Some e => e | None => blen (w ++ r) end) (w ++ r) = w).
    { rewrite position_app; auto.
      - destruct r; [|rewrite firstn_app, Nat.sub_diag, firstn_all, firstn_O, app_nil_r; auto].
        rewrite !app_nil_r. apply firstn_all2. apply blen_ge.
      - apply Forall_forall. intros x I. apply N.eqb_neq. intros ->. auto. }
    unfold tbind at 1, advance_chars. rewrite (tbind_input _ _ _ _ H1), E, (adv_bytes code _ w r H1).
    destruct (next_lines_facts (lines_count w - 1) (set_pos (src_pos s + blen p + blen w) s)) as [Q _].
    unfold tbind, input_pos, tret. cbn [src_pos set_pos]. rewrite set_pos2, Q. reflexivity. }
  eexists. eexists. split; [|].
  - eapply (comm_chain s (hd 0%N p) (tl p ++ w ++ r)); [|destruct hash; [left|right]; reflexivity|exact M].
    destruct hash; exact H.
  - destruct (next_lines_facts (lines_count w - 1) (set_pos (src_pos s + blen p + blen w) s)) as [Q1 Q2].
    split; [|split; [rewrite Q2; reflexivity|split; [reflexivity|rewrite Q1; cbn; lia]]].
    eapply at_same; [symmetry; exact Q1|]. pose proof (at_move code s p (w ++ r) H) as H1. exact (at_move code _ w r H1).
Qed.
Definition block_body (w : str) : str := if starts_with_c 42 w then tl w else w.
Lemma block_comment s w r : at_ s (s2l "/*" ++ w ++ s2l "*/" ++ r) -> w <> [] -> no_close w ->
  exists sp s', in_scripting_token code nt lf s = TOk (TComment (block_body w), sp) s' /\ at_ s' r /\ ctl s' = ctl s /\
    sp_start sp = src_pos s /\ src_pos s <= src_pos s'.
Proof.
  intros H NE N.
  assert (G : exists p w' doc, block_body w = w' /\ s2l "/*" ++ w = p ++ w' /\ no_close w' /\ starts_with (s2l "/**") (s2l "/*" ++ w ++ s2l "*/" ++ r) = doc
     /\ (if doc : bool then 3 else 2) = blen p).
  { destruct w as [|c w]; [congruence|]. destruct (N.eqb_spec c 42) as [->|X].
    - exists (s2l "/**"), w, true. split; [reflexivity|]. split; [reflexivity|]. split; [|split; reflexivity].
      intros a b E. apply (N (42%N :: a) b). rewrite E. reflexivity.
    - exists (s2l "/*"), (c :: w), false. split; [unfold block_body; cbn; rewrite (proj2 (N.eqb_neq c 42) X); reflexivity|]. split; [reflexivity|]. split; auto. split; [|reflexivity].
      change (starts_with (s2l "/**") (s2l "/*" ++ (c :: w) ++ s2l "*/" ++ r) = false). apply not_true_iff_false. intros Z. apply starts_with_iff in Z. destruct Z as (q & Z). injection Z as Z _. congruence. }
  destruct G as (p & w' & doc & BB & E & N' & D & L). rewrite BB.
  assert (H0 : at_ s (p ++ w' ++ s2l "*/" ++ r)).
  { rewrite (app_assoc p), <- E, <- app_assoc. exact H. }
  pose proof (at_move code s p _ H0) as H1. pose proof (at_move code _ w' _ H1) as H2. pose proof (at_move code _ (s2l "*/") r H2) as H3.
  cbn [src_pos set_pos] in H2, H3. rewrite !set_pos2 in H2, H3.
  eexists. eexists. split.
  - eapply (comm_chain s 47%N (s2l "*" ++ w ++ s2l "*/" ++ r)); [exact H|right; reflexivity|].
    unfold match_comments. rewrite (tbind_input _ _ _ _ H). unfold tbind at 1, input_pos at 1. rewrite D.
    change (starts_with_c 35 (s2l "/*" ++ w ++ s2l "*/" ++ r)) with false.
    replace (starts_with (s2l "//") (s2l "/*" ++ w ++ s2l "*/" ++ r)) with false by reflexivity.
    replace (starts_with (s2l "/*") (s2l "/*" ++ w ++ s2l "*/" ++ r)) with true by reflexivity.
    cbv zeta. rewrite L. replace (0 <? 0) with false by reflexivity. replace (0 <? blen p) with true by (rewrite <- L; destruct doc; reflexivity).
    unfold tbind at 1. rewrite (adv_bytes code s p _ H0). rewrite (tbind_input _ _ _ _ H1), find_close by auto.
    unfold tbind at 1. rewrite (adv_bytes code _ w' _ H1). unfold tbind at 1. cbn [src_pos set_pos]. rewrite !set_pos2.
    rewrite (adv_bytes_n code _ (s2l "*/") r 2 H2 eq_refl). unfold tbind at 1. unfold tbind, input_pos, tret. reflexivity.
  - cbn [src_pos set_pos]. rewrite !set_pos2.
    destruct (next_lines_facts (lines_count w' - 1) (set_pos (src_pos s + blen p + blen w' + 2) s)) as [Q1 Q2].
    split; [|split; [rewrite Q2; reflexivity|split; [destruct doc; reflexivity|rewrite Q1; cbn; lia]]].
    eapply at_same; [symmetry; exact Q1|]. exact H3.
Qed.

(** ** HTML and tags *)
Lemma find_tag w r : no_tag w -> find_sub (s2l "<?") (w ++ s2l "<?" ++ r) = Some (blen w).
Proof.
  induction w as [|c w IH]; intros N; [reflexivity|].
  assert (N' : no_tag w).
  { intros a b E. apply (N (c :: a) b). rewrite E. reflexivity. }
  cbn [app find_sub blen]. replace (starts_with (s2l "<?") (c :: w ++ s2l "<?" ++ r)) with false.
  - rewrite IH; auto.
  - symmetry. destruct (starts_with _ _) eqn:E; auto. exfalso. apply starts_with_iff in E. destruct E as (q & E).
    change (s2l "<?" ++ q) with (60%N :: 63%N :: q) in E. injection E as -> E.
    destruct w as [|d w].
    + discriminate.
    + injection E as -> E. apply (N [] w). reflexivity.
Qed.
Lemma find_tag_none w : no_tag w -> find_sub (s2l "<?") w = None.
Proof.
  induction w as [|c w IH]; intros N; [reflexivity|].
  assert (N' : no_tag w).
  { intros a b E. apply (N (c :: a) b). rewrite E. reflexivity. }
  cbn [find_sub]. rewrite (IH N'). replace (starts_with (s2l "<?") (c :: w)) with false; [reflexivity|].
  symmetry. destruct (starts_with _ _) eqn:E; auto. exfalso. apply starts_with_iff in E. destruct E as (q & E).
  exact (N [] q E).
Qed.
Definition tag_or_end (r : str) : Prop := r = [] \/ exists q, r = s2l "<?" ++ q.
Lemma alias_no s inp al k a : at_ s inp -> asciib (s2l al) = true -> to_lower (s2l al) = s2l al -> starts_with (s2l al) inp = false ->
  match_token_alias code (s2l al) k a s = TErr SENone s.
Proof. intros H A L S. rewrite (match_alias code s inp al k a H (proj1 (asciib_iff _) A)), L, S. reflexivity. Qed.
Lemma html_tok s w r : at_ s (w ++ r) -> w <> [] -> no_tag w -> tag_or_end r ->
  initial_token code s = TOk (TInlineHtml w, mk_span (src_pos s) (src_pos s + blen w)) (set_pos (src_pos s + blen w) s).
Proof.
  intros H NE N R. unfold initial_token. rewrite (tbind_input _ _ _ _ H).
  assert (S : forall x, starts_with (s2l "<?" ++ x) (w ++ r) = false).
  { intros x. destruct (starts_with _ _) eqn:E; auto. exfalso. apply starts_with_iff in E. destruct E as (q & E).
    cbn [app s2l] in E. destruct w as [|c w]; [congruence|]. injection E as -> E. destruct w as [|d w].
    - destruct R as [->|(y & ->)]; discriminate.
    - injection E as -> E. exact (N [] w eq_refl). }
  assert (F : match find_sub (s2l "<?") (w ++ r) with Some x => x | None => blen (w ++ r) end = blen w).
  { destruct R as [->|(q & ->)]; [rewrite app_nil_r, find_tag_none; auto|rewrite find_tag; auto]. }
  assert (M : forall (x y : T tokspan), match w ++ r with [] => x | _ :: _ => y end = y) by (destruct w; [congruence|reflexivity]). rewrite M. clear M.
  rewrite (ret_none _ _ _ _ (alias_no s _ "<?=" _ _ H eq_refl eq_refl (S (s2l "=")))).
  rewrite (ret_none _ _ _ _ (alias_no s _ "<?php" _ _ H eq_refl eq_refl (S (s2l "php")))).
  rewrite (ret_none _ _ _ _ (alias_no s _ "<?" _ _ H eq_refl eq_refl (S []))).
  cbv zeta. rewrite F. assert (B : (blen w =? 0) = false).
  { apply Nat.eqb_neq. destruct w as [|c w]; [congruence|]. cbn. pose proof (clen_pos c). lia. }
  rewrite B. cbn [negb]. unfold tbind at 1, input_pos at 1. unfold tbind at 1. rewrite (adv_bytes code s w r H).
  destruct w as [|c w]; [congruence|]. reflexivity.
Qed.
Lemma open_php s r : at_ s (s2l "<?php" ++ r) ->
  initial_token code s = TOk (Kw KOpenTag, mk_span (src_pos s) (src_pos s + 5)) (set_mode LInScripting (set_pos (src_pos s + 5) s)).
Proof.
  intros H. unfold initial_token. rewrite (tbind_input _ _ _ _ H).
  change (match s2l "<?php" ++ r with [] => _ | _ :: _ => ?b end) with b.
  rewrite (ret_none _ _ _ _ (alias_no s _ "<?=" _ _ H eq_refl eq_refl eq_refl)).
  apply ret_ok. rewrite (match_alias code s _ "<?php" _ _ H (proj1 (asciib_iff _) (eq_refl : asciib (s2l "<?php") = true))).
  change (to_lower (s2l "<?php")) with (s2l "<?php"). rewrite starts_with_app. reflexivity.
Qed.
Lemma open_echo s r : at_ s (s2l "<?=" ++ r) ->
  initial_token code s = TOk (Kw KOpenTagWithEcho, mk_span (src_pos s) (src_pos s + 3)) (set_mode LInScripting (set_pos (src_pos s + 3) s)).
Proof.
  intros H. unfold initial_token. rewrite (tbind_input _ _ _ _ H).
  change (match s2l "<?=" ++ r with [] => _ | _ :: _ => ?b end) with b.
  apply ret_ok. rewrite (match_alias code s _ "<?=" _ _ H (proj1 (asciib_iff _) (eq_refl : asciib (s2l "<?=") = true))).
  change (to_lower (s2l "<?=")) with (s2l "<?="). rewrite starts_with_app. reflexivity.
Qed.
Lemma html_end s : at_ s [] -> initial_token code s = TOk (end_token code) (set_mode LDone s).
Proof. intros H. unfold initial_token. rewrite (tbind_input _ _ _ _ H). reflexivity. Qed.
Lemma script_end s : at_ s [] -> in_scripting_token code nt lf s = TOk (end_token code) s.
Proof.
  intros H. unfold in_scripting_token. unfold tbind at 1, whitespace. rewrite (tbind_input _ _ _ _ H). cbn [whitespace_loop].
  rewrite (tbind_input _ _ _ _ H). reflexivity.
Qed.

(** ** Property names *)
Lemma prop_tok s w r m st : at_ s (w ++ r) -> name_ok w = true -> ends_word r = true -> lstack s = m :: st ->
  looking_for_property_token code s =
  TOk (TString w, mk_span (src_pos s) (src_pos s + List.length w)) (set_mode m (set_stack st (set_pos (src_pos s + blen w) s))).
Proof.
  intros H N E ST. destruct (name_facts w N) as (N1 & N2 & N3).
  unfold looking_for_property_token. unfold tbind at 1, whitespace. rewrite (tbind_input _ _ _ _ H).
  assert (W : exists c q, w ++ r = c :: q /\ is_label_char c = true).
  { destruct w as [|c w]; [congruence|]. inversion N2; subst. exists c, (w ++ r). auto. }
  destruct W as (c & q & W & LC). rewrite W at 1. rewrite ws_none by (unfold is_ws; rewrite !(label_not c) by (auto; reflexivity); reflexivity).
  assert (S : starts_with (s2l "->") (w ++ r) = false).
  { rewrite W. apply not_true_iff_false. intros Z. apply starts_with_iff in Z. destruct Z as (z & Z). injection Z as -> Z. discriminate. }
  rewrite (ret_none _ _ _ _ (alias_no s _ "->" _ _ H eq_refl eq_refl S)).
  unfold tbind at 1. rewrite (label_at code s w r H N1 N2 N3).
  - unfold tbind, pop_state. cbn [lstack set_pos]. rewrite ST. reflexivity.
  - rewrite ends_label in E. apply negb_true_iff. auto.
Qed.
(** no name follows: back to the mode below *)
Lemma prop_none s inp m st : at_ s inp -> head_is is_ws inp = false -> starts_with (s2l "->") inp = false ->
  head_is (fun c => is_label_char c && negb (is_digit c)) inp = false -> lstack s = m :: st ->
  looking_for_property_token code s = TErr SENone (set_restart true (set_mode m (set_stack st s))).
Proof.
  intros H W S L ST. unfold looking_for_property_token. unfold tbind at 1, whitespace. rewrite (tbind_input _ _ _ _ H).
  assert (E : whitespace_loop inp s = s).
  { destruct inp as [|c r]; [reflexivity|]. apply ws_none. exact W. }
  rewrite E. rewrite (ret_none _ _ _ _ (alias_no s _ "->" _ _ H eq_refl eq_refl S)).
  unfold tbind at 1. rewrite (label_none code s _ H L). unfold tbind, pop_state. rewrite ST. reflexivity.
Qed.

(** ** Nowdocs *)
Definition end_of_doc (r : str) : Prop := exists q, r = 10%N :: q \/ r = 59%N :: 10%N :: q.
Lemma doc_line_special w : doc_line w = true -> Forall (fun c => doc_special c = false) w.
Proof.
  unfold doc_line. intros H. rewrite forallb_forall in H. apply Forall_forall. intros x I. specialize (H x I).
  apply negb_true_iff in H. exact H.
Qed.
Lemma doc_ret tag r s : at_ s (tag ++ r) -> end_of_doc r ->
  forall K : T (bytes * list tokspan), forall b : bytes * list tokspan,
  exists s', (advance_bytes code (blen tag) ;;; old_pos <- input_pos ;; inp4 <- input code ;;
          (if starts_with_c 59 inp4 then advance_bytes code 1 ;;; tret tt else tret tt) ;;;
          nl <- newline code ;;
          if (nl : bool) then put_pos old_pos ;;; tret b else K) s = TOk b s' /\ at_ s' r /\ ctl s' = ctl s.
Proof.
  intros H (q & R) K b. pose proof (at_move code s tag r H) as H1.
  unfold tbind at 1. rewrite (adv_bytes code s tag r H). unfold tbind at 1, input_pos at 1. rewrite (tbind_input _ _ _ _ H1).
  assert (NL : forall s1 q, at_ s1 (10%N :: q) -> newline code s1 = TOk true (next_line_st (set_pos (src_pos s1 + 1) s1))).
  { intros s1 q1 A. unfold newline. rewrite (tbind_input _ _ _ _ A). cbn [starts_with starts_with_c]. 
    change (13 =? 10)%N with false. cbn [andb]. rewrite N.eqb_refl. cbn [orb].
    unfold tbind at 1. rewrite (adv_bytes_n code s1 [10%N] q1 1 A eq_refl). reflexivity. }
  destruct R as [->| ->].
  - cbn [starts_with_c]. change (10 =? 59)%N with false. unfold tbind at 1, tret at 1. unfold tbind at 1. rewrite (NL _ _ H1).
    unfold tbind, put_pos, tret. eexists. split; [reflexivity|]. split; [|reflexivity].
    eapply at_same; [|exact H1]. reflexivity.
  - cbn [starts_with_c]. rewrite N.eqb_refl. unfold tbind at 1. unfold tbind at 1. rewrite (adv_bytes_n code _ [59%N] _ 1 H1 eq_refl). unfold tret at 1.
    pose proof (at_move_eq code _ [59%N] (10%N :: q) (src_pos (set_pos (src_pos s + blen tag) s) + 1) H1 eq_refl) as H2.
    unfold tbind at 1. rewrite (NL _ _ H2).
    unfold tbind, put_pos, tret. eexists. split; [reflexivity|]. split; [|reflexivity].
    eapply at_same; [|exact H1]. reflexivity.
Qed.
Lemma doc_loop_at : forall ls n l tag r s bak bs, at_ s (l ++ flat_map (fun l => 10%N :: l) ls ++ 10%N :: tag ++ r) ->
  doc_line l = true -> forallb doc_line ls = true -> Forall (fun l => starts_with tag (l ++ [10%N]) = false) ls -> name_ok tag = true -> end_of_doc r -> List.length ls < n ->
  exists s', doc_loop code nt lf n bak tag true bs [] s = TOk (bs ++ encode (l ++ flat_map (fun l => 10%N :: l) ls), []) s' /\ at_ s' r /\ ctl s' = ctl s.
Proof.
  induction ls as [|l2 ls IH]; intros n l tag r s bak bs H L LS TG NT E LN; (destruct n as [|n]; [cbn in LN; lia|]).
  - cbn [flat_map app] in *. rewrite app_nil_r. cbn [doc_loop]. rewrite (tbind_input _ _ _ _ H).
    rewrite position_app by (auto using doc_line_special).
    unfold tbind at 1. rewrite (adv_chars code s l _ _ H eq_refl). pose proof (at_move code s l _ H) as H1.
    rewrite (tbind_input _ _ _ _ H1). rewrite N.eqb_refl. unfold tbind at 1. rewrite (adv_bytes_n code _ [10%N] _ 1 H1 eq_refl).
    unfold tbind at 1, next_line at 1.
    pose proof (at_move_eq code _ [10%N] (tag ++ r) (src_pos (set_pos (src_pos s + blen l) s) + 1) H1 eq_refl) as H2.
    match type of H2 with at_ ?s2 _ => assert (H3 : at_ (next_line_st s2) (tag ++ r)) by (eapply at_same; [|exact H2]; reflexivity) end.
    rewrite (tbind_input _ _ _ _ H3). rewrite starts_with_app.
    edestruct (doc_ret tag r _ H3 E) as (s' & A & B & C). exists s'. split; [exact A|]. split; [exact B|]. rewrite C. reflexivity.
  - cbn [flat_map] in *. cbn [forallb] in LS. apply andb_prop in LS. destruct LS as [L2 LS]. inversion TG as [|? ? T1 T2]; subst.
    cbn [app] in H. cbn [doc_loop]. rewrite (tbind_input _ _ _ _ H).
    rewrite position_app by (auto using doc_line_special).
    unfold tbind at 1. rewrite (adv_chars code s l _ _ H eq_refl). pose proof (at_move code s l _ H) as H1.
    rewrite (tbind_input _ _ _ _ H1). rewrite N.eqb_refl. unfold tbind at 1. rewrite (adv_bytes_n code _ [10%N] _ 1 H1 eq_refl).
    unfold tbind at 1, next_line at 1. rewrite <- app_assoc in *.
    pose proof (at_move_eq code _ [10%N] (l2 ++ flat_map (fun l => 10%N :: l) ls ++ 10%N :: tag ++ r) (src_pos (set_pos (src_pos s + blen l) s) + 1) H1 eq_refl) as H2.
    match type of H2 with at_ ?s2 _ => assert (H3 : at_ (next_line_st s2) (l2 ++ flat_map (fun l => 10%N :: l) ls ++ 10%N :: tag ++ r)) by (eapply at_same; [|exact H2]; reflexivity) end.
    rewrite (tbind_input _ _ _ _ H3).
    assert (S : starts_with tag (l2 ++ flat_map (fun l => 10%N :: l) ls ++ 10%N :: tag ++ r) = false).
    { apply not_true_iff_false. intros X.
      assert (Y : exists y, l2 ++ flat_map (fun l => 10%N :: l) ls ++ 10%N :: tag ++ r = l2 ++ 10%N :: y).
      { destruct ls as [|l3 ls]; cbn [flat_map app]; eauto. }
      destruct Y as (y & Y). rewrite Y in X. clear - X T1 NT.
      assert (Z : forall t a y, Forall (fun c => is_label_char c = true) t -> starts_with t (a ++ 10%N :: y) = true -> starts_with t (a ++ [10%N]) = true).
      { induction t as [|c t IH]; intros a z F X'; [reflexivity|]. inversion F; subst. destruct a as [|d a]; cbn in *.
        - apply andb_prop in X'. destruct X' as [X1 X2]. apply N.eqb_eq in X1. subst. discriminate.
        - apply andb_prop in X'. destruct X' as [X1 X2]. rewrite X1. cbn. eapply IH; eauto. }
      apply name_facts in NT. destruct NT as (_ & F & _). rewrite (Z _ _ _ F X) in T1. discriminate. }
    rewrite S. edestruct (IH n l2 tag r _ bak (bs ++ encode l ++ [10%N]) H3 L2 LS T2 NT E) as (s' & A & B & C); [cbn in LN; lia|].
    exists s'. split; [|split; [exact B|rewrite C; reflexivity]]. etransitivity; [exact A|]. f_equal. f_equal.
    rewrite <- !app_assoc. f_equal. rewrite !encode_app. reflexivity.
Qed.
Lemma nowdoc_tok s tag l ls r : at_ s (s2l "<<<'" ++ tag ++ s2l "'" ++ 10%N :: l ++ flat_map (fun l => 10%N :: l) ls ++ 10%N :: tag ++ r) ->
  doc_line l = true -> forallb doc_line ls = true -> Forall (fun l => starts_with tag (l ++ [10%N]) = false) ls -> name_ok tag = true -> end_of_doc r -> List.length ls < lf ->
  Forall scalar (l ++ flat_map (fun l => 10%N :: l) ls) ->
  exists s', in_scripting_token code nt lf s = TOk (TCes (l ++ flat_map (fun l => 10%N :: l) ls), mk_span (src_pos s) (src_pos s')) s' /\ at_ s' r /\ ctl s' = ctl s.
Proof.
  intros H L LS TG NT E LN SC.
  destruct (name_facts tag NT) as (N1 & N2 & N3).
  pose proof (at_move_eq code s (s2l "<<<") (39%N :: tag ++ 39%N :: 10%N :: l ++ flat_map (fun l => 10%N :: l) ls ++ 10%N :: tag ++ r) (src_pos s + 3) H eq_refl) as H1.
  pose proof (at_move_eq code _ [39%N] _ (src_pos s + 3 + 1) H1 eq_refl) as H2. rewrite set_pos2 in H2.
  pose proof (at_move code _ tag _ H2) as H3. rewrite set_pos2 in H3. cbn [src_pos set_pos] in H3.
  pose proof (at_move_eq code _ [39%N] _ (src_pos s + 3 + 1 + blen tag + 1) H3 eq_refl) as H4. rewrite set_pos2 in H4.
  pose proof (at_move_eq code _ [10%N] _ (src_pos s + 3 + 1 + blen tag + 1 + 1) H4 eq_refl) as H5. rewrite set_pos2 in H5.
  match type of H5 with at_ ?s2 ?i => assert (H6 : at_ (next_line_st s2) i) by (eapply at_same; [|exact H5]; reflexivity) end.
  destruct (doc_loop_at ls lf l tag r _ s [] H6 L LS TG NT E LN) as (s' & A & B & C).
  exists s'. split; [|split; [exact B|rewrite C; reflexivity]].
  assert (M : match_here_now_doc code nt lf s = TOk (TCes (l ++ flat_map (fun l => 10%N :: l) ls), mk_span (src_pos s) (src_pos s')) s').
  { unfold match_here_now_doc. rewrite (tbind_input _ _ _ _ H).
    assert (BL : (blen (s2l "<<<'" ++ tag ++ s2l "'" ++ 10%N :: l ++ flat_map (fun l => 10%N :: l) ls ++ 10%N :: tag ++ r) <? 8) = false).
    { apply Nat.ltb_ge. rewrite !blen_app. cbn [blen]. rewrite !blen_app. cbn [blen]. rewrite blen_app.
      change (clen 10) with 1. change (blen (s2l "<<<'")) with 4. change (blen (s2l "'")) with 1.
      destruct tag as [|c0 tag]; [congruence|]. cbn [blen]. pose proof (clen_pos c0). lia. }
    rewrite BL. unfold tbind at 1, tget.
    change (starts_with (s2l "b<<<") (s2l "<<<'" ++ ?x)) with false.
    change (starts_with (s2l "<<<") (s2l "<<<'" ++ ?x)) with true.
    unfold tbind at 1. unfold tbind at 1. rewrite (adv_bytes_n code s (s2l "<<<") _ 3 H eq_refl). unfold tret at 1. cbn [negb].
    unfold tbind at 1, whitespace_only. rewrite (tbind_input _ _ _ _ H1).
    assert (W : forall x s0, whitespace_only_loop (39%N :: x) s0 = s0) by reflexivity. rewrite W.
    rewrite (tbind_input _ _ _ _ H1).
    change (starts_with_c 39 (39%N :: ?x)) with true. unfold tbind at 1. unfold tbind at 1. rewrite (adv_bytes_n code _ [39%N] _ 1 H1 eq_refl). unfold tret at 1.
    cbn [src_pos set_pos]. rewrite set_pos2. unfold tbind at 1. rewrite (label_at code _ tag _ H2 N1 N2 N3) by reflexivity.
    cbn [src_pos set_pos]. rewrite set_pos2. rewrite (tbind_input _ _ _ _ H3).
    change (starts_with_c 39 (39%N :: ?x)) with true. unfold tbind at 1. unfold tbind at 1. rewrite (adv_bytes_n code _ [39%N] _ 1 H3 eq_refl). unfold tret at 1. cbn [negb].
    cbn [src_pos set_pos]. rewrite set_pos2. unfold tbind at 1. unfold newline. rewrite (tbind_input _ _ _ _ H4).
    change (starts_with [13%N; 10%N] (10%N :: ?x)) with false. change (starts_with_c 10 (10%N :: ?x)) with true. cbn [orb].
    unfold tbind at 1. rewrite (adv_bytes_n code _ [10%N] _ 1 H4 eq_refl). unfold tbind at 1, next_line at 1. unfold tret at 1. cbn [negb].
    cbn [src_pos set_pos]. rewrite set_pos2. unfold tbind at 1. rewrite A. unfold tbind, input_pos. cbn [snd fst app]. unfold tret.
    rewrite frag_ces by auto. reflexivity. }
  unfold in_scripting_token. unfold tbind at 1, whitespace. rewrite (tbind_input _ _ _ _ H).
  replace (whitespace_loop (s2l "<<<'" ++ tag ++ s2l "'" ++ 10%N :: l ++ flat_map (fun l => 10%N :: l) ls ++ 10%N :: tag ++ r) s) with s by reflexivity.
  rewrite (tbind_input _ _ _ _ H).
  change (match s2l "<<<'" ++ ?x with [] => _ | _ :: _ => ?b end) with b. unfold tbind at 1, input_pos at 1.
  apply ret_ok. exact M.
Qed.
End More.
