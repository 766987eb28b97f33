(** * Mixed: sources put together from HTML, PHP blocks, comments and statements *)
From Verif Require Import Base Tokens Ast AstMap AstInd Lexer Parser Printer Driver Spec SpecProg SpecRT SpecMixed SmallFacts ParserRel ParserFacts LexBase LexSteps LexTok LexWords LexNum LexMore LexFacts LexStr LexRun LexParse LexCrash ParseRun ParseTac ParseExpr ParseStmt ParseDecl Emit ProgNames RTBase RTExpr RTStmt RTStm2 LexMono RoundTrip.
From Coq Require Import String Ascii.

(** ** The beginning of the source *)
(** the first token, then the rest from position [n] on *)
Lemma lex_first n src t m' st' r toks :
  (forall code nt lf s, at_ code s src -> lmode s = LInitial -> lstack s = [] -> queue s = [] ->
     exists sp s', scan code nt lf s = TOk (t, sp) s' /\ at_ code s' r /\ lmode s' = m' /\ lstack s' = st' /\ queue s' = [] /\ src_pos s' = src_pos s + n) ->
  t <> Kw KEnd -> lexes m' st' r toks ->
  exists F, forall f, F <= f -> exists ts sf sp, tokenize f src = DOk ((t, sp) :: ts, sf) /\ map fst ts = toks /\ late n ts.
Proof.
  intros S NE (F & R). exists (Datatypes.S (Datatypes.S (F + Datatypes.S (List.length toks)))). intros f L. destruct f as [|f]; [lia|].
  assert (H : at_ src tst_init src) by (exists []; auto).
  destruct (S src (next_token src f) f tst_init H eq_refl eq_refl eq_refl) as (sp & s1 & E & H1 & M1 & ST1 & Q1 & P1).
  destruct (R src (next_token src f) f s1 ltac:(lia) H1 M1 ST1 Q1) as (ts & sf & RR & M & LT).
  exists ts, sf, sp. split; [|split; [exact M|eapply late_weak; [|exact LT]; cbn in P1; lia]]. unfold tokenize.
  assert (RR' : runs src (next_token src f) f (Datatypes.S F) tst_init ((t, sp) :: ts) sf).
  { eapply runs_tok; [|exact NE|eapply runs_mono; [|exact RR]; lia].
    intros k K. destruct k as [|k]; [lia|]. rewrite nt_scan by discriminate. rewrite E. reflexivity. }
  rewrite (runs_loop src f (Datatypes.S F) tst_init _ sf RR' ltac:(lia) (Datatypes.S f) []); [reflexivity|].
  cbn [List.length]. assert (X : List.length ts = List.length toks) by (rewrite <- M; symmetry; apply map_length). lia.
Qed.
(** HTML, then a tag, then the rest *)
Lemma first_html_tag w tag t q toks : w <> [] -> no_tag w -> tag_or_end (s2l tag ++ q) -> 1 <= blen (s2l tag) ->
  (forall code nt lf s, at_ code s (s2l tag ++ q) -> lmode s = LInitial -> 
     exists sp s', scan code nt lf s = TOk (t, sp) s' /\ at_ code s' q /\ lmode s' = LInScripting /\ lstack s' = lstack s /\ queue s' = queue s /\ src_pos s' = src_pos s + blen (s2l tag)) ->
  t <> Kw KEnd -> lexes LInScripting [] q toks ->
  exists F, forall f, F <= f -> exists ts sf sp sp', tokenize f (w ++ s2l tag ++ q) = DOk ((TInlineHtml w, sp) :: (t, sp') :: ts, sf) /\ map fst ts = toks /\ late 2 ts.
Proof.
  intros WN NT TE TL S NE (F & R). set (src := w ++ s2l tag ++ q). exists (Datatypes.S (Datatypes.S (F + Datatypes.S (Datatypes.S (List.length toks))))). intros f L. destruct f as [|f]; [lia|].
  assert (H : at_ src tst_init (w ++ s2l tag ++ q)) by (exists []; auto).
  pose proof (html_tok src tst_init w _ H WN NT TE) as E0. set (s0 := set_pos (src_pos tst_init + blen w) tst_init) in *.
  assert (H0 : at_ src s0 (s2l tag ++ q)) by (apply at_move_eq with w; auto).
  destruct (S src (next_token src f) f s0 H0 eq_refl) as (sp & s1 & E & H1 & M1 & ST1 & Q1 & P1).
  destruct (R src (next_token src f) f s1 ltac:(lia) H1 M1 ST1 Q1) as (ts & sf & RR & M & LT).
  assert (BW : 1 <= blen w). { destruct w as [|c w]; [congruence|]. cbn. pose proof (clen_pos c). lia. }
  exists ts, sf. eexists. exists sp. split; [|split; [exact M|eapply late_weak; [|exact LT]; unfold s0 in P1; cbn [src_pos set_pos tst_init] in P1; lia]]. unfold tokenize.
  assert (RR' : runs src (next_token src f) f (Datatypes.S F) tst_init ((TInlineHtml w, mk_span (src_pos tst_init) (src_pos tst_init + blen w)) :: (t, sp) :: ts) sf).
  { eapply runs_tok with (s' := s0); [|discriminate|eapply runs_tok; [|exact NE|eapply runs_mono; [|exact RR]; lia]].
    - intros k K. destruct k as [|k]; [lia|]. rewrite nt_scan by discriminate. unfold scan. cbn [lmode tst_init]. rewrite E0. reflexivity.
    - intros k K. destruct k as [|k]; [lia|]. rewrite nt_scan by discriminate. rewrite E. reflexivity. }
  rewrite (runs_loop src f (Datatypes.S F) tst_init _ sf RR' ltac:(lia) (Datatypes.S f) []); [reflexivity|].
  cbn [List.length]. assert (X : List.length ts = List.length toks) by (rewrite <- M; symmetry; apply map_length). lia.
Qed.
Lemma scan_php code nt lf q s : at_ code s (s2l "<?php" ++ q) -> lmode s = LInitial ->
  exists sp s', scan code nt lf s = TOk (Kw KOpenTag, sp) s' /\ at_ code s' q /\ lmode s' = LInScripting /\ lstack s' = lstack s /\ queue s' = queue s /\ src_pos s' = src_pos s + blen (s2l "<?php").
Proof.
  intros H M. unfold scan. rewrite M, (open_php code s q H). eexists. eexists. split; [reflexivity|]. split; [|repeat split; auto].
  eapply at_same; [|apply (at_move_eq code s (s2l "<?php") q (src_pos s + 5)); auto]. reflexivity.
Qed.
Lemma scan_echo code nt lf q s : at_ code s (s2l "<?=" ++ q) -> lmode s = LInitial ->
  exists sp s', scan code nt lf s = TOk (Kw KOpenTagWithEcho, sp) s' /\ at_ code s' q /\ lmode s' = LInScripting /\ lstack s' = lstack s /\ queue s' = queue s /\ src_pos s' = src_pos s + blen (s2l "<?=").
Proof.
  intros H M. unfold scan. rewrite M, (open_echo code s q H). eexists. eexists. split; [reflexivity|]. split; [|repeat split; auto].
  eapply at_same; [|apply (at_move_eq code s (s2l "<?=") q (src_pos s + 3)); auto]. reflexivity.
Qed.
Lemma first_echo r toks : lexes LInScripting [] r toks ->
  exists F, forall f, F <= f -> exists ts sf sp, tokenize f (s2l "<?=" ++ r) = DOk ((Kw KOpenTagWithEcho, sp) :: ts, sf) /\ map fst ts = toks /\ late 3 ts.
Proof.
  intros R. eapply lex_first; [|discriminate|exact R].
  intros code nt lf s H M ST Q. destruct (scan_echo code nt lf r s H M) as (sp & s' & A1 & A2 & A3 & A4 & A5 & A6).
  exists sp, s'. split; [exact A1|]. split; [exact A2|]. rewrite A4, A5. repeat split; auto.
Qed.
Lemma filter_first l toks : map fst l = toks -> late 2 l -> Forall (fun t : tokspan => 2 <= sp_start (snd t)) (filter_tokens l) /\ map fst (filter_tokens l) = flat_map Emit.sees toks.
Proof. intros <- L. split; [apply late2_filter, L|apply filter_sees]. Qed.
Lemma run_parse src l : (exists F, forall f, F <= f -> exists ts sf, tokenize f src = DOk (ts, sf) /\ exists l' p, parse_top (filter_tokens ts) = POk l' p /\ strip l' = strip l) -> parses_to src l.
Proof.
  intros (F & H). exists F. intros f L. destruct (H f L) as (ts & sf & E & l' & p & P & S). exists l'. unfold parse_str, parse_tokens. rewrite E, P. auto.
Qed.

(** ** Pieces *)
Lemma white_blank w : white w = true -> blank w = true.
Proof. exact (fun h => h). Qed.
Lemma seen_open st r vs : seen LInScripting st r vs -> seen LInitial st (s2l "<?php" ++ r) vs.
Proof.
  intros R. apply (seen_by LInitial st (s2l "<?php" ++ r) LInScripting st r []); [reflexivity|apply crash_open| |exact R].
  intros toks L. exists (Kw KOpenTag :: toks). split; [apply lex_open, L|reflexivity].
Qed.
Lemma seen_open_echo st r vs : seen LInScripting st r vs -> seen LInitial st (s2l "<?=" ++ r) (Kw KEcho :: vs).
Proof.
  intros R. apply (seen_by LInitial st (s2l "<?=" ++ r) LInScripting st r [Kw KEcho]); [reflexivity|apply crash_open_echo| |exact R].
  intros toks L. exists (Kw KOpenTagWithEcho :: toks). split; [apply lex_open_echo, L|reflexivity].
Qed.
Lemma seen_html st w r vs : w <> [] -> no_tag w -> tag_or_end r -> seen LInitial st r vs -> seen LInitial st (w ++ r) ([Kw KEcho; TCes w; Kw KSemiColon] ++ vs).
Proof.
  intros NE NT TE R. apply (seen_by LInitial st (w ++ r) LInitial st r [Kw KEcho; TCes w; Kw KSemiColon]); [reflexivity|apply crash_html; auto| |exact R].
  intros toks L. exists (TInlineHtml w :: toks). split; [apply lex_html; auto|reflexivity].
Qed.
Lemma strip_app a b : strip (a ++ b) = strip a ++ strip b.
Proof. apply map_app. Qed.

Section Sf.
Variable sf : str -> str.
Lemma part_seen p : part_ok sf p -> exists tss, Forall2 Top tss (strip (part_stmts p)) /\ sby (part_text p) (List.concat tss).
Proof.
  destruct p as [w|c|l t]; intros H; cbn [part_ok] in H.
  - exists []. split; [constructor|]. intros st r vs R. apply seen_ws; [exact H|exact R].
  - exists []. split; [constructor|]. intros st r vs R. apply seen_comment; [exact H|exact R].
  - destruct H as [G P]. destruct (tops_good sf l G) as (tss & S1 & S2). exists tss. split; [exact S1|]. unfold print_statements in P. apply render_out in P. subst t. exact S2.
Qed.
Lemma parts_seen ps : Forall (part_ok sf) ps -> exists tss, Forall2 Top tss (strip (flat_map part_stmts ps)) /\ sby (flat_map part_text ps) (List.concat tss).
Proof.
  induction 1 as [|p ps H _ (tss & A & B)]; [exists []; split; [constructor|intros st r vs R; exact R]|].
  destruct (part_seen p H) as (ts & C & D). exists (ts ++ tss). cbn [flat_map]. rewrite strip_app, concat_app. split; [apply Forall2_app; auto|].
  intros st r vs R. rewrite <- !app_assoc. apply D, B, R.
Qed.
(** the expressions of a short echo tag *)
Lemma echo_seen es t : good_top sf (echo es) = true -> print_statements sf [echo es] = Some (s2l "echo " ++ t) ->
  exists tss, tss <> [] /\ Forall2 Full tss (map strip_expr es) /\ sby t (commas tss ++ [Kw KSemiColon]).
Proof.
  intros G P. change (some_list es && forallb (good sf) es = true) in G. apply andb_prop in G. destruct G as [N G].
  destruct (all_good sf) as (GA & _). assert (F : Forall (RTExpr.GE sf) es) by (apply Forall_forall; intros e _; apply GA).
  destruct (ge_all sf es F G) as (tss & A). pose proof (ges_full sf es tss A) as FU. exists tss. split; [|split; [exact FU|]].
  - eapply some_ne; [exact FU|]. rewrite some_map. exact N.
  - unfold print_statements in P. apply render_out in P. cbn [flat_map pr_stmt pr_stmt_ echo] in P. change (indent 0) with (@nil piece) in P.
    rewrite app_nil_r in P. revert P. outs. intros P. apply app_inv_head in P. subst t. intros st r vs R. rewrite out_sep, map_map. apps.
    apply (sepj_by aft ", " _ tss); [reflexivity|intros; apply comma_sp; auto| |reflexivity|].
    + pose proof (ges_texts sf es tss 0 A) as X. eapply forall2_weak; [exact X|]. intros ? ? [_ H]. exact H.
    + do 2 lx. exact R.
Qed.
Lemma top_echo tss es : tss <> [] -> Forall2 Full tss es -> Top (Kw KEcho :: commas tss ++ [Kw KSemiColon]) (St (SEcho es) span_new).
Proof. intros NE F. apply top_stm, stm_any, stm_echo; auto. Qed.
Lemma top_html w : Top [Kw KEcho; TCes w; Kw KSemiColon] (St (SEcho [Ex (EString w) span_new]) span_new).
Proof.
  apply (top_echo [[TCes w]]); [discriminate|]. constructor; [|constructor].
  apply (chain_full 18 17); [lia|]. apply operand_chain. apply var_operand. apply var_string.
Qed.

(** ** Chunks *)
Definition last_text (last : option (list block_part)) : str := match last with Some ps => s2l "<?php" ++ flat_map part_text ps | None => [] end.
Definition last_stmts (last : option (list block_part)) : list stmt := match last with Some ps => flat_map part_stmts ps | None => [] end.
Definition last_ok (last : option (list block_part)) : Prop := match last with Some ps => Forall (part_ok sf) ps | None => True end.
Lemma last_seen last : last_ok last -> exists tss, Forall2 Top tss (strip (last_stmts last)) /\ seen LInitial [] (last_text last) (List.concat tss).
Proof.
  destruct last as [ps|]; cbn [last_ok last_text last_stmts]; intros H.
  - destruct (parts_seen ps H) as (tss & A & B). exists tss. split; [exact A|]. apply seen_open. rewrite <- (app_nil_r (flat_map part_text ps)), <- (app_nil_r (List.concat tss)). apply B, seen_end.
  - exists []. split; [constructor|apply seen_html_end].
Qed.
Lemma after_html cs last w : apart (CHtml w :: cs) -> Forall (chunk_ok sf) cs -> tag_or_end (flat_map chunk_text cs ++ last_text last).
Proof.
  intros A F. destruct cs as [|[w'|ps|es t ps] cs]; cbn [flat_map chunk_text app].
  - destruct last as [ps|]; [right|left; reflexivity]. eexists. reflexivity.
  - contradiction.
  - right. eexists. rewrite <- app_assoc. reflexivity.
  - right. eexists. rewrite <- app_assoc. reflexivity.
Qed.
Lemma apart_tl c cs : apart (c :: cs) -> apart cs.
Proof. destruct c; auto. destruct cs as [|[] cs]; cbn; auto. contradiction. Qed.
Lemma chunks_seen cs last : Forall (chunk_ok sf) cs -> apart cs -> last_ok last ->
  exists tss, Forall2 Top tss (strip (meaning cs last)) /\ seen LInitial [] (source cs last) (List.concat tss).
Proof.
  intros F A LO. induction F as [|c cs C F IH]; [exact (last_seen last LO)|].
  destruct (IH (apart_tl _ _ A)) as (tss & T & S). unfold source, meaning in *. fold (last_text last) in *. fold (last_stmts last) in *.
  pose proof (fun w e => after_html cs last w (eq_ind c (fun c => apart (c :: cs)) A _ e) F) as TE.
  cbn [flat_map]. rewrite <- !app_assoc. rewrite strip_app. destruct c as [w|ps|es t ps]; cbn [chunk_ok chunk_text chunk_stmts] in *.
  - exists ([Kw KEcho; TCes w; Kw KSemiColon] :: tss). split; [constructor; [apply top_html|exact T]|]. cbn [List.concat]. destruct C as [C1 C2]. apply seen_html; auto. apply (TE w eq_refl).
  - destruct (parts_seen ps C) as (ts & B1 & B2). exists (ts ++ tss). split; [apply Forall2_app; auto|]. rewrite <- !app_assoc. apply seen_open. rewrite concat_app. apply B2. apply seen_close_tag. exact S.
  - destruct C as (G & P & C). destruct (parts_seen ps C) as (ts & B1 & B2). destruct (echo_seen es t G P) as (tes & E1 & E2 & E3).
    exists ((Kw KEcho :: commas tes ++ [Kw KSemiColon]) :: ts ++ tss). split.
    + constructor; [apply top_echo; auto|]. apply Forall2_app; auto.
    + cbn [List.concat app]. rewrite <- !app_assoc. apply seen_open_echo. rewrite concat_app, (app_assoc (commas tes)).
      apply E3, B2. apply seen_close_tag. exact S.
Qed.
(** a block and what follows *)
Lemma block_seen ps r tss ss : Forall (part_ok sf) ps -> Forall2 Top tss ss -> seen LInitial [] r (List.concat tss) ->
  exists tss', Forall2 Top tss' (strip (flat_map part_stmts ps) ++ ss) /\ seen LInScripting [] (flat_map part_text ps ++ s2l "?>" ++ r) (List.concat tss').
Proof.
  intros C T S. destruct (parts_seen ps C) as (ts & B1 & B2). exists (ts ++ tss). split; [apply Forall2_app; auto|]. rewrite concat_app. apply B2. apply seen_close_tag. exact S.
Qed.
Lemma last_block_seen ps : Forall (part_ok sf) ps -> exists tss, Forall2 Top tss (strip (flat_map part_stmts ps)) /\ seen LInScripting [] (flat_map part_text ps) (List.concat tss).
Proof.
  intros H. destruct (parts_seen ps H) as (tss & A & B). exists tss. split; [exact A|]. rewrite <- (app_nil_r (flat_map part_text ps)), <- (app_nil_r (List.concat tss)). apply B, seen_end.
Qed.
Definition html (w : str) : stmt := St (SEcho [Ex (EString w) span_new]) span_new.
Lemma html_first_php w q tss ss : w <> [] -> no_tag w -> Forall2 Top tss ss -> seen LInScripting [] q (List.concat tss) -> parses_to (w ++ s2l "<?php" ++ q) (html w :: ss).
Proof.
  intros W1 W2 T (toks & L & E). assert (TE : tag_or_end (s2l "<?php" ++ q)) by (right; eexists; reflexivity).
  destruct (first_html_tag w "<?php" (Kw KOpenTag) q toks W1 W2 TE) as (F & R); [cbn; lia|intros; apply scan_php; auto|discriminate|exact L|].
  apply run_parse. exists F. intros f LF. destruct (R f LF) as (ts & s & sp & sp' & A1 & A2 & A3). do 2 eexists. split; [exact A1|].
  destruct (filter_first ts toks A2 A3) as [B1 B2]. rewrite E in B2. exact (html_run tss ss (filter_tokens ts) w sp sp sp T B1 B2).
Qed.
Lemma html_first_end w : w <> [] -> no_tag w -> parses_to w [html w].
Proof.
  intros W1 W2. destruct (lex_tokens w [TInlineHtml w]) as (F & R).
  { rewrite <- (app_nil_r w) at 1. apply lex_html; auto. left. reflexivity. apply lex_end_html. }
  apply run_parse. exists F. intros f LF. destruct (R f LF) as (ts & s & A1 & A2). do 2 eexists. split; [exact A1|].
  destruct ts as [|[t sp] [|]]; try discriminate. cbn in A2. injection A2 as ->. exact (html_run [] [] [] w sp sp sp ltac:(constructor) ltac:(constructor) eq_refl).
Qed.
Lemma html_first_echo w t q tes es tss ss : w <> [] -> no_tag w -> tes <> [] -> Forall2 Full tes es -> sby t (commas tes ++ [Kw KSemiColon]) ->
  Forall2 Top tss ss -> seen LInScripting [] q (List.concat tss) -> parses_to (w ++ s2l "<?=" ++ t ++ q) (html w :: St (SEcho es) span_new :: ss).
Proof.
  intros W1 W2 N1 N2 SB T S. destruct (SB [] q (List.concat tss) S) as (toks & L & E). rewrite <- app_assoc in E. assert (TE : tag_or_end (s2l "<?=" ++ t ++ q)) by (right; eexists; reflexivity).
  destruct (first_html_tag w "<?=" (Kw KOpenTagWithEcho) (t ++ q) toks W1 W2 TE) as (F & R); [cbn; lia|intros; apply scan_echo; auto|discriminate|exact L|].
  apply run_parse. exists F. intros f LF. destruct (R f LF) as (ts & s & sp & sp' & A1 & A2 & A3). do 2 eexists. split; [exact A1|].
  destruct (filter_first ts toks A2 A3) as [B1 B2]. rewrite E in B2. exact (html_echo_run tes es tss ss (filter_tokens ts) w sp sp sp sp' N1 N2 T B1 B2).
Qed.
Lemma echo_first t q tes es tss ss : tes <> [] -> Forall2 Full tes es -> sby t (commas tes ++ [Kw KSemiColon]) ->
  Forall2 Top tss ss -> seen LInScripting [] q (List.concat tss) -> parses_to (s2l "<?=" ++ t ++ q) (St (SEcho es) span_new :: ss).
Proof.
  intros N1 N2 SB T S. destruct (SB [] q (List.concat tss) S) as (toks & L & E). rewrite <- app_assoc in E.
  destruct (first_echo (t ++ q) toks L) as (F & R).
  apply run_parse. exists F. intros f LF. destruct (R f LF) as (ts & s & sp & A1 & A2 & A3). do 2 eexists. split; [exact A1|].
  destruct (filter_first ts toks A2 (late_weak 3 2 ts ltac:(lia) A3)) as [B1 B2]. rewrite E in B2. exact (echo_run tes es tss ss (filter_tokens ts) sp N1 N2 T B1 B2).
Qed.
Lemma tops_some tss l : Forall2 Top tss (strip l) -> l <> [] -> tss <> [].
Proof. intros T NE ->. inversion T as [E|]. destruct l; [congruence|discriminate]. Qed.
Lemma source_parses cs last : source_ok sf cs last -> meaning cs last <> [] -> parses_to (source cs last) (meaning cs last).
Proof.
  intros (F & A & LO) NE. fold (last_ok last) in LO. apply (parses_strip _ (strip (meaning cs last)) _ (strip_idem _)).
  unfold source, meaning in *. fold (last_text last) in *. fold (last_stmts last) in *.
  destruct cs as [|c cs].
  - (* only the open block *)
    destruct last as [ps|]; [|contradiction (NE eq_refl)]. destruct (last_block_seen ps LO) as (tss & T & S).
    exact (program_parses _ tss _ S (tops_some _ _ T NE) T).
  - inversion F as [|? ? C F']; subst. destruct c as [w|ps|es t ps]; cbn [chunk_ok] in C.
    + destruct C as [C1 C2]. destruct cs as [|c cs].
      { destruct last as [ps|]; cbn [flat_map chunk_text chunk_stmts last_text last_stmts app] in *.
        - destruct (last_block_seen ps LO) as (tss & T & S). rewrite app_nil_r. exact (html_first_php w _ tss _ C1 C2 T S).
        - rewrite !app_nil_r. apply (html_first_end w); auto. }
      inversion F' as [|? ? D F'']; subst. destruct (chunks_seen cs last F'' (apart_tl _ _ (apart_tl _ _ A)) LO) as (tss & T & S).
      destruct c as [w'|ps|es t ps]; [contradiction| |]; cbn [chunk_ok] in D; cbn [flat_map chunk_text chunk_stmts]; rewrite <- !app_assoc; cbn [app].
      * destruct (block_seen ps _ tss _ D T S) as (tss' & T' & S'). rewrite <- strip_app in T'. exact (html_first_php w _ tss' _ C1 C2 T' S').
      * destruct D as (G & P & D). destruct (block_seen ps _ tss _ D T S) as (tss' & T' & S'). rewrite <- strip_app in T'. destruct (echo_seen es t G P) as (tes & E1 & E2 & E3).
        exact (html_first_echo w t _ tes _ tss' _ C1 C2 E1 E2 E3 T' S').
    + destruct (chunks_seen cs last F' (apart_tl _ _ A) LO) as (tss & T & S). destruct (block_seen ps _ tss _ C T S) as (tss' & T' & S'). rewrite <- strip_app in T'.
      cbn [flat_map chunk_text chunk_stmts] in *. rewrite <- !app_assoc in *. exact (program_parses _ tss' _ S' (tops_some _ _ T' NE) T').
    + destruct (chunks_seen cs last F' (apart_tl _ _ A) LO) as (tss & T & S). destruct C as (G & P & D). destruct (block_seen ps _ tss _ D T S) as (tss' & T' & S'). rewrite <- strip_app in T'.
      destruct (echo_seen es t G P) as (tes & E1 & E2 & E3). cbn [flat_map chunk_text chunk_stmts] in *. rewrite <- !app_assoc. exact (echo_first t _ tes _ tss' _ E1 E2 E3 T' S').
Qed.
End Sf.

(** ** Statement sequences *)
Lemma sequence_parses sf ps : Forall (part_ok sf) ps -> flat_map part_stmts ps <> [] ->
  parses_to (s2l "<?php" ++ flat_map part_text ps) (flat_map part_stmts ps) /\
  (forall l t, In (PStmts l t) ps -> l <> [] -> parses_to (s2l "<?php" ++ t) l).
Proof.
  intros F NE. split.
  - apply (source_parses sf [] (Some ps)); [split; [constructor|split; [exact I|exact F]]|exact NE].
  - intros l t H N. assert (P : part_ok sf (PStmts l t)) by (rewrite Forall_forall in F; apply F, H).
    pose proof (source_parses sf [] (Some [PStmts l t])) as X. unfold source, meaning in X. cbn [flat_map app part_text part_stmts] in X. rewrite !app_nil_r in X.
    apply X; [|exact N]. split; [constructor|split; [exact I|constructor; [exact P|constructor]]].
Qed.
Lemma sources_join sf cs cs' last : source_ok sf (cs ++ cs') last -> flat_map chunk_stmts cs <> [] -> meaning cs' last <> [] ->
  parses_to (source cs None) (meaning cs None) /\ parses_to (source cs' last) (meaning cs' last) /\
  parses_to (source cs None ++ source cs' last) (meaning cs None ++ meaning cs' last).
Proof.
  intros (F & A & L) N1 N2. apply Forall_app in F. destruct F as [F1 F2].
  assert (A1 : apart cs). { clear - A. induction cs as [|c cs IH]; [exact I|]. cbn [app] in A. assert (X : apart cs) by (apply IH; eapply apart_tl; exact A). destruct c; auto. destruct cs as [|[] cs]; auto. }
  assert (A2 : apart cs'). { clear - A. induction cs as [|c cs IH]; [exact A|]. apply IH. eapply apart_tl. exact A. }
  assert (M : meaning cs None = flat_map chunk_stmts cs) by apply app_nil_r. assert (S : source cs None = flat_map chunk_text cs) by apply app_nil_r.
  split; [|split].
  - apply (source_parses sf); [repeat split; auto|rewrite M; exact N1].
  - apply (source_parses sf); [repeat split; auto|exact N2].
  - pose proof (source_parses sf (cs ++ cs') last) as X. rewrite M, S. unfold source, meaning in *. rewrite !flat_map_app, <- !app_assoc in X. apply X.
    + split; [apply Forall_app; auto|split; assumption].
    + intros E. apply app_eq_nil in E. destruct E as [E _]. exact (N1 E).
Qed.

(** ... of any blocks of tokens *)
Lemma goes_on_end l : goes_on l = false <-> stm_end l.
Proof. unfold stm_end, hd_ok. destruct l as [|t l]; [cbn; intuition|]. destruct t as [k| | | | | | | |]; try (cbn; intuition; fail). destruct k; cbn; intuition discriminate. Qed.
Lemma top_block ts s : Top ts s -> statement_block ts s.
Proof.
  intros T. destruct (top_start ts s T) as (t & r & E & N). split; [rewrite E; discriminate|]. split; [apply goes_on_end; rewrite E; cbn; rewrite N; reflexivity|].
  intros toks p rest B M C. pose proof (late_all toks B) as L.
  assert (P : p <= List.length toks).
  { destruct (Nat.le_gt_cases p (List.length toks)) as [|X]; auto. rewrite skipn_all2 in M by lia. rewrite E in M. discriminate. }
  assert (H : here toks p (ts ++ rest)).
  { split; [|split; [exact M|right]].
    - rewrite <- M, map_length, skipn_length. lia.
    - apply Forall_forall. intros x I. unfold behind_tag in B. rewrite Forall_forall in B. apply B. rewrite <- (firstn_skipn p toks). apply in_or_app. right. exact I. }
  pose proof (top_run ts s toks p rest T L H (proj1 (goes_on_end rest) C)) as X. unfold wpx in X. fold (PS toks).
  destruct (parse_top_statement toks (PS toks) p) as [a q|? ?|?|]; try contradiction. destruct X as ((Q & _) & _ & X). exists a. split; [|exact X].
  f_equal. destruct H as (H & _). rewrite app_length in H. lia.
Qed.
Lemma skip_more {A} n m (l : list A) : skipn (n + m) l = skipn m (skipn n l).
Proof. revert l. induction n as [|n IH]; intros [|x l]; cbn; auto. destruct m; reflexivity. Qed.
Lemma good_block sf s : good_top sf s = true -> exists ts, statement_block ts s.
Proof.
  intros G. destruct (top_good sf s G) as (ts & T & _). destruct (top_block ts _ T) as (A & B & C). exists ts. split; [exact A|]. split; [exact B|].
  intros toks p rest H1 H2 H3. destruct (C toks p rest H1 H2 H3) as (a & E1 & E2). exists a. split; [exact E1|]. rewrite E2.
  pose proof (strip_idem [s]) as X. cbn in X. injection X as X. exact X.
Qed.
Lemma blocks_run toks tss ss : behind_tag toks -> Forall2 statement_block tss ss -> forall n acc p, map fst (skipn p toks) = List.concat tss -> p <= List.length toks -> List.length tss < n ->
  exists l, top_statements toks (PS toks) n acc p = POk (acc ++ l) (List.length toks) /\ strip l = strip ss.
Proof.
  intros B. induction 1 as [|ts s tss ss T F IH]; intros n acc p M P N; (destruct n as [|n]; [cbn in N; lia|]); cbn [top_statements].
  - exists []. split; [|reflexivity]. assert (Z : List.length (skipn p toks) = 0) by (apply (f_equal (@List.length token)) in M; rewrite map_length in M; exact M). rewrite skipn_length in Z.
    unfold pbind at 1, pcatch at 1, getpos at 1. destruct (Nat.ltb_spec p (List.length toks)) as [X|X]; [lia|]. rewrite app_nil_r. unfold pret. f_equal. lia.
  - destruct T as (NE & G & T). cbn [List.concat] in M.
    assert (GO : goes_on (List.concat tss) = false).
    { destruct F as [|t2 s2 tss ss (N2 & G2 & _) F]; [reflexivity|]. cbn [List.concat]. destruct t2 as [|x t2]; [congruence|]. exact G2. }
    destruct (T toks p _ B M GO) as (a & E1 & E2).
    assert (W : p + List.length ts <= List.length toks).
    { apply (f_equal (@List.length token)) in M. rewrite map_length, skipn_length, app_length in M. lia. }
    assert (W' : 0 < List.length ts) by (destruct ts; [congruence|cbn; lia]).
    unfold pbind at 1, pcatch at 1, getpos at 1. destruct (Nat.ltb_spec p (List.length toks)) as [_|X]; [|lia]. cbv iota. unfold pbind at 1, pcatch at 1. unfold PS at 1. rewrite E1.
    destruct (IH n (acc ++ [a]) (p + List.length ts)) as (l & L1 & L2); [|exact W|cbn in N; lia|].
    { rewrite skip_more, <- skipn_map. etransitivity; [exact (f_equal (skipn _) M)|]. rewrite skipn_app, skipn_all, Nat.sub_diag. reflexivity. }
    exists (a :: l). rewrite <- app_assoc in L1. split; [exact L1|]. cbn [strip map]. rewrite E2. f_equal. exact L2.
Qed.
Lemma blocks_parse data e all tss ss : behind_tag (filter_tokens all) -> map fst (filter_tokens all) = List.concat tss -> tss <> [] -> Forall2 statement_block tss ss ->
  exists l, parse_tokens data e all = DOk l /\ strip l = strip ss.
Proof.
  intros B M NE F. unfold parse_tokens. set (toks := filter_tokens all) in *.
  assert (N : List.length tss <= List.length (List.concat tss)).
  { clear - F. induction F as [|ts s tss ss (X & _) F IH]; [auto|]. cbn. rewrite app_length. destruct ts; [congruence|cbn; lia]. }
  assert (W : List.length toks = List.length (List.concat tss)) by (rewrite <- M, map_length; reflexivity).
  destruct (blocks_run toks tss ss B F (lf toks) [] 0) as (l & E1 & E2); [exact M|lia|unfold lf; lia|].
  exists l. split; [|exact E2]. unfold parse_top, parse_top_statement_list. fold (PS toks). destruct toks as [|t0 toks'] eqn:TT.
  { destruct tss; [congruence|]. cbn [List.length] in *. lia. }
  rewrite E1. reflexivity.
Qed.

(** ** White space in front of a token *)
Lemma white_skipped code s w inp : lmode s = LInScripting \/ lmode s = LLookingForProperty -> white w = true -> unread code s (w ++ inp) ->
  exists s', unread code s' inp /\ lmode s' = lmode s /\ lstack s' = lstack s /\ queue s' = queue s /\ restart s' = restart s /\
    forall f, next_token code f s = next_token code f s'.
Proof.
  intros MM B H. destruct (ws_skip code w inp s (blank_forall w B) H) as (A1 & A2 & A3 & A4).
  set (s2 := whitespace_loop w s) in *. injection A2 as B1 B2 B3 B4. exists s2. repeat split; auto.
  intros [|[|f]]; [reflexivity..|]. change (nt_loop code (next_token code (S f)) (S f) (S f) s = nt_loop code (next_token code (S f)) (S f) (S f) s2).
  rewrite !nt_scan by (destruct MM; congruence).
  assert (E : scan code (next_token code (S f)) (S f) s = scan code (next_token code (S f)) (S f) s2); [|rewrite E; reflexivity].
  unfold scan. rewrite B1. destruct MM as [-> | ->].
  - unfold in_scripting_token, tbind at 1. rewrite A4. reflexivity.
  - unfold looking_for_property_token, tbind at 1. rewrite A4. reflexivity.
Qed.
