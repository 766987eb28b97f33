(** * Bad: malformed programs that are accepted, and programs that panic *)
From Verif Require Import Base Tokens Ast AstMap AstInd Lexer Parser Printer Driver Spec SpecProg SpecRT SpecMixed SpecCtl SpecBad SmallFacts ParserRel ParserFacts LexBase LexSteps LexTok LexWords LexNum LexMore LexFacts LexStr LexRun LexParse LexCrash ParseRun ParseTac ParseExpr ParseStmt ParseDecl Emit ProgOps ProgNames RTBase RTExpr RTStmt RTStm2 LexMono RoundTrip Mixed Ctl.
From Coq Require Import String Ascii.

(** ** Dangling operators *)
Lemma full_paren ts e : Full ts e -> Chain 18 17 (Kw KParenthesesOpen :: ts ++ [Kw KParenthesesClose]) e.
Proof. intros F. apply operand_chain, var_operand, var_paren, F. Qed.
Lemma dangle_op m f k x o r ts e : precedence k = Some x -> binop_of k = Some o -> assoc_right k = Some r -> 1 <= x -> x <= f -> 0 < m ->
  Chain m f ts e -> Full (ts ++ [Kw k]) e.
Proof.
  intros P B A X1 X2 M CA toks L p l H C. rewrite <- app_assoc in H. cbn [app] in H.
  apply (CA toks L p (Kw k :: l) 0); [lia|exact H|eapply prec_oplike; eauto|cbn; rewrite P; lia|].
  intros a' q n A1 A2 A3 A4. destruct n as [|n]; [cbn in A4; lia|]. cbn [binary_loop]. apply wpx_catch. unfold parse_binary_expression. px1 L.
  eapply (wpx_peek toks L); [exact A1|]. cbv beta iota. rewrite P. destruct (Nat.leb_spec x 0); [lia|]. destruct (binop_kind _ _ B) as [B1 B2].
  rewrite (binary_match k _ _ _ B1 B2). rewrite B, A. px L.
  assert (S1 : wpx (match r with true => psub x 1 | false => pret x end) (S q) (fun y q' => y = right_bound r x /\ q' = S q) nofail).
  { destruct r; px L; auto. }
  eapply wpx_use; [exact S1|]. intros y q' [-> ->]. px L.
  eapply wpx_mono; [apply (pe_fail toks _ _ l L HS); revert C; apply hd_weak, closer_fail|intros ? ? []|]. intros e' q2 ->. px L.
  apply okq_i; auto; lia.
Qed.
(** an expression before a semicolon *)
Definition FullS (ts : list token) (e : expr) : Prop := forall toks, late2 toks -> forall p l, here toks p (ts ++ Kw KSemiColon :: l) ->
  wpx (PE toks 0) p (okq toks e p (Kw KSemiColon :: l)) nofail.
Lemma full_s ts e : Full ts e -> FullS ts e.
Proof. intros F toks L p l H. apply (F toks L p _ H). reflexivity. Qed.
(** no expression: the parser gives up at the semicolon *)
Definition Junk (ts : list token) : Prop := forall toks, late2 toks -> forall p l prec, here toks p (ts ++ Kw KSemiColon :: l) ->
  wpx (PE toks prec) p (fun _ _ => False) (fun _ q => here toks q (Kw KSemiColon :: l) /\ p <= q).
Lemma junk_nil : Junk [].
Proof. intros toks L p l prec H. eapply wpx_mono; [apply (pe_fail toks prec p _ L H); reflexivity|intros ? ? []|]. intros e q ->. split; auto. Qed.
(** behind an opening parenthesis: an expression, or again nothing *)
Lemma junk_open ts : (exists e, Full ts e) \/ Junk ts -> Junk (Kw KParenthesesOpen :: ts).
Proof.
  intros J toks L p l prec H. apply wpx_head. cbn [app] in H. eapply head_post; [exact L|exact H|reflexivity|]. unfold parse_postfix_expression. px1 L.
  assert (X : wpx (e <~ PE toks PrNone;; sp2 <~ expect toks KParenthesesClose;; pret (Ex (enode e) (mk_span (sp_start (sp_at toks p)) (sp_end sp2)))) (S p)
    (fun _ _ => False) (fun _ q => here toks q (Kw KSemiColon :: l) /\ p <= q)).
  { destruct (here_cons toks L p _ _ H) as (_ & HS & _). destruct J as [(e & F)|J].
    - px1 L. eapply wpx_mono; [apply (F toks L _ _ HS); reflexivity| |intros ? ? []]. intros a q (A1 & A2 & A3). px L. unfold expect. px L. split; [assumption|lia].
    - px1 L. eapply wpx_mono; [apply (J toks L _ _ PrNone HS)|intros ? ? []|]. intros a q (A1 & A2). split; [assumption|lia]. }
  eapply other_plain; [exact L|exact H|reflexivity|]. unfold parse_variable_expression. px1 L.
  unfold parse_variable, variable_base. px1 L; cbv beta; px1 L; cbv beta; px1 L; cbv beta.
  destruct (scoped_fail toks p _ L H) as [F1 F2]; [reflexivity|].
  px1 L. eapply wpx_mono; [exact F1|intros ? ? []|]. intros e' q ->. px1 L.
  eapply wpx_mono; [exact F2|intros ? ? []|]. intros e'' q ->. px1 L. unfold parse_base_variable.
  eapply (wpx_look toks L); [exact H|]. cbv beta iota. change (kind_eqb KParenthesesOpen KParenthesesOpen) with true. cbv iota.
  eapply wpx_mono; [exact X|intros ? ? []|]. intros e3 q (_ & _). cbv beta. px1 L. px1 L. cbv beta zeta.
  eapply (wpx_look toks L); [exact H|]. cbv beta iota. change (kind_eqb KList KParenthesesOpen) with false. cbv iota.
  eapply (wpx_look toks L); [exact H|]. cbv beta iota. change (kind_eqb KParenthesesOpen KParenthesesOpen) with true. cbv iota.
  eapply wpx_mono; [exact X|intros ? ? []|]. auto.
Qed.
(** an operator with nothing behind it *)
Lemma dangle_junk m f k x o r ts e tj : precedence k = Some x -> binop_of k = Some o -> assoc_right k = Some r -> 1 <= x -> x <= f -> 0 < m ->
  Chain m f ts e -> Junk tj -> FullS (ts ++ Kw k :: tj) e.
Proof.
  intros P B A X1 X2 M CA J toks L p l H. rewrite <- app_assoc in H. cbn [app] in H.
  apply (CA toks L p (Kw k :: tj ++ Kw KSemiColon :: l) 0); [lia|exact H|eapply prec_oplike; eauto|cbn; rewrite P; lia|].
  intros a' q n A1 A2 A3 A4. destruct n as [|n]; [cbn in A4; lia|]. cbn [binary_loop]. apply wpx_catch. unfold parse_binary_expression. px1 L.
  eapply (wpx_peek toks L); [exact A1|]. cbv beta iota. rewrite P. destruct (Nat.leb_spec x 0); [lia|]. destruct (binop_kind _ _ B) as [B1 B2].
  rewrite (binary_match k _ _ _ B1 B2). rewrite B, A. px L.
  assert (S1 : wpx (match r with true => psub x 1 | false => pret x end) (S q) (fun y q' => y = right_bound r x /\ q' = S q) nofail).
  { destruct r; px L; auto. }
  eapply wpx_use; [exact S1|]. intros y q' [-> ->]. px L.
  eapply wpx_mono; [apply (J toks L _ l _ HS)|intros ? ? []|]. intros e' q2 (D1 & D2). px L.
  apply okq_i; auto; lia.
Qed.
(** half a ternary *)
Lemma dangle_ternary ts e tt : Chain 18 17 ts e -> tt = [] \/ (exists th, Chain 18 17 tt th) -> forall colon : bool,
  FullS (ts ++ Kw KQuestionMark :: tt ++ if colon then [Kw KColon] else []) e.
Proof.
  intros CA O colon toks L p l H. rewrite <- app_assoc in H. cbn [app] in H. rewrite <- app_assoc in H.
  eapply (CA toks L p _ 0); [lia|exact H|reflexivity|cbn; lia|].
  intros a' q n A1 A2 A3 A4. destruct n as [|n]; [cbn in A4; lia|]. cbn [binary_loop]. apply wpx_catch. unfold parse_binary_expression. px1 L.
  eapply (wpx_peek toks L); [exact A1|]. cbv beta iota. cbn [precedence Nat.leb]. px L.
  assert (C : closing ((if colon then [Kw KColon] else []) ++ Kw KSemiColon :: l)) by (destruct colon; reflexivity).
  assert (X : wpx (parse_opt_expression (PE toks) 4) (S q) (fun _ q2 => here toks q2 ((if colon then [Kw KColon] else []) ++ Kw KSemiColon :: l) /\ S q <= q2) nofail).
  { unfold parse_opt_expression. px1 L. destruct O as [-> |(th & CT)].
    - cbn [app] in HS. eapply wpx_mono; [apply (pe_fail toks _ _ _ L HS); revert C; apply hd_weak, closer_fail|intros ? ? []|]. intros e' q2 ->. px L. split; auto.
    - eapply wpx_use; [apply (chain_at _ _ _ _ CT toks L 4 _ _ ltac:(lia) HS); auto using closing_oplike, closing_prec|]. intros b q2 (B1 & B2 & _). px L. split; [assumption|lia]. }
  eapply wpx_use; [exact X|]. intros o q2 (B1 & B2). destruct colon; cbn [app] in B1; unfold expect.
  - px L. eapply wpx_mono; [apply (pe_fail toks _ _ _ L HS0); reflexivity|intros ? ? []|]. intros e' q3 ->. px L. okk. exact A3.
  - px L. okk. exact A3.
Qed.
(** an index without its closing bracket *)
Lemma open_index ts e ti o : Var ts e -> OptE ti o -> FullS (ts ++ Kw KSquareBracketOpen :: ti) e.
Proof.
  intros V O toks L p l H. apply wpx_head. rewrite <- app_assoc in H. cbn [app] in H.
  destruct (proj1 V) as (t & r & X). destruct (var_plain_ts ts (ex_intro _ t (ex_intro _ r X))) as [Pl Un].
  assert (K : wpx (parse_variable toks (PE toks) false None) p (okq toks e p (Kw KSemiColon :: l)) nofail).
  { apply (proj2 V toks L p _ H). intros a q n A1 A2 A3 A4. destruct n as [|n]; [cbn in A4; lia|]. cbn [appendixes].
    eapply (wpx_look toks L); [exact A1|]. cbv beta iota. change (kind_eqb KSquareBracketOpen KSquareBracketOpen) with true. cbv iota.
    destruct (here_cons toks L _ _ _ A1) as (_ & HS & _). px1 L. eapply wpx_use; [apply (opt_run ti o toks _ _ O L HS); reflexivity|].
    intros i q2 (B1 & B2 & B3). px L. okk. exact A3. }
  destruct Un as (t' & r' & E & U). rewrite E in H. cbn [app] in H. eapply head_post; [exact L|exact H|exact U|]. unfold parse_postfix_expression. px1 L.
  eapply other_plain; [exact L|exact H|destruct Pl as (t2 & r2 & E2 & Pl); rewrite E in E2; injection E2 as <- _; exact Pl|].
  unfold parse_variable_expression. apply wpx_catch. eapply wpx_use; [exact K|]. intros a q (A1 & A2 & A3).
  apply assign_none with (Kw KSemiColon :: l); [exact L|exact A1|reflexivity|]. px L.
  eapply loop_stop; [exact L|exact A1|reflexivity|exact I|unfold lf; lia|]. okk. exact A3.
Qed.
(** an expression that starts with a parenthesis, as a statement *)
Lemma stm_s ts e : FullS (Kw KParenthesesOpen :: ts) e -> StmC any (Kw KParenthesesOpen :: ts ++ [Kw KSemiColon]) (expr_stm e).
Proof.
  intros F. split; [head1|]. intros toks L p l H _. cbn [app] in H. rewrite <- app_assoc in H. cbn [app] in H.
  apply wpx_PS. unfold parse_statement_body, look_restore. 
  repeat (first [eapply (wpx_look_cls toks L); [exact H|exact (eq_refl : hd_ok (tok_in [KParenthesesOpen]) (Kw KParenthesesOpen :: _))|reflexivity|]|px1 L]; cbv beta).
  eapply wpx_mono; [apply (oo_fail toks p _ L H); reflexivity|intros ? ? []|]. intros er q ->. unfold parse_other_stmt. px1 L.
  eapply (wpx_peek toks L); [exact H|]. cbv beta iota. cbn [simple_stmt]. px1 L. px1 L. cbv beta. unfold parse_expr_stmt. px1 L.
  eapply wpx_use; [exact (F toks L p _ H)|]. intros a q (A1 & A2 & A3 & A4). px L. oks. strips.
Qed.
(** [return] and its like, with nothing usable behind them *)
Lemma stm_junk k (f : option expr -> stmt_) tj :
  (k, f) = (KReturn, SReturn) \/ (k, f) = (KContinue, SContinue) \/ (k, f) = (KBreak, SBreak) -> Junk tj ->
  StmC any (Kw k :: tj ++ [Kw KSemiColon]) (St (f None) span_new).
Proof.
  intros K J. split; [exists (Kw k); eexists; split; [reflexivity|]; destruct K as [K|[K|K]]; injection K as -> _; reflexivity|].
  intros toks L p l H _. cbn [app] in H. rewrite <- app_assoc in H. cbn [app] in H.
  eapply simple_run with (m := o <~ parse_opt_expression (PE toks) PrNone ;; pret (f o)); [exact L|exact H| |].
  - destruct K as [K|[K|K]]; injection K as -> ->; reflexivity.
  - px L. unfold parse_opt_expression. px1 L. eapply wpx_mono; [apply (J toks L _ _ PrNone HS)|intros ? ? []|]. intros e q (A1 & A2). px L. exists l. oks. intros sp. oks. reflexivity.
Qed.

Lemma dangle_instanceof ts e : Chain 18 17 ts e -> (forall x y, enode e <> EInstanceOf x y) -> FullS (ts ++ [Kw KInstanceOf]) e.
Proof.
  intros CA NI toks L p l H. rewrite <- app_assoc in H. cbn [app] in H.
  eapply (CA toks L p _ 0); [lia|exact H|reflexivity|cbn; lia|].
  intros a' q n A1 A2 A3 A4. destruct n as [|n]; [cbn in A4; lia|]. cbn [binary_loop]. apply wpx_catch. unfold parse_binary_expression. px1 L.
  eapply (wpx_peek toks L); [exact A1|]. cbv beta iota. cbn [precedence Nat.leb]. px L.
  assert (X : fails (parse_class_name_reference toks (PE toks)) (S q)).
  { unfold fails, parse_class_name_reference, parse_class_name, parse_name_as_expr. px L.
    eapply wpx_mono; [apply (name_fail toks L _ _ HS); reflexivity|intros ? ? []|]. intros e1 q1 ->. px L.
    unfold parse_variable, variable_base. px L. unfold parse_const_scoped, parse_fn_call_base_item, parse_class_name, parse_name_as_expr. px L.
    eapply wpx_mono; [apply (name_fail toks L _ _ HS); reflexivity|intros ? ? []|]. intros e2 q2 ->. px L.
    unfold parse_base_variable. px L.
    eapply wpx_mono; [apply (simple_fail toks _ _ L HS); reflexivity|intros ? ? []|]. intros e4 q4 ->. px L. reflexivity. }
  destruct a' as [na spa]. destruct na; try (px L; eapply wpx_mono; [exact X|intros ? ? []|]; intros e1 q1 ->; px L; okk; exact A3).
  exfalso. destruct A3 as [A3 _]. destruct e as [ne spe]. destruct ne; try discriminate A3. eapply NI. reflexivity.
Qed.

(** ** Sources *)
(** modifiers and introducing words before a statement that is no class *)
Lemma stm_word w tss es : In w [KTrait; KInterface; KClass] -> tss <> [] -> Forall2 Full tss es ->
  StmC any (Kw w :: Kw KEcho :: commas tss ++ [Kw KSemiColon]) (St (SEcho es) span_new).
Proof.
  intros W NE F. split; [exists (Kw w); eexists; split; [reflexivity|]; destruct W as [<- |[<- |[<- |[]]]]; reflexivity|].
  intros toks L p l H _. cbn [app] in H. rewrite <- app_assoc in H. cbn [app] in H.
  assert (X : hd_ok (tok_in [KTrait; KInterface; KClass]) (Kw w :: Kw KEcho :: commas tss ++ Kw KSemiColon :: l)) by (destruct W as [<- |[<- |[<- |[]]]]; reflexivity).
  apply wpx_PS. unfold parse_statement_body, look_restore.
  repeat (first [eapply (wpx_look_cls toks L); [exact H|exact X|reflexivity|]|px1 L]; cbv beta).
  destruct (here_cons toks L p _ _ H) as (HN0 & HS & _).
  assert (O : wpx (parse_oo_declaration toks (PE toks) (PS toks)) p (fun _ _ => False) (fun _ q => q = S p)).
  { unfold parse_oo_declaration. clear X. destruct W as [<- |[<- |[<- |[]]]]; px L; cbn [List.length]; try lia.
    1-2: (eapply (wpx_span_at toks); [pose proof (here_lt _ _ _ _ H); lia|]; intros sp0; px L; unfold expect_string; px L; reflexivity).
    unfold lf. cbn [class_mods]. px L. unfold expect. px L; cbn [List.length]; try lia. 
    (eapply (wpx_span_at toks); [pose proof (here_lt _ _ _ _ H); lia|]; intros sp0; px L; unfold expect_string; px L; reflexivity). }
  eapply wpx_mono; [exact O|intros ? ? []|]. intros er q ->. unfold parse_other_stmt. px L. cbn [simple_stmt]. px L.
  eapply wpx_use; [apply (expression_list_run tss es NE F toks L _ _ HS0); reflexivity|].
  intros r q (A1 & A2 & A3). px L. oks. strips.
Qed.
Lemma stm_mods ms tss es : ms <> [] -> tss <> [] -> Forall2 Full tss es ->
  StmC any (cmods_toks ms ++ Kw KEcho :: commas tss ++ [Kw KSemiColon]) (St (SEcho es) span_new).
Proof.
  intros NM NE F. split; [destruct ms as [|m ms]; [congruence|]; exists (Kw (cm_kind m)); eexists; split; [reflexivity|]; destruct m; reflexivity|].
  intros toks L p l H _. rewrite <- app_assoc in H. cbn [app] in H. rewrite <- app_assoc in H. cbn [app] in H.
  assert (X : hd_ok (tok_in [KAbstract; KFinal]) (cmods_toks ms ++ Kw KEcho :: commas tss ++ Kw KSemiColon :: l)) by (destruct ms as [|[] ms]; [congruence|reflexivity|reflexivity]).
  apply wpx_PS. unfold parse_statement_body, look_restore.
  repeat (first [eapply (wpx_look_cls toks L); [exact H|exact X|reflexivity|]|px1 L]; cbv beta).
  assert (O : wpx (parse_oo_declaration toks (PE toks) (PS toks)) p (fun _ _ => False) (fun _ q => here toks q (Kw KEcho :: commas tss ++ Kw KSemiColon :: l) /\ p <= q)).
  { unfold parse_oo_declaration. px1 L. px1 L. px1 L. px1 L. px1 L. px1 L.
    eapply wpx_use; [apply (cmods_run ms toks L (lf toks) [] p _ H); [reflexivity|]|].
    { destruct H as [H _]; unfold cmods_toks in H; rewrite app_length, map_length in H; unfold lf; lia. }
    intros r q (A1 & -> & ->). unfold expect. px L. split; [exact A1|lia]. }
  eapply wpx_mono; [exact O|intros ? ? []|]. intros er q (A1 & A2). unfold parse_other_stmt. px L. cbn [simple_stmt]. px L.
  eapply wpx_use; [apply (expression_list_run tss es NE F toks L _ _ HS); reflexivity|].
  intros r q' (B1 & B2 & B3). px L. oks. strips.
Qed.
Lemma expr_twice e : strip_expr (strip_expr e) = strip_expr e.
Proof. destruct strip_twice as (H & _). apply H. Qed.
Lemma one_stm r ts s s' : seen LInScripting [] r ts -> StmC any ts s -> strip_stmt s = strip_stmt s' -> parses_to (s2l "<?php " ++ r) [s'].
Proof.
  intros R S E. apply (parses_strip _ [s]); [cbn; f_equal; exact E|]. change (s2l "<?php ") with (s2l "<?php" ++ s2l " "). rewrite <- app_assoc.
  eapply (program_parses _ [ts]); [|discriminate|constructor; [apply top_stm, stm_any, S|constructor]].
  cbn [List.concat]. rewrite app_nil_r. lx. exact R.
Qed.
Lemma same_expr_stm e : strip_stmt (expr_stm (strip_expr e)) = strip_stmt (St (SExpr e) span_new).
Proof. unfold expr_stm, strip_stmt. cbn. f_equal. f_equal. apply expr_twice. Qed.

Section Sf.
Variable sf : str -> str.
Lemma paren_seen t te st r vs : text hfull aft t te -> seen LInScripting st r vs -> seen LInScripting st (s2l "(" ++ t ++ s2l ")" ++ r) ((Kw KParenthesesOpen :: te ++ [Kw KParenthesesClose]) ++ vs).
Proof.
  intros T R. cbn [app]. apply seen_paren; [eapply text_uncast; [exact T|reflexivity]|]. rewrite <- app_assoc.
  apply (text_seen _ _ _ _ _ _ _ T); [reflexivity|]. lx. exact R.
Qed.
Lemma paren_seen2 t te st r vs : text hfull aft t te -> seen LInScripting st r vs -> seen LInScripting st (s2l "(" ++ t ++ s2l ")" ++ r) (Kw KParenthesesOpen :: te ++ Kw KParenthesesClose :: vs).
Proof. intros T R. pose proof (paren_seen t te st r vs T R) as X. cbn [app] in X. rewrite <- app_assoc in X. exact X. Qed.
Definition from_paren (ts : list token) : Prop := exists r, ts = Kw KParenthesesOpen :: r.
Lemma dangle_step e t te b : In b binops -> Full te e -> text hfull aft t te ->
  exists ts, Full ts e /\ text hfull aft (s2l "(" ++ t ++ s2l ") " ++ s2l (bo_text b) ++ s2l " ") ts /\ from_paren ts.
Proof.
  intros I F T. destruct (binop_facts b I) as (k & P1 & P2 & P3 & P4 & P5 & _ & _ & P6).
  exists ((Kw KParenthesesOpen :: te ++ [Kw KParenthesesClose]) ++ [Kw k]). split; [|split].
  - eapply dangle_op; [exact P1|exact P2|exact P3|exact P4| | |exact (full_paren te e F)]; lia.
  - split; [|split].
    + eexists. eexists. split; [reflexivity|reflexivity].
    + intros r A. reflexivity.
    + intros st r vs A R. rewrite <- !app_assoc. change (s2l ") ") with (s2l ")" ++ s2l " "). rewrite <- !app_assoc.
      apply paren_seen; [exact T|]. lx. cbn [app]. apply P6. lx. exact R.
  - eexists. reflexivity.
Qed.
Lemma dangle_steps e ops : Forall (fun b => In b binops) ops -> forall t te, Full te e -> text hfull aft t te -> from_paren te ->
  exists ts, Full ts e /\ text hfull aft (dangling t ops) ts /\ from_paren ts.
Proof.
  induction 1 as [|b ops I F IH]; intros t te FE T FP; [exists te; auto|]. cbn [dangling].
  destruct (dangle_step e t te b I FE T) as (ts & A1 & A2 & A3). eapply IH; eauto.
Qed.
Lemma dangling_parses e t ops : written sf e t -> Forall (fun b => In b binops) ops -> ops <> [] ->
  parses_to (s2l "<?php " ++ dangling t ops ++ s2l ";") [St (SExpr e) span_new].
Proof.
  intros W F NE. destruct (written_by sf _ _ W) as (te & FE & T). destruct F as [|b ops I F]; [congruence|]. cbn [dangling].
  destruct (dangle_step _ t te b I FE T) as (ts & A1 & A2 & A3). destruct (dangle_steps _ ops F _ ts A1 A2 A3) as (ts' & B1 & B2 & r & ->).
  eapply one_stm; [|apply (stm_expr _ _ B1 Logic.I)|apply same_expr_stm].
  apply (text_seen _ _ _ _ _ _ _ B2); [reflexivity|]. change (s2l ";") with (s2l ";" ++ []). lx. apply seen_end.
Qed.
(** ** Parentheses that are never closed *)
Lemma opened_by n o t : inner sf o t -> 0 < n ->
  exists ts, Junk ts /\ forall st r vs, seen LInScripting st (s2l ";" ++ r) vs -> seen LInScripting st (opened n t ++ s2l ";" ++ r) (ts ++ vs).
Proof.
  intros W N. unfold opened.
  assert (X : exists ts, ((exists e, Full ts e) \/ Junk ts) /\ (forall r, cast_tail (t ++ s2l ";" ++ r) = None) /\ forall st r vs, seen LInScripting st (s2l ";" ++ r) vs -> seen LInScripting st (t ++ s2l ";" ++ r) (ts ++ vs)).
  { destruct o as [e|].
    - destruct (written_by sf _ _ W) as (te & FE & T). exists te. split; [eauto|]. destruct T as (_ & T1 & T2). split; [intros r; apply T1; reflexivity|intros st r vs R; apply T2; [reflexivity|exact R]].
    - cbn in W. subst t. exists []. split; [right; apply junk_nil|]. split; [reflexivity|intros st r vs R; exact R]. }
  assert (Y : forall m, exists ts, ((exists e, Full ts e) \/ Junk ts) /\ (0 < m -> Junk ts) /\ (forall r, cast_tail ((List.concat (repeat (s2l "(") m) ++ t) ++ s2l ";" ++ r) = None) /\
    forall st r vs, seen LInScripting st (s2l ";" ++ r) vs -> seen LInScripting st ((List.concat (repeat (s2l "(") m) ++ t) ++ s2l ";" ++ r) (ts ++ vs)).
  { induction m as [|m (ts & J & _ & C & S)].
    - destruct X as (ts & J & C & S). exists ts. repeat split; auto. lia.
    - exists (Kw KParenthesesOpen :: ts). assert (J' := junk_open ts J). repeat split; auto.
      intros st r vs R. cbn [repeat List.concat]. rewrite <- !app_assoc. cbn [app]. apply seen_paren; [|specialize (S st r vs R); rewrite <- !app_assoc in S; exact S].
      specialize (C r). rewrite <- !app_assoc in C. exact C. }
  destruct (Y n) as (ts & _ & J & _ & S). exists ts. split; auto.
Qed.
Lemma opened_parses e t b n o t' : written sf e t -> In b binops -> inner sf o t' -> 0 < n ->
  parses_to (s2l "<?php " ++ s2l "(" ++ t ++ s2l ") " ++ s2l (bo_text b) ++ s2l " " ++ opened n t' ++ s2l ";") [St (SExpr e) span_new].
Proof.
  intros W I O N. destruct (written_by sf _ _ W) as (te & FE & T). destruct (opened_by n o t' O N) as (tj & J & S).
  destruct (binop_facts b I) as (k & P1 & P2 & P3 & P4 & P5 & _ & _ & P6).
  eapply one_stm; [|eapply (stm_s (te ++ Kw KParenthesesClose :: Kw k :: tj))|apply same_expr_stm].
  - change (s2l ") ") with (s2l ")" ++ s2l " "). rewrite <- !app_assoc. 
    cbn [app]; apply paren_seen2; [exact T|]. lx. apply P6. lx. change (s2l ";") with (s2l ";" ++ []). apply S. lx. apply seen_end.
  - assert (X := dangle_junk 18 17 k _ _ _ _ _ tj P1 P2 P3 P4 ltac:(lia) ltac:(lia) (full_paren te _ FE) J).
    cbn [app] in X. rewrite <- app_assoc in X. exact X.
Qed.
Lemma return_parses w k f n o t : (w, k, f) = ("return"%string, KReturn, SReturn) \/ (w, k, f) = ("continue"%string, KContinue, SContinue) \/ (w, k, f) = ("break"%string, KBreak, SBreak) ->
  inner sf o t -> 0 < n -> parses_to (s2l "<?php " ++ s2l w ++ s2l " " ++ opened n t ++ s2l ";") [St (f None) span_new].
Proof.
  intros K O N. destruct (opened_by n o t O N) as (tj & J & S).
  eapply one_stm; [|eapply (stm_junk k f tj); [|exact J]|reflexivity].
  - assert (R : seen LInScripting [] (s2l " " ++ opened n t ++ s2l ";") (tj ++ [Kw KSemiColon])).
    { lx. change (s2l ";") with (s2l ";" ++ []). apply S. lx. apply seen_end. }
    destruct K as [K|[K|K]]; injection K as -> -> _; (apply seen_kw; [reflexivity|reflexivity|exact R|reflexivity]).
  - destruct K as [K|[K|K]]; injection K as -> -> ->; auto.
Qed.
(** ** Half a ternary, half an index *)
Lemma ternary_parses e t th tth (colon : bool) : written sf e t -> written sf th tth ->
  parses_to (s2l "<?php " ++ s2l "(" ++ t ++ s2l ") ? (" ++ tth ++ s2l (if colon then ") : ;" else ");")) [St (SExpr e) span_new].
Proof.
  intros W W2. destruct (written_by sf _ _ W) as (te & FE & T). destruct (written_by sf _ _ W2) as (tt & FT & T2).
  set (tp := Kw KParenthesesOpen :: tt ++ [Kw KParenthesesClose]).
  eapply one_stm; [|eapply (stm_s (te ++ Kw KParenthesesClose :: Kw KQuestionMark :: tp ++ if colon then [Kw KColon] else []))|apply same_expr_stm].
  - change (s2l ") ? (") with (s2l ")" ++ s2l " ? " ++ s2l "("). rewrite <- !app_assoc. cbn [app]; apply paren_seen2; [exact T|]. do 3 lx.
    assert (E : s2l (if colon then ") : ;" else ");") = s2l ")" ++ s2l (if colon then " : ;" else ";")) by (destruct colon; reflexivity). rewrite E.
    unfold tp. cbn [app]; rewrite <- !app_assoc; cbn [app]; apply paren_seen2; [exact T2|]. destruct colon.
    + change (s2l " : ;") with (s2l " : ;" ++ []). do 4 lx. apply seen_end.
    + change (s2l ";") with (s2l ";" ++ []). lx. apply seen_end.
  - assert (X := dangle_ternary _ _ tp (full_paren te _ FE) (or_intror (ex_intro _ _ (full_paren tt _ FT))) colon).
    cbn [app] in X. rewrite <- app_assoc in X. exact X.
Qed.
Lemma index_parses e t o t' : written sf e t -> inner sf o t' ->
  parses_to (s2l "<?php " ++ s2l "(" ++ t ++ s2l ")[" ++ t' ++ s2l ";") [St (SExpr e) span_new].
Proof.
  intros W O. destruct (written_by sf _ _ W) as (te & FE & T).
  assert (X : exists ti oi, OptE ti oi /\ forall st r vs, seen LInScripting st (s2l ";" ++ r) vs -> seen LInScripting st (t' ++ s2l ";" ++ r) (ti ++ vs)).
  { destruct o as [i|].
    - destruct (written_by sf _ _ O) as (ti & FI & TI). exists ti, (Some (strip_expr i)). split; [exact FI|]. intros st r vs R. apply (text_seen _ _ _ _ _ _ _ TI); [reflexivity|exact R].
    - cbn in O. subst t'. exists [], None. split; [reflexivity|]. intros st r vs R. exact R. }
  destruct X as (ti & oi & OI & SI).
  eapply one_stm; [|eapply (stm_s (te ++ Kw KParenthesesClose :: Kw KSquareBracketOpen :: ti))|apply same_expr_stm].
  - change (s2l ")[") with (s2l ")" ++ s2l "["). rewrite <- !app_assoc. cbn [app]; apply paren_seen2; [exact T|]. lx. change (s2l ";") with (s2l ";" ++ []). apply SI. lx. apply seen_end.
  - assert (X := open_index _ _ ti oi (var_paren te _ FE) OI). cbn [app] in X. rewrite <- app_assoc in X. exact X.
Qed.
(** ** Words without their class *)
Lemma echo_by e t : written sf e t -> exists te, Full te (strip_expr e) /\ seen LInScripting [] (s2l "echo " ++ t ++ s2l ";") (Kw KEcho :: te ++ [Kw KSemiColon]).
Proof.
  intros W. destruct (written_by sf _ _ W) as (te & FE & T). exists te. split; [exact FE|]. do 2 lx. apply (text_seen _ _ _ _ _ _ _ T); [reflexivity|].
  change (s2l ";") with (s2l ";" ++ []). lx. apply seen_end.
Qed.
Lemma same_echo e : strip_stmt (St (SEcho [strip_expr e]) span_new) = strip_stmt (St (SEcho [e]) span_new).
Proof. unfold strip_stmt. cbn. f_equal. f_equal. f_equal. apply expr_twice. Qed.
Lemma word_parses w e t : In w class_words -> written sf e t -> parses_to (s2l "<?php " ++ s2l w ++ s2l " echo " ++ t ++ s2l ";") [St (SEcho [e]) span_new].
Proof.
  intros I W. destruct (echo_by e t W) as (te & FE & S).
  assert (K : exists k, In k [KTrait; KInterface; KClass] /\ word_token (s2l w) = Kw k /\ Spec.identifier (s2l w) = true).
  { destruct I as [<- |[<- |[<- |[]]]]; eexists; (split; [|split; reflexivity]); cbn; auto. }
  destruct K as (k & K1 & K2 & K3). eapply one_stm; [|eapply (stm_word k [te] [strip_expr e]); [exact K1|discriminate|constructor; [exact FE|constructor]]|apply same_echo].
  change (s2l " echo ") with (s2l " " ++ s2l "echo "). rewrite <- app_assoc. apply seen_kw; [exact K2|reflexivity| |exact K3]. lx. exact S.
Qed.
Lemma mods_parses ws e t : ws <> [] -> Forall (fun w => In w modifier_words) ws -> written sf e t ->
  parses_to (s2l "<?php " ++ flat_map (fun w => s2l w ++ s2l " ") ws ++ s2l "echo " ++ t ++ s2l ";") [St (SEcho [e]) span_new].
Proof.
  intros NE F W. destruct (echo_by e t W) as (te & FE & S).
  assert (X : exists ms, List.length ms = List.length ws /\ seen LInScripting [] (flat_map (fun w => s2l w ++ s2l " ") ws ++ s2l "echo " ++ t ++ s2l ";") (cmods_toks ms ++ Kw KEcho :: te ++ [Kw KSemiColon])).
  { clear NE. induction F as [|w ws I F (ms & E & IH)]; [exists []; split; [reflexivity|exact S]|]. cbn [flat_map]. rewrite <- !app_assoc.
    destruct I as [<- |[<- |[]]]; [exists (CAbstract :: ms)|exists (CFinal :: ms)]; (split; [cbn; congruence|]); (apply seen_kw; [reflexivity|reflexivity|lx; exact IH|reflexivity]). }
  destruct X as (ms & E & X). eapply one_stm; [exact X|apply (stm_mods ms [te] [strip_expr e]); [|discriminate|constructor; [exact FE|constructor]]|apply same_echo].
  intros ->. destruct ws; [congruence|discriminate].
Qed.
Lemma return_parses_any w f n o t : (w, f) = ("return"%string, SReturn) \/ (w, f) = ("continue"%string, SContinue) \/ (w, f) = ("break"%string, SBreak) ->
  inner sf o t -> 0 < n -> parses_to (s2l "<?php " ++ s2l w ++ s2l " " ++ opened n t ++ s2l ";") [St (f None) span_new].
Proof.
  intros [E|[E|E]]; injection E as -> ->; intros I N; [eapply (return_parses _ KReturn)|eapply (return_parses _ KContinue)|eapply (return_parses _ KBreak)]; eauto.
Qed.
End Sf.
Lemma count_app c a b : count_char c (a ++ b) = count_char c a + count_char c b.
Proof. unfold count_char. rewrite filter_app, app_length. reflexivity. Qed.
Lemma count_opened c n : count_char c (opened n []) = if (c =? 40)%N then n else 0.
Proof.
  unfold opened. rewrite app_nil_r. induction n as [|n IH]; [destruct (_ =? _)%N; reflexivity|]. cbn [repeat List.concat]. rewrite count_app, IH.
  change (count_char c (s2l "(")) with (List.length (if (c =? 40)%N then [40%N] else [])). destruct (_ =? _)%N; reflexivity.
Qed.
Lemma unbalanced_parses n : 0 < n -> exists src l, parses_to src l /\ count_char 40 src = count_char 41 src + n.
Proof.
  intros N. eexists. eexists. split.
  - apply (return_parses (fun s => s) "return" KReturn SReturn n None [] (or_introl eq_refl) eq_refl N).
  - rewrite !count_app, !count_opened. cbn. lia.
Qed.
