(** * GrammarTop: whole programs of the grammar (proofs for C38) *)
From Verif Require Import SpecGrammar.
From Verif Require Import Base Tokens Ast AstMap AstInd Lexer Parser Driver Spec SpecProg SpecRT SpecInterp ParserRel ParserFacts ParseRun ParseTac ParseExpr ParseStmt ParseDecl LexBase LexSteps LexTok LexWords LexNum LexMore LexFacts LexStr LexRun LexParse LexCrash Emit ProgNames RTBase RTExpr RTStmt Interp Grammar GrammarAll SpecMixed LexMono Mixed LexBehind Crash.
From Coq Require Import String Lia.
Local Open Scope list_scope.

Lemma use_clause_m ts u : UseClause ts u -> Use ts u.
Proof.
  intros [ts' p N|ts' p a N]; destruct (name_is_path _ _ N) as (abs & fs & NE & -> & ->); exists abs, fs.
  - exists []. rewrite app_nil_r. auto.
  - exists [Kw KAs; TString a]. auto.
Qed.
Lemma use_clauses_m ts l : UseClauses ts l -> exists tss, tss <> [] /\ ts = commas tss /\ Forall2 Use tss l.
Proof.
  induction 1 as [ts u U|ts u tl l U _ (tss & NE & -> & F)].
  - exists [ts]. split; [discriminate|]. split; [reflexivity|]. constructor; [apply use_clause_m, U|constructor].
  - exists (ts :: tss). split; [discriminate|]. split; [destruct tss; [contradiction|reflexivity]|]. constructor; [apply use_clause_m, U|exact F].
Qed.
Section Lost.
Context {Lost : part -> list token -> Prop}.
Hypothesis lost_block : forall u, Lost InBlock u -> Unf u.
Hypothesis lost_class : forall u, Lost InClass u -> UnfM u.
Hypothesis lost_whole : forall n e u, Lost (AsWhole n e) u -> MWhole n u e.
Hypothesis lost_stmt : forall s u, Lost (AsStmt s) u -> StmC any u s /\ forall v, u <> Kw KEcho :: v.
Lemma top_m ts s : TopStmt (Lost := Lost) ts s -> Top ts s.
Proof.
  intros [ts' s' S|ns a|ts' l U].
  - apply top_stm. exact (stmt_all lost_block lost_class lost_whole lost_stmt _ _ _ S).
  - rewrite fragments_frag, <- name_path_of. apply ParseDecl.top_namespace, snoc_ne.
  - destruct (use_clauses_m _ _ U) as (tss & NE & -> & F). apply ParseDecl.top_use; assumption.
Qed.
Lemma program_m ts l : Program (Lost := Lost) ts l -> exists tss, tss <> [] /\ ts = List.concat tss /\ Forall2 Top tss l.
Proof.
  induction 1 as [ts s T|ts s tl l T _ (tss & NE & -> & F)].
  - exists [ts]. split; [discriminate|]. split; [cbn; rewrite app_nil_r; reflexivity|]. constructor; [apply top_m, T|constructor].
  - exists (ts :: tss). split; [discriminate|]. split; [reflexivity|]. constructor; [apply top_m, T|exact F].
Qed.
Lemma tokens_parse toks l : behind_tag toks -> Program (Lost := Lost) (map fst toks) l -> exists l' p, parse_top toks = POk l' p /\ strip l' = strip l.
Proof.
  intros B P. destruct (program_m _ _ P) as (tss & NE & E & F). apply (program_run tss l toks NE F B E).
Qed.
(** ** Programs behind HTML or behind an opening tag with echo *)
Lemma echo_strong ts s : SpecGrammar.Stmt (Lost := Lost) true ts s -> forall u, ts = Kw KEcho :: u ->
  exists tes es, tes <> [] /\ u = commas tes ++ [Kw KSemiColon] /\ Forall2 Full tes es /\ s = st (SEcho es).
Proof.
  intros S. inversion S; intros tl0 X; cbn [app] in X; try discriminate X.
  - destruct (full_head _ _ (whole_full 1 _ _ (le_n 1) (whole_all lost_block lost_class lost_whole lost_stmt _ _ _ H))) as (t & r & -> & Y). injection X as -> _. discriminate Y.
  - injection X as <-. destruct (wholes_all lost_block lost_class lost_whole lost_stmt _ _ H) as (tss & NE & -> & F). exists tss, es. auto.
  - injection X as -> _. cbn in H. repeat (destruct H as [H|H]; [discriminate H|]). destruct H.
  - destruct (proj2 (lost_stmt _ _ H) _ X).
  - destruct ms as [|m ms]; [discriminate|]. injection X as X _. destruct m; discriminate X.
Qed.
Lemma echo_top ts s u : TopStmt (Lost := Lost) ts s -> ts = Kw KEcho :: u ->
  exists tes es, tes <> [] /\ u = commas tes ++ [Kw KSemiColon] /\ Forall2 Full tes es /\ s = st (SEcho es).
Proof.
  intros [ts' s' S|ns a|ts' l U] E; try discriminate. inversion S; subst; try discriminate; try (eapply echo_strong; [eassumption|reflexivity]).
Qed.
Lemma tops_end tss ss : Forall2 Top tss ss -> stm_end (List.concat tss).
Proof. intros F. rewrite <- (app_nil_r (List.concat tss)). exact (Crash.top_end tss ss [] F Logic.I). Qed.
Lemma html_top ts s w r r' : Top ts s -> stm_end r -> ts ++ r = Kw KEcho :: TCes w :: Kw KSemiColon :: r' ->
  ts = [Kw KEcho; TCes w; Kw KSemiColon] /\ strip_stmt s = strip_stmt (Mixed.html w).
Proof.
  intros T SE E. destruct (placed_here (ts ++ r)) as [L H]. pose proof (top_run ts s _ 0 r T L H SE) as X.
  rewrite E in X. unfold wpx in X. cbn [map] in X. destruct (html_first w (mk_span 2 2) (mk_span 2 2) (mk_span 2 2) (map (fun t => (t, mk_span 2 2)) r')) as (a & b & Y). rewrite Y in X.
  destruct X as ((X & _) & _ & Z). cbn [List.length] in X. rewrite map_length in X. assert (N := f_equal (@List.length _) E). rewrite app_length in N. cbn [List.length] in N.
  assert (K : List.length ts = 3) by lia. destruct ts as [|x [|y [|z [|]]]]; try discriminate K. injection E as -> -> -> _. split; [reflexivity|]. rewrite <- Z. reflexivity.
Qed.
Lemma program_echo ts l u : Program (Lost := Lost) ts l -> ts = Kw KEcho :: u ->
  exists tes es tss ss, tes <> [] /\ Forall2 Full tes es /\ Forall2 Top tss ss /\ u = commas tes ++ Kw KSemiColon :: List.concat tss /\ l = st (SEcho es) :: ss.
Proof.
  intros [t1 s T|t1 s tl l' T P] E.
  - destruct (echo_top _ _ _ T E) as (tes & es & N & -> & F & ->). exists tes, es, [], []. repeat split; auto.
  - assert (NE : t1 <> []) by (intros ->; inversion T; subst; match goal with H : Stmt _ [] _ |- _ => pose proof (top_m _ _ (top_stmt _ _ H)) as X; destruct (top_start _ _ X) as (? & ? & ? & _); discriminate | _ => idtac end; try (destruct ns; discriminate)).
    destruct t1 as [|t t1]; [congruence|]. injection E as -> <-. destruct (echo_top _ _ _ T eq_refl) as (tes & es & N & -> & F & ->).
    destruct (program_m _ _ P) as (tss & _ & -> & G). exists tes, es, tss, l'. rewrite <- app_assoc. repeat split; auto.
Qed.
Lemma opening_parse toks l : opening toks -> Program (Lost := Lost) (map fst toks) l -> exists l' p, parse_top toks = POk l' p /\ strip l' = strip l.
Proof.
  intros (pre & rest & -> & B & [->|[(a & ->)|[(w & a & ->)|(w & a & b & ->)]]]) P.
  - exact (tokens_parse rest l B P).
  - destruct (program_echo _ _ _ P eq_refl) as (tes & es & tss & ss & N & F & T & E & ->). exact (echo_run tes es tss ss rest a N F T B E).
  - destruct (program_m _ _ P) as (tss & NE & E & F). destruct F as [|t1 s tss ss T F]; [congruence|]. cbn [List.concat] in E.
    destruct (html_top t1 s w (List.concat tss) (map fst rest) T (tops_end _ _ F) (eq_sym E)) as [-> S]. injection E as E.
    destruct (html_run tss ss rest w a a a F B E) as (l' & p & X & Y). exists l', p. split; [exact X|]. rewrite Y. cbn [strip map]. rewrite S. reflexivity.
  - cbn [map app fst] in P. remember (Kw KEcho :: TCes w :: Kw KSemiColon :: Kw KEcho :: map fst rest) as ts eqn:E in P. destruct P as [t1 s T|t1 s tl l T P].
    + destruct (html_top t1 s w [] (Kw KEcho :: map fst rest) (top_m _ _ T) Logic.I) as [X _]; [rewrite app_nil_r; exact E|]. rewrite X in E. discriminate E.
    + destruct (program_m _ _ P) as (tss & NE & E' & F). destruct (html_top t1 s w tl (Kw KEcho :: map fst rest) (top_m _ _ T)) as [X S]; [rewrite E'; exact (tops_end _ _ F)|exact E|].
      rewrite X in E. injection E as E. destruct (program_echo _ _ _ P E) as (tes & es & tss' & ss & N & FE & FT & M & ->).
      destruct (html_echo_run tes es tss' ss rest w a a a b N FE FT B M) as (l' & p & Y & Z). exists l', p. split; [exact Y|]. rewrite Z. cbn [strip map]. rewrite S. reflexivity.
Qed.
Lemma source_grammar src all l : tokens_of src all -> Program (Lost := Lost) (flat_map visible all) l -> parses_to src l.
Proof.
  intros (F & H) P. exists F. intros f L. destruct (H f L) as (ts & s & E & M). unfold parse_str. rewrite E. unfold parse_tokens.
  destruct (opening_parse (filter_tokens ts) l) as (l' & p & X & Y); [eapply opening_source, E| |rewrite X; eauto].
  assert (Z : map fst (filter_tokens ts) = flat_map visible all) by (etransitivity; [apply filter_sees|]; rewrite M; reflexivity).
  unfold tokspan in *. rewrite Z. exact P.
Qed.
Lemma program_unique ts l l' : Program (Lost := Lost) ts l -> Program (Lost := Lost) ts l' -> strip l = strip l'.
Proof.
  intros P Q. set (toks := map (fun t => (t, mk_span 2 2)) ts : list tokspan).
  assert (M : map fst toks = ts) by (unfold toks; rewrite map_map; apply map_id).
  assert (B : behind_tag toks) by (apply Forall_forall; intros t I; apply in_map_iff in I as (x & <- & _); cbn; lia).
  rewrite <- M in P, Q. destruct (tokens_parse toks l B P) as (x & p & X & <-). destruct (tokens_parse toks l' B Q) as (y & q & Y & <-). congruence.
Qed.
End Lost.
Lemma strict_block u : strict InBlock u -> Unf u. Proof. intros []. Qed.
Lemma strict_class u : strict InClass u -> UnfM u. Proof. intros []. Qed.
Lemma strict_whole n e u : strict (AsWhole n e) u -> MWhole n u e. Proof. intros []. Qed.
Lemma strict_stmt s u : strict (AsStmt s) u -> StmC any u s /\ forall v, u <> Kw KEcho :: v. Proof. intros []. Qed.
