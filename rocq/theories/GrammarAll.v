(** * GrammarAll: the induction over the grammar *)
From Verif Require Import SpecGrammar.
From Verif Require Import Base Tokens Ast AstMap AstInd Lexer Parser Driver Spec SpecProg SpecRT SpecInterp ParserRel ParserFacts ParseRun ParseTac ParseExpr ParseStmt ParseDecl LexBase LexSteps LexTok LexWords LexNum LexMore LexFacts LexStr LexRun LexParse LexCrash Emit ProgNames RTBase RTExpr RTStmt Interp Grammar.
From Coq Require Import String.
Local Open Scope list_scope.

Scheme expr_min := Minimality for SpecGrammar.Expr Sort Prop
with not_min := Minimality for SpecGrammar.Not Sort Prop
with pow_min := Minimality for SpecGrammar.Pow Sort Prop
with tail_min := Minimality for SpecGrammar.Tail Sort Prop
with whole_min := Minimality for SpecGrammar.Whole Sort Prop
with optwhole_min := Minimality for SpecGrammar.OptWhole Sort Prop
with wholes_min := Minimality for SpecGrammar.Wholes Sort Prop
with access_min := Minimality for SpecGrammar.Access Sort Prop
with property_min := Minimality for SpecGrammar.Property Sort Prop
with newref_min := Minimality for SpecGrammar.NewRef Sort Prop
with newvar_min := Minimality for SpecGrammar.NewVar Sort Prop
with arguments_min := Minimality for SpecGrammar.Arguments Sort Prop
with args_min := Minimality for SpecGrammar.Args Sort Prop
with arg_min := Minimality for SpecGrammar.Arg Sort Prop
with pairs_min := Minimality for SpecGrammar.Pairs Sort Prop
with pairlist_min := Minimality for SpecGrammar.PairList Sort Prop
with pair_min := Minimality for SpecGrammar.Pair Sort Prop
with parts_min := Minimality for SpecGrammar.Parts Sort Prop
with default_min := Minimality for SpecGrammar.Default Sort Prop
with param_min := Minimality for SpecGrammar.Param Sort Prop
with params_min := Minimality for SpecGrammar.Params Sort Prop
with paramlist_min := Minimality for SpecGrammar.ParamList Sort Prop
with vars_min := Minimality for SpecGrammar.Vars Sort Prop
with consts_min := Minimality for SpecGrammar.Consts Sort Prop
with stmt_min := Minimality for SpecGrammar.Stmt Sort Prop
with stmts_min := Minimality for SpecGrammar.Stmts Sort Prop
with inner_min := Minimality for SpecGrammar.Inner Sort Prop
with body_min := Minimality for SpecGrammar.Body Sort Prop
with if_min := Minimality for SpecGrammar.If Sort Prop
with loopvar_min := Minimality for SpecGrammar.LoopVar Sort Prop
with accesslist_min := Minimality for SpecGrammar.AccessList Sort Prop
with catches_min := Minimality for SpecGrammar.Catches Sort Prop
with finally_min := Minimality for SpecGrammar.Finally Sort Prop
with labels_min := Minimality for SpecGrammar.Labels Sort Prop
with members_min := Minimality for SpecGrammar.Members Sort Prop
with innermembers_min := Minimality for SpecGrammar.InnerMembers Sort Prop
with member_min := Minimality for SpecGrammar.Member Sort Prop
with methodbody_min := Minimality for SpecGrammar.MethodBody Sort Prop.
Combined Scheme grammar_min from expr_min, not_min, pow_min, tail_min, whole_min, optwhole_min, wholes_min, access_min, property_min, newref_min, newvar_min, arguments_min, args_min, arg_min, pairs_min, pairlist_min, pair_min, parts_min, default_min, param_min, params_min, paramlist_min, vars_min, consts_min, stmt_min, stmts_min, inner_min, body_min, if_min, loopvar_min, accesslist_min, catches_min, finally_min, labels_min, members_min, innermembers_min, member_min, methodbody_min.

(** ** What each category means for the parser *)
Definition lm (n : nat) : nat := if 17 <=? n then 18 else if 15 <=? n then 15 else n.
Definition lmf (n : nat) : nat := if 17 <=? n then 17 else if 15 <=? n then 14 else n.
Definition MExpr (n : nat) ts e := Chain (lm n) (lmf n) ts e /\ (17 <= n -> Operand oplike ts e) /\ SH ts.
Definition MNot ts e := Operand oplike ts e /\ SH ts.
Definition MPow ts e := Chain 15 14 ts e /\ SH ts.
Definition MTail (n : nat) ts e := TailR (lm n) ts e /\ (17 <= n -> Operand closing ts e) /\ SH ts.
Definition MWhole (n : nat) ts e := TailR (lm n) ts e /\ SH ts.
Definition MOptWhole (n : nat) ts o := match o with Some e => MWhole n ts e | None => ts = [] end.
Definition list_of {A} (It : list token -> A -> Prop) (ts : list token) (l : list A) : Prop := exists tss, tss <> [] /\ ts = commas tss /\ Forall2 It tss l.
Definition MAccess ts e := Var ts e /\ SH ts.
Definition MNewVar ts e := VarS true ts e /\ exists v r, ts = TVariable v :: r.
Definition MArguments ts l := exists tss, ts = call_toks tss /\ Forall2 Arg tss l.
Definition MParams ts l := exists tss, ts = commas tss /\ Forall2 Param tss l.
Definition MConst ts (x : str * expr) := exists t te, ts = t :: Kw KEqual :: te /\ Ident t (fst x) /\ Full te (snd x).
Definition follow (c : bool) : list token -> Prop := if c then any else stm_end.
Definition MStmt (c : bool) ts s := StmC (follow c) ts s.
Definition MStmts ts l := exists tss, ts = List.concat tss /\ Forall2 Stm tss l.
Definition MIf ts s := IfR ts s /\ exists c b e, s = st (SIf c b e).
Definition MCatches ts l := exists tss, ts = List.concat tss /\ Forall2 Catch tss l.
Definition MLabels ts l := (forall conds, switch_tree conds l = sw_cases conds l) /\ exists tss, ts = List.concat tss /\ Forall2 Item tss l.
Definition MMembers ts l := exists tss mss, ts = List.concat tss /\ Forall2 Mem tss mss /\ l = List.concat mss.

Lemma list_one {A} (It : list token -> A -> Prop) ts x : It ts x -> list_of It ts [x].
Proof. intros H. exists [ts]. split; [discriminate|]. split; [reflexivity|]. constructor; [exact H|constructor]. Qed.
Lemma list_more {A} (It : list token -> A -> Prop) ts x tl l : It ts x -> list_of It tl l -> list_of It (ts ++ Kw KComma :: tl) (x :: l).
Proof. intros H (tss & NE & -> & F). exists (ts :: tss). split; [discriminate|]. split; [destruct tss; [contradiction|reflexivity]|]. constructor; assumption. Qed.
Lemma whole_full n ts e : 1 <= n -> MWhole n ts e -> Full ts e.
Proof. intros N [T _]. apply (tail_full (lm n)); [|exact T]. unfold lm. destruct (17 <=? n); [lia|]. destruct (15 <=? n); lia. Qed.
Lemma operand_m ts e n : Operand oplike ts e -> SH ts -> MExpr n ts e.
Proof.
  intros O H. split; [|auto]. apply operand_chain in O. apply (chain_weak 18 17); [| |exact O]; unfold lm, lmf; repeat match goal with |- context [?a <=? ?b] => destruct (Nat.leb_spec a b) end; lia.
Qed.
Lemma post_m ts e n : Post oplike ts e -> SH ts -> MExpr n ts e.
Proof. intros P. apply operand_m. apply post_operand; auto. Qed.
Lemma tail_m ts e n : Post closing ts e -> SH ts -> MTail n ts e.
Proof.
  intros P H. assert (O : Operand closing ts e) by (apply post_operand; auto using closing_oplike). split; [apply operand_tail, O|]. auto.
Qed.
Lemma braced_m ts b : Stms ts b -> Braced (braces ts) b.
Proof. intros S. exists ts. split; [reflexivity|exact S]. Qed.
Definition MInnerMembers ts l := ClassBody (braces ts) l.
Lemma optw_e n ts o : 1 <= n -> MOptWhole n ts o -> OptE ts o.
Proof. intros N. destruct o; cbn; [apply whole_full, N|auto]. Qed.

Ltac each I := cbn [In jumps includes magic casts assignments prefix_operators steps_before steps_behind binary_operators] in I;
  repeat (destruct I as [I|I]; [inversion I; subst; clear I|]); try contradiction.
Ltac leq := unfold paren, braces, cond_toks, call_toks, cmods_toks, mods_toks; cbn [app]; repeat first [rewrite <- app_assoc | progress cbn [app]]; reflexivity.
Lemma stm_shape c ts ts' s : StmC c ts s -> ts' = ts -> StmC c ts' s.
Proof. intros H ->. exact H. Qed.
Lemma mem_shape ts ts' l : Mem ts l -> ts' = ts -> Mem ts' l.
Proof. intros H ->. exact H. Qed.
Lemma captures_toks ts l : Captures ts l -> l <> [] /\ ts = commas (map use_toks l).
Proof.
  induction 1 as [r v|r v tl l _ (NE & ->)]; [split; [discriminate|reflexivity]|]. split; [discriminate|]. destruct l as [|y l]; [contradiction|].
  destruct r; reflexivity.
Qed.
Lemma use_vars_toks ts l : UseVars ts l -> ts = uses_toks l.
Proof. intros [|ts' l' C]; [reflexivity|]. destruct (captures_toks _ _ C) as (NE & ->). destruct l'; [contradiction|]. reflexivity. Qed.
Lemma globals_toks ts l : Globals ts l -> exists vs, vs <> [] /\ l = map VName vs /\ ts = commas (map (fun v => [TVariable v]) vs).
Proof.
  induction 1 as [v|v tl l _ (vs & NE & -> & ->)]; [exists [v]; split; [discriminate|auto]|]. exists (v :: vs). split; [discriminate|]. split; [reflexivity|].
  destruct vs; [contradiction|reflexivity].
Qed.
Lemma adaptation_adapt ts u : Adaptation ts u -> Adapt ts u.
Proof.
  intros [tn p t m tl l N W NS|tn p t m a N W|t m a W]; cbn.
  - destruct (names_commas _ _ NS) as (tss & NE & -> & F). exists tn, t, tss. auto using name_is_path, word_ident.
  - split; [reflexivity|]. exists tn, t. auto using name_is_path, word_ident.
  - split; [reflexivity|]. exists t. auto using word_ident.
Qed.
Lemma adaptations_toks ts l : Adaptations ts l -> exists uss, ts = adapts_toks uss /\ Forall2 Adapt uss l.
Proof.
  induction 1 as [|ts u tl l A _ (uss & -> & F)]; [exists []; split; [reflexivity|constructor]|]. exists (ts :: uss). split.
  - unfold adapts_toks. cbn [flat_map]. rewrite <- app_assoc. reflexivity.
  - constructor; [apply adaptation_adapt, A|exact F].
Qed.
Lemma supers_names k ts l : Supers k ts l -> Names k ts l.
Proof. intros [|ts' l' N]; [left; auto|right]. destruct (names_commas _ _ N) as (tss & NE & -> & F). exists tss. auto. Qed.
Lemma extends_base ts p : Extends ts p -> Base ts p.
Proof. intros [|ts' p' N]; [reflexivity|]. exists ts'. split; [reflexivity|apply name_is_path, N]. Qed.
Lemma hint_m ts h : SpecGrammar.Hint ts h -> Hint ts h.
Proof. intros [| | |ts' p N]; try reflexivity. exact (name_is_path _ _ N). Qed.
Lemma mods_same ms : map modifier_token ms = mods_toks ms.
Proof. apply map_ext. intros []; reflexivity. Qed.
Lemma cmods_same ms : map class_modifier_token ms = cmods_toks ms.
Proof. apply map_ext. intros []; reflexivity. Qed.
Lemma arguments_call ts l : list_of Arg ts l -> MArguments (paren ts) l.
Proof. intros (tss & _ & -> & F). exists tss. split; [reflexivity|exact F]. Qed.

Section Lost.
Context {Lost : part -> list token -> Prop}.
Hypothesis lost_block : forall u, Lost InBlock u -> Unf u.
Hypothesis lost_class : forall u, Lost InClass u -> UnfM u.
Hypothesis lost_whole : forall n e u, Lost (AsWhole n e) u -> MWhole n u e.
Hypothesis lost_stmt : forall s u, Lost (AsStmt s) u -> StmC any u s /\ forall v, u <> Kw KEcho :: v.
Lemma grammar_all :
  (forall n ts x, SpecGrammar.Expr (Lost := Lost) n ts x -> MExpr n ts x) /\
  (forall ts x, SpecGrammar.Not (Lost := Lost) ts x -> MNot ts x) /\
  (forall ts x, SpecGrammar.Pow (Lost := Lost) ts x -> MPow ts x) /\
  (forall n ts x, SpecGrammar.Tail (Lost := Lost) n ts x -> MTail n ts x) /\
  (forall n ts x, SpecGrammar.Whole (Lost := Lost) n ts x -> MWhole n ts x) /\
  (forall n ts x, SpecGrammar.OptWhole (Lost := Lost) n ts x -> MOptWhole n ts x) /\
  (forall ts x, SpecGrammar.Wholes (Lost := Lost) ts x -> (list_of Full) ts x) /\
  (forall ts x, SpecGrammar.Access (Lost := Lost) ts x -> MAccess ts x) /\
  (forall ts x, SpecGrammar.Property (Lost := Lost) ts x -> Prop_ ts x) /\
  (forall ts x, SpecGrammar.NewRef (Lost := Lost) ts x -> ClsRef ts x) /\
  (forall ts x, SpecGrammar.NewVar (Lost := Lost) ts x -> MNewVar ts x) /\
  (forall ts x, SpecGrammar.Arguments (Lost := Lost) ts x -> MArguments ts x) /\
  (forall ts x, SpecGrammar.Args (Lost := Lost) ts x -> (list_of Arg) ts x) /\
  (forall ts x, SpecGrammar.Arg (Lost := Lost) ts x -> Arg ts x) /\
  (forall ts x, SpecGrammar.Pairs (Lost := Lost) ts x -> PairsR ts x) /\
  (forall ts x, SpecGrammar.PairList (Lost := Lost) ts x -> (list_of Pair) ts x) /\
  (forall ts x, SpecGrammar.Pair (Lost := Lost) ts x -> Pair ts x) /\
  (forall ts x, SpecGrammar.Parts (Lost := Lost) ts x -> PartsR ts x) /\
  (forall ts x, SpecGrammar.Default (Lost := Lost) ts x -> Init ts x) /\
  (forall ts x, SpecGrammar.Param (Lost := Lost) ts x -> Param ts x) /\
  (forall ts x, SpecGrammar.Params (Lost := Lost) ts x -> MParams ts x) /\
  (forall ts x, SpecGrammar.ParamList (Lost := Lost) ts x -> (list_of Param) ts x) /\
  (forall ts x, SpecGrammar.Vars (Lost := Lost) ts x -> (list_of SVar) ts x) /\
  (forall ts x, SpecGrammar.Consts (Lost := Lost) ts x -> (list_of MConst) ts x) /\
  (forall n ts x, SpecGrammar.Stmt (Lost := Lost) n ts x -> MStmt n ts x) /\
  (forall ts x, SpecGrammar.Stmts (Lost := Lost) ts x -> MStmts ts x) /\
  (forall ts x, SpecGrammar.Inner (Lost := Lost) ts x -> Stms ts x) /\
  (forall n ts x, SpecGrammar.Body (Lost := Lost) n ts x -> (fun c => BodyC (follow c)) n ts x) /\
  (forall ts x, SpecGrammar.If (Lost := Lost) ts x -> MIf ts x) /\
  (forall ts x, SpecGrammar.LoopVar (Lost := Lost) ts x -> FVar ts x) /\
  (forall ts x, SpecGrammar.AccessList (Lost := Lost) ts x -> (list_of Var) ts x) /\
  (forall ts x, SpecGrammar.Catches (Lost := Lost) ts x -> MCatches ts x) /\
  (forall ts x, SpecGrammar.Finally (Lost := Lost) ts x -> Fin ts x) /\
  (forall ts x, SpecGrammar.Labels (Lost := Lost) ts x -> MLabels ts x) /\
  (forall ts x, SpecGrammar.Members (Lost := Lost) ts x -> MMembers ts x) /\
  (forall ts x, SpecGrammar.InnerMembers (Lost := Lost) ts x -> MInnerMembers ts x) /\
  (forall ts x, SpecGrammar.Member (Lost := Lost) ts x -> Mem ts x) /\
  (forall ts x, SpecGrammar.MethodBody (Lost := Lost) ts x -> (FBody true) ts x).
Proof.
  apply (grammar_min Lost MExpr MNot MPow MTail MWhole MOptWhole (list_of Full) MAccess Prop_ ClsRef MNewVar MArguments (list_of Arg) Arg PairsR (list_of Pair) Pair PartsR Init Param MParams (list_of Param) (list_of SVar) (list_of MConst) MStmt MStmts Stms (fun c => BodyC (follow c)) MIf FVar (list_of Var) MCatches Fin MLabels MMembers MInnerMembers Mem (FBody true)).
  (* Expr *)
  - intros n ts e _ (C & O & H). split; [|split; [|exact H]].
    + apply (chain_weak (lm (S n)) (lmf (S n))); [| |exact C]; unfold lm, lmf; repeat match goal with |- context [?a <=? ?b] => destruct (Nat.leb_spec a b) end; lia.
    + intros N. apply O. lia.
  - intros ts e _ (V & H). apply operand_m; [apply var_operand, V|exact H].
  - intros ts e _ W. apply operand_m; [apply var_operand, var_paren, (whole_full 1); auto|apply sh_plain; reflexivity].
  - intros z. apply post_m; [apply post_scalar; reflexivity|apply sh_plain; reflexivity].
  - intros d. apply post_m; [apply post_scalar; reflexivity|apply sh_plain; reflexivity].
  - intros k c I. each I; (apply post_m; [apply post_scalar; reflexivity|apply sh_plain; reflexivity]).
  - intros ts p N. apply post_m; [rewrite <- constant_resolves; apply post_name, class_is_cls; constructor; exact N|]. rewrite <- (app_nil_r ts). apply (sh_path ts p). apply name_is_path, N.
  - intros ts p t s N E W. apply post_m; [|apply (sh_cls ts p), class_is_cls, N]. pose proof (post_const ts p t s (class_is_cls _ _ N) (word_ident _ _ W)) as P. rewrite constant_resolves, E in P. exact P.
  - apply post_m; [apply empty_post|apply sh_plain; reflexivity].
  - intros ts e es _ P. apply post_m; [apply text_post, P|apply sh_plain; reflexivity].
  - intros ts e es _ P. apply post_m; [apply heredoc_post, P|apply sh_plain; reflexivity].
  - intros tc c ta args _ C _ (tss & -> & F). apply post_m; [apply post_new; assumption|apply sh_plain; reflexivity].
  - intros tc c _ C. apply post_m; [apply post_new_none, C|apply sh_plain; reflexivity].
  - intros ts es _ (tss & NE & -> & F). apply post_m; [apply post_isset; assumption|apply sh_plain; reflexivity].
  - intros ts e _ W. apply post_m; [apply post_empty, (whole_full 1); auto|apply sh_plain; reflexivity].
  - apply post_m; [apply post_exit_none|apply sh_plain; reflexivity].
  - intros ts e _ W. apply post_m; [apply post_exit, (whole_full 1); auto|apply sh_plain; reflexivity].
  - intros r tp ps tu us tb b _ (tss & -> & F) U _ B. apply post_m.
    + apply post_function. exists tss, (braces tb). split; [rewrite (use_vars_toks _ _ U); destruct r; leq|]. split; [exact F|]. split; [apply braced_m, B|]. split; [reflexivity|discriminate].
    + split; [discriminate|]. destruct r; [right; split; [reflexivity|split; [reflexivity|discriminate]]|left; reflexivity].
  - intros k u ts e I _ (V & H). each I; (apply operand_m; [apply operand_unop; [auto|reflexivity|apply var_operand, V]|apply sh_plain; reflexivity]).
  - intros k u ts e I _ (V & H). each I; (apply operand_m; [apply var_incdec; [auto|exact V]|apply sh_app, H]).
  - intros k u ts e I _ (_ & O & H). specialize (O ltac:(lia)). each I; (apply operand_m; [apply operand_unop; [auto|reflexivity|exact O]|apply sh_plain; reflexivity]).
  - intros k c ts e I _ (_ & O & H). specialize (O ltac:(lia)). each I; (apply post_m; [apply post_cast; [auto|reflexivity|exact O]|apply sh_plain; reflexivity]).
  - intros ts e _ (O & H). apply operand_m; assumption.
  - intros ts e _ (C & H). split; [exact C|]. split; [lia|exact H].
  - intros ta a tb b _ (C & O & H) NI _ R. split; [|split; [lia|apply sh_app, H]].
    apply (chain_weak 16 15); [cbn; lia..|]. apply (chain_instanceof 18 17); [lia|lia|exact C| |exact R]. intros x y E. apply NI. unfold is_instanceof. rewrite E. exact Logic.I.
  - intros k o n la lb ta a tb b I _ (CA & _ & H) _ (CB & _ & _). each I; (split; [|split; [lia|apply sh_app, H]]);
      (eapply chain_weak; [| |eapply chain_bin; [reflexivity|reflexivity|reflexivity| | | | | |exact CA|exact CB]]; cbn; lia).
  - intros tc c tt t te e _ (CC & _ & H) _ M _ (CE & _ & _). split; [|split; [lia|apply sh_app, H]]. apply (chain_ternary2 4 4 5 5); auto. destruct t; [apply M|exact M].
  (* Not *)
  - intros ts e _ (_ & O & H). split; [apply O; lia|exact H].
  - intros ts e _ (O & H). split; [apply operand_unop; [auto|reflexivity|exact O]|apply sh_plain; reflexivity].
  - intros k u ts e I _ (O & H). each I; (split; [apply operand_unop; [auto|reflexivity|exact O]|apply sh_plain; reflexivity]).
  - intros k c ts e I _ (O & H). each I; (split; [apply post_operand; [auto|apply post_cast; [auto|reflexivity|exact O]]|apply sh_plain; reflexivity]).
  (* Pow *)
  - intros ts e _ (C & _ & H). split; [apply (chain_weak 18 17); [lia|lia|exact C]|exact H].
  - intros ta a tb b _ (CA & _ & H) _ (CB & _). split; [|apply sh_app, H]. apply (chain_bin 18 17 15 14 15 OPow KPow true); cbn; auto; lia.
  (* Tail *)
  - intros n ts e _ (T & O & H). split; [|split; [intros N; apply O; lia|exact H]]. apply (tail_weak (lm (S n))); [|exact T].
    unfold lm; repeat match goal with |- context [?a <=? ?b] => destruct (Nat.leb_spec a b) end; lia.
  - intros tv v te e _ (V & H) _ W. apply tail_m; [|apply sh_app, H]. apply (whole_full 4 _ _ ltac:(lia)) in W. apply (var_assign tv v te e KEqual OEq V W (full_no_amp _ _ W) eq_refl).
  - intros k o tv v te e I _ (V & H) _ W. apply (whole_full 4 _ _ ltac:(lia)) in W. each I; (apply tail_m; [|apply sh_app, H]);
      match goal with |- Post _ (_ ++ Kw ?k :: _) (ex (ECompound _ ?o _)) => apply (var_assign tv v te e k o V W (full_no_amp _ _ W) eq_refl) end.
  - intros tv v tw w _ (V & H) _ (W & _). apply tail_m; [|apply sh_app, H]. apply var_assign_ref; [exact V|]. apply (full_closing oplike); auto using closing_oplike, var_operand.
  - intros tp ps te e _ P _ W. apply tail_m; [|apply sh_plain; reflexivity]. apply list_assign2; [exact P|apply (whole_full 4); auto; lia].
  - intros k i ts e I _ W. each I; (apply tail_m; [apply post_include; [reflexivity|apply (whole_full 1); auto]|apply sh_plain; reflexivity]).
  - intros ts e _ W. apply tail_m; [apply post_yield, (whole_full 4); auto; lia|apply sh_plain; reflexivity].
  - apply tail_m; [apply post_yield_none|apply sh_plain; reflexivity].
  - intros ts e _ (_ & O & _). apply tail_m; [apply post_clone, (full_closing oplike); auto using closing_oplike; apply O; lia|apply sh_plain; reflexivity].
  - intros k u ts e I _ (_ & O & _). specialize (O ltac:(lia)).
    assert (U : unop_of (Kw k) = Some u /\ plain_head (Kw k) = true) by (each I; split; reflexivity). destruct U as [U1 U2].
    assert (X : Operand closing (Kw k :: ts) (ex (EUnary u e))) by (apply operand_unop; auto using closing_oplike). split; [apply operand_tail, X|]. split; [auto|apply sh_plain, U2].
  - intros k c ts e I _ (_ & O & _). specialize (O ltac:(lia)). each I; (apply tail_m; [apply post_cast; [auto using closing_oplike|reflexivity|exact O]|apply sh_plain; reflexivity]).
  - intros ta a tb b _ (CA & _ & H) _ (CB & _ & _). split; [|split; [lia|apply sh_app, H]]. apply (tail_bin 18 17 15 15 OPow KPow true); cbn; auto; lia.
  - intros k o n la lb ta a tb b I _ (CA & _ & H) _ (CB & _ & _). each I; (split; [|split; [lia|apply sh_app, H]]);
      (eapply tail_weak; [|eapply tail_bin; [reflexivity|reflexivity|reflexivity| | | | |exact CA|exact CB]]; cbn; lia).
  - intros tc c tt t te e _ (CC & _ & H) _ M _ (CE & _ & _). split; [|split; [lia|apply sh_app, H]]. apply (tail_ternary 4 4 5); auto. destruct t; [apply M|exact M].
  (* Whole *)
  - intros n ts e _ (C & _ & H). split; [eapply chain_tail, C|exact H].
  - intros n ts e _ (C & _ & H). split; [exact C|exact H].
  - intros n ts e X. exact (lost_whole n e ts X).
  - reflexivity.
  - intros n ts e _ W. exact W.
  - intros ts e _ W. apply list_one, (whole_full 1); auto.
  - intros ts e tl l _ W _ L. apply list_more; [apply (whole_full 1); auto|exact L].
  (* Access *)
  - intros v. split; [apply var_simple|apply sh_plain; reflexivity].
  - intros ts e _ W _. split; [apply var_paren, (whole_full 1); auto|apply sh_plain; reflexivity].
  - intros s. split; [apply var_string|apply sh_plain; reflexivity].
  - intros ts l _ P. split; [apply var_array2, P|apply sh_plain; reflexivity].
  - intros ts l _ P. split; [apply var_array_word2, P|apply sh_plain; reflexivity].
  - intros ts v ti i _ (V & H) _ W. split; [|apply sh_app, H]. apply (vars_strip false _ _ _ (idx_strip v i)). apply (optw_e 1) in W; [|lia]. destruct i as [i|]; cbn in W; [apply var_idx; assumption|subst ti; apply var_idx_none, V].
  - intros ts v tp p _ (V & H) _ P. split; [|apply sh_app, H]. apply (vars_strip false _ _ _ (prop_strip v p)). apply var_prop; assumption.
  - intros ts v s _ (V & H). split; [|apply sh_app, H]. apply (vars_strip false _ _ _ (static_strip v _)). apply var_static, V.
  - intros ts v ta args _ (V & H) _ (tss & -> & F). split; [apply var_call; assumption|apply sh_app, H].
  - intros ts p ta args N _ (tss & -> & F). split; [|apply (sh_path ts p), name_is_path, N]. destruct (name_is_path _ _ N) as (abs & fs & NE & -> & ->). apply var_fn; assumption.
  - intros ts p t s ta args N W _ (tss & -> & F). split; [apply var_scoped_call; auto using class_is_cls, word_ident|apply (sh_cls ts p), class_is_cls, N].
  - intros ts p s N. split; [apply var_scoped_var, class_is_cls, N|apply (sh_cls ts p), class_is_cls, N].
  (* Property *)
  - intros s. right. left. eauto.
  - intros v. left. eauto.
  - intros ts e _ W. right. right. exists ts. split; [reflexivity|apply (whole_full 1); auto].
  (* NewRef *)
  - intros ts p N. left. exists p. split; [apply class_is_cls, N|reflexivity].
  - intros ts e _ N. right. exact N.
  - intros v. split; [apply var_simple|eauto].
  - intros ts v ti i _ (V & x & r & ->) _ W. split; [|eexists; eexists; reflexivity]. apply (vars_strip true _ _ _ (idx_strip v i)). apply (optw_e 1) in W; [|lia]. destruct i as [i|]; cbn in W; [apply var_idx; assumption|subst ti; apply var_idx_none, V].
  - intros ts v tp p _ (V & x & r & ->) _ P. split; [|eexists; eexists; reflexivity]. apply (vars_strip true _ _ _ (prop_strip v p)). apply var_prop; assumption.
  - intros ts v s _ (V & x & r & ->). split; [|eexists; eexists; reflexivity]. apply (vars_strip true _ _ _ (static_strip v _)). apply var_static, V.
  (* Arguments *)
  - exists []. split; [reflexivity|constructor].
  - intros ts l _ L. apply arguments_call, L.
  - intros ts e _ A. apply list_one, A.
  - intros ts e tl l _ A _ L. apply list_more; assumption.
  - intros ts e _ W. left. apply (whole_full 1); auto.
  - intros ts e _ W. right. exists ts, e. split; [reflexivity|]. split; [apply (whole_full 1); auto|reflexivity].
  (* Pairs *)
  - apply pairs_none_r.
  - intros ts l comma _ (tss & NE & -> & F). apply pairs_some_r; assumption.
  - intros ts p _ A. apply list_one, A.
  - intros ts p tl l _ A _ L. apply list_more; assumption.
  - intros ts e _ W. apply (whole_full 1); auto.
  - intros tk k tv v _ K _ V. exists tk, tv. split; [reflexivity|]. split; apply (whole_full 1); auto.
  (* Parts *)
  - apply parts_nil_r.
  - intros s tl l NE TF _ P. apply parts_text_r; assumption.
  - intros v tl l _ P. apply (parts_var_r (TVariable v) [] _ tl l Logic.I (var_simple false v) P).
  - intros v p tl l _ P. apply (parts_var_r (TVariable v) [Kw KObjectOp; TString p] _ tl l Logic.I); [|exact P].
    apply (vars_strip false _ _ _ (prop_strip (ex (EVar (VName v))) (word_expr p))). apply (var_prop false [TVariable v]); [apply var_simple|]. right. left. eauto.
  - intros ts e tl l _ W _ P. apply parts_code_r; [apply (whole_full 1); auto|exact P].
  - intros x tl l _ P. apply parts_dollar_r, P.
  - intros x ti i tl l _ W _ P. apply parts_dollar_index_r; [apply (whole_full 1); auto|exact P].
  - intros ts e tl l _ W NW _ P. apply parts_dollar_code_r; [apply (whole_full 1); auto|exact NW|exact P].
  (* declarations *)
  - reflexivity.
  - intros ts e _ W. exists ts. split; [reflexivity|apply (whole_full 1); auto].
  - intros th h r v x td d H _ I. exists th, td. split; [reflexivity|]. split; [apply hint_m, H|exact I].
  - exists []. split; [reflexivity|constructor].
  - intros ts l _ (tss & _ & -> & F). exists tss. auto.
  - intros ts p _ A. apply list_one, A.
  - intros ts p tl l _ A _ L. apply list_more; assumption.
  - intros v td d _ I. apply list_one. exists td. auto.
  - intros v td d tl l _ I _ L. apply (list_more SVar (TVariable v :: td)); [|exact L]. exists td. auto.
  - intros t s te e W _ E. apply list_one. exists t, te. split; [reflexivity|]. split; [apply word_ident, W|apply (whole_full 1); auto].
  - intros t s te e tl l W _ E _ L. apply (list_more MConst (t :: Kw KEqual :: te)); [|exact L]. exists t, te. split; [reflexivity|]. split; [apply word_ident, W|apply (whole_full 1); auto].
  (* Stmt *)
  - intros ts s _ H. apply stm_any, H.
  - apply stm_none.
  - intros ts e _ W. apply stm_expr; [apply (whole_full 1); auto|apply W].
  - intros ts es _ (tss & NE & -> & F). apply stm_echo; assumption.
  - intros k f ts e I _ W. apply (optw_e 1) in W; [|lia]. each I; (apply stm_opt; [auto|exact W]).
  - intros ts e _ W. apply stm_throw, (whole_full 1); auto.
  - intros ts vs _ (tss & NE & -> & F). eapply stm_shape; [apply (stm_unset tss vs NE F)|leq].
  - intros ts b _ B. apply stm_block, braced_m, B.
  - intros ts s _ (I & _). apply if_stm, I.
  - intros c tc e tb b _ W _ B. apply stm_while; [apply (whole_full 1); auto|exact B].
  - intros tb b tc e _ B _ W. apply (stm_do any); [apply (whole_full 1); auto|exact B].
  - intros c ti i tt t tn n tb b _ I _ T _ N _ B. eapply stm_shape; [apply (stm_for _ ti i tt t tn n tb b); [apply (optw_e 1); auto..|exact B]|leq].
  - intros c te e tv v tb b _ W _ V _ B. eapply stm_shape; [apply (stm_foreach _ te e [] None tv v tb b); [apply (whole_full 1); auto|reflexivity|exact V|exact B]|leq].
  - intros c te e tk k tv v tb b _ W _ K _ V _ B. eapply stm_shape; [apply (stm_foreach _ te e (tk ++ [Kw KDoubleArrow]) (Some k) tv v tb b); [apply (whole_full 1); auto|eauto|exact V|exact B]|leq].
  - intros tb b tc cs tf f _ B _ (tss & -> & F) _ FI. apply stm_try; [apply braced_m, B|exact F|exact FI].
  - intros te e tl l _ W _ (E & tss & -> & F). rewrite E. apply stm_switch; [apply (whole_full 1); auto|exact F].
  - intros te e tl l u _ W _ (E & tss & -> & F) NE U. rewrite E. apply stm_switch_u; [apply (whole_full 1); auto|exact F|apply lost_block, U|]. intros ->. inversion F; subst. contradiction.
  - intros ts s X. exact (proj1 (lost_stmt s ts X)).
  - intros ts l _ (tss & NE & -> & F). apply stm_static; assumption.
  - intros ts l G. destruct (globals_toks _ _ G) as (vs & NE & -> & ->). apply stm_global, NE.
  - intros r x tp ps tb b _ (tss & -> & F) _ B. apply stm_function. exists tss, (braces tb). split; [destruct r; leq|]. split; [exact F|]. split; [apply braced_m, B|]. split; [discriminate|]. split; [reflexivity|discriminate].
  - intros ms x te p ti is tm l E S _ M. rewrite cmods_same. apply stm_class; [apply extends_base, E|apply supers_names, S|exact M].
  - intros x ti is tm l S _ M. apply stm_interface; [apply supers_names, S|exact M].
  - intros x tm l _ M. apply stm_trait, M.
  - exists []. split; [reflexivity|constructor].
  - intros ts s tl l _ S _ (tss & -> & F). exists (ts :: tss). split; [reflexivity|]. constructor; assumption.
  - intros ts b _ (tss & -> & F). exists tss, []. rewrite app_nil_r. auto using unf_nil.
  - intros ts b u _ (tss & -> & F) U. exists tss, u. auto.
  - intros c ts b _ B. left. apply braced_m, B.
  - intros c ts s _ S NB. right. exists s. split; [reflexivity|]. split; [exact S|]. unfold is_block in NB. destruct (snode s); auto.
  - intros tc c tb b _ W _ B. split; [apply if_only_r; [apply (whole_full 1); auto|exact B]|eauto].
  - intros tc c tb b te e _ W _ B _ E. split; [apply if_else_r; [apply (whole_full 1); auto|exact B|exact E]|eauto].
  - intros tc c tb b ti i _ W _ B _ (I & J). split; [apply if_elseif_r; [apply (whole_full 1); auto|exact B|exact I|exact J]|eauto].
  - intros ts v _ (V & _). left. exact V.
  - intros ts v _ (V & _). right. eauto.
  - intros ts v _ (V & _). apply list_one, V.
  - intros ts v tl l _ (V & _) _ L. apply list_more; assumption.
  - exists []. split; [reflexivity|constructor].
  - intros tn p v tb b tl l N _ B _ (tss & -> & F). destruct (name_is_path _ _ N) as (abs & fs & NE & -> & ->).
    exists ((Kw KCatch :: paren (path_toks abs fs ++ [TVariable v]) ++ braces tb) :: tss). split; [cbn [List.concat]; leq|]. constructor; [|exact F].
    exists abs, fs, v, (braces tb), b. split; [leq|]. split; [exact NE|]. split; [apply braced_m, B|reflexivity].
  - reflexivity.
  - intros tb b _ B. exists (braces tb). split; [reflexivity|apply braced_m, B].
  - split; [reflexivity|]. exists []. split; [reflexivity|constructor].
  - intros semi te e tb b tl l _ W _ (tb' & -> & B) _ (E & tss & -> & F). split.
    + intros conds. cbn [switch_tree sw_cases]. destruct b; rewrite E; reflexivity.
    + exists ((Kw KCase :: te ++ Kw (if semi then KSemiColon else KColon) :: List.concat tb') :: tss). split; [cbn [List.concat]; leq|]. constructor; [|exact F].
      exists (Kw KCase :: te ++ [Kw (if semi then KSemiColon else KColon)]), tb'. split; [leq|]. split; [exact B|]. exists te, (if semi then KSemiColon else KColon). split; [destruct semi; auto|]. split; [reflexivity|apply (whole_full 1); auto].
  - intros semi tb b tl l _ (tb' & -> & B) NE _ (E & tss & -> & F). split.
    + intros conds. cbn [switch_tree sw_cases]. destruct b; [contradiction|]. rewrite E. reflexivity.
    + exists ((Kw KDefault :: Kw (if semi then KSemiColon else KColon) :: List.concat tb') :: tss). split; [cbn [List.concat]; leq|]. constructor; [|exact F].
      exists [Kw KDefault; Kw (if semi then KSemiColon else KColon)], tb'. split; [leq|]. split; [exact B|]. exists (if semi then KSemiColon else KColon). split; [destruct semi; auto|reflexivity].
  - exists [], []. split; [reflexivity|]. split; [constructor|reflexivity].
  - intros ts ms tl l _ M _ (tss & mss & -> & F & ->). exists (ts :: tss), (ms :: mss). split; [reflexivity|]. split; [constructor; assumption|reflexivity].
  - intros ts l _ (tss & mss & -> & F & ->). apply class_all, F.
  - intros ts l u _ (tss & mss & -> & F & ->) U. exists tss, mss, u. auto.
  - intros ms ts l _ (tss & NE & -> & F). rewrite mods_same. apply mem_prop; assumption.
  - intros ts l _ (tss & NE & -> & F). apply mem_var; assumption.
  - intros ms ts l _ (tss & NE & -> & F). rewrite mods_same. apply mem_const; assumption.
  - intros ms r x tp ps tb b _ (tss & -> & F) _ B. rewrite mods_same. apply mem_method. exists tss, tb. split; [destruct r; leq|]. split; [exact F|]. split; [exact B|]. split; [discriminate|]. split; [reflexivity|discriminate].
  - intros tn ns N. destruct (names_commas _ _ N) as (tss & NE & -> & F). apply mem_use; assumption.
  - intros tn ns tu us N A NU. destruct (names_commas _ _ N) as (tss & NE & -> & F). destruct (adaptations_toks _ _ A) as (uss & -> & FU).
    apply mem_adapt; try assumption. intros ->. inversion FU; subst. contradiction.
  - split; reflexivity.
  - intros ts b _ B. apply braced_m, B.
Qed.
Lemma whole_all n ts x : SpecGrammar.Whole (Lost := Lost) n ts x -> MWhole n ts x.
Proof. revert n ts x. apply grammar_all. Qed.
Lemma optwhole_all n ts x : SpecGrammar.OptWhole (Lost := Lost) n ts x -> MOptWhole n ts x.
Proof. revert n ts x. apply grammar_all. Qed.
Lemma wholes_all ts x : SpecGrammar.Wholes (Lost := Lost) ts x -> (list_of Full) ts x.
Proof. revert ts x. apply grammar_all. Qed.
Lemma params_all ts x : SpecGrammar.Params (Lost := Lost) ts x -> MParams ts x.
Proof. revert ts x. apply grammar_all. Qed.
Lemma vars_all ts x : SpecGrammar.Vars (Lost := Lost) ts x -> (list_of SVar) ts x.
Proof. revert ts x. apply grammar_all. Qed.
Lemma consts_all ts x : SpecGrammar.Consts (Lost := Lost) ts x -> (list_of MConst) ts x.
Proof. revert ts x. apply grammar_all. Qed.
Lemma stmt_all n ts x : SpecGrammar.Stmt (Lost := Lost) n ts x -> MStmt n ts x.
Proof. revert n ts x. apply grammar_all. Qed.
Lemma stmts_all ts x : SpecGrammar.Stmts (Lost := Lost) ts x -> MStmts ts x.
Proof. revert ts x. apply grammar_all. Qed.
Lemma inner_all ts x : SpecGrammar.Inner (Lost := Lost) ts x -> Stms ts x.
Proof. revert ts x. apply grammar_all. Qed.
Lemma body_all n ts x : SpecGrammar.Body (Lost := Lost) n ts x -> (fun c => BodyC (follow c)) n ts x.
Proof. revert n ts x. apply grammar_all. Qed.
Lemma loopvar_all ts x : SpecGrammar.LoopVar (Lost := Lost) ts x -> FVar ts x.
Proof. revert ts x. apply grammar_all. Qed.
Lemma accesslist_all ts x : SpecGrammar.AccessList (Lost := Lost) ts x -> (list_of Var) ts x.
Proof. revert ts x. apply grammar_all. Qed.
Lemma catches_all ts x : SpecGrammar.Catches (Lost := Lost) ts x -> MCatches ts x.
Proof. revert ts x. apply grammar_all. Qed.
Lemma labels_all ts x : SpecGrammar.Labels (Lost := Lost) ts x -> MLabels ts x.
Proof. revert ts x. apply grammar_all. Qed.
Lemma members_all ts x : SpecGrammar.Members (Lost := Lost) ts x -> MMembers ts x.
Proof. revert ts x. apply grammar_all. Qed.
End Lost.
