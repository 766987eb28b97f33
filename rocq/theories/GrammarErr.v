(** * GrammarErr: the parser stops where the grammar breaks (proofs for C39 and C40) *)
From Verif Require Import SpecGrammar SpecErr.
From Verif Require Import Base Tokens Ast AstMap AstInd Lexer Parser Driver Spec SpecProg ParserRel ParserFacts ParseRun ParseTac ParseExpr ParseStmt ParseDecl Grammar GrammarAll ErrAt Stops StopsExpr StopsMember.
From Coq Require Import String.
Local Open Scope list_scope.

Scheme brokenexpr_min := Minimality for BrokenExpr Sort Prop
with unfinished_min := Minimality for Unfinished Sort Prop
with unclosed_min := Minimality for Unclosed Sort Prop
with brokenwholes_min := Minimality for BrokenWholes Sort Prop
with brokenargs_min := Minimality for BrokenArgs Sort Prop
with brokenpairs_min := Minimality for BrokenPairs Sort Prop
with brokenparts_min := Minimality for BrokenParts Sort Prop
with dangling_min := Minimality for Dangling Sort Prop.
Combined Scheme brokenexpr_all_min from brokenexpr_min, unfinished_min, unclosed_min, brokenwholes_min, brokenargs_min, brokenpairs_min, brokenparts_min, dangling_min.
Scheme broken_min := Minimality for Broken Sort Prop
with brokenif_min := Minimality for BrokenIf Sort Prop
with brokenbraces_min := Minimality for BrokenBraces Sort Prop
with brokencatch_min := Minimality for BrokenCatch Sort Prop
with brokenlabel_min := Minimality for BrokenLabel Sort Prop
with brokenfunction_min := Minimality for BrokenFunction Sort Prop
with brokenclass_min := Minimality for BrokenClass Sort Prop
with brokenmember_min := Minimality for BrokenMember Sort Prop.
Combined Scheme broken_all_min from broken_min, brokenif_min, brokenbraces_min, brokencatch_min, brokenlabel_min, brokenfunction_min, brokenclass_min, brokenmember_min.

Definition oo_of (k : oo) : oo_type := match k with OClass => OoClass | OInterface => OoInterface | OTrait => OoTrait end.
Lemma bad_shape n c ts ts' : Bad n c ts -> ts' = ts -> Bad n c ts'.
Proof. intros H ->. exact H. Qed.
Lemma badif_shape n c ts ts' : BadIf n c ts -> ts' = ts -> BadIf n c ts'.
Proof. intros H ->. exact H. Qed.
Lemma flag_opt r k : opt r k = flag r k.
Proof. destruct r; reflexivity. Qed.

Section Lost.
Context {Lost : part -> list token -> Prop}.
Hypothesis lost_block : forall u, Lost InBlock u -> Unf u.
Hypothesis lost_class : forall u, Lost InClass u -> UnfM u.
Hypothesis lost_whole : forall n e u, Lost (AsWhole n e) u -> MWhole n u e.
Hypothesis lost_stmt : forall s u, Lost (AsStmt s) u -> StmC any u s /\ forall v, u <> Kw KEcho :: v.
Variable n : option token.
Local Notation A x := (x Lost lost_block lost_class lost_whole lost_stmt).
Lemma wf ts e : SpecGrammar.Whole (Lost := Lost) 1 ts e -> Full ts e.
Proof. intros W. apply (whole_full 1); [lia|]. apply (whole_all lost_block lost_class lost_whole lost_stmt), W. Qed.
Lemma of ts e : SpecGrammar.OptWhole (Lost := Lost) 1 ts e -> OptE ts e.
Proof. intros W. apply (optw_e 1); [lia|]. apply (optwhole_all lost_block lost_class lost_whole lost_stmt), W. Qed.
Lemma bc (c : bool) ts b : SpecGrammar.Body (Lost := Lost) c ts b -> BodyC (if c then any else stm_end) ts b.
Proof. intros W. exact (body_all lost_block lost_class lost_whole lost_stmt _ _ _ W). Qed.
Lemma lv ts v : SpecGrammar.LoopVar (Lost := Lost) ts v -> FVar ts v.
Proof. apply (loopvar_all lost_block lost_class lost_whole lost_stmt). Qed.
Lemma ss ts b : SpecGrammar.Stmts (Lost := Lost) ts b -> exists tss, ts = List.concat tss /\ Forall2 Stm tss b.
Proof. apply (stmts_all lost_block lost_class lost_whole lost_stmt). Qed.
Lemma ib ts b : SpecGrammar.Inner (Lost := Lost) ts b -> Braced (braces ts) b.
Proof. intros W. apply braced_m, (inner_all lost_block lost_class lost_whole lost_stmt), W. Qed.
Lemma ac ts v : SpecGrammar.Access (Lost := Lost) ts v -> Var ts v /\ SH ts.
Proof. revert ts v. apply (grammar_all lost_block lost_class lost_whole lost_stmt). Qed.
Lemma ex_ k ts e : SpecGrammar.Expr (Lost := Lost) k ts e -> 1 <= k -> Chain (lm k) (lmf k) ts e /\ expr_head ts.
Proof.
  intros W K. assert (M : MExpr k ts e) by (revert k ts e W K; intros k ts e W _; revert k ts e W; apply (grammar_all lost_block lost_class lost_whole lost_stmt)). destruct M as (C & _ & S). split; [exact C|].
  split; [exact S|]. apply (full_head ts e). eapply tail_full; [|eapply chain_tail, C]. unfold lm. destruct (17 <=? k); [lia|]. destruct (15 <=? k); lia.
Qed.
Lemma mi ts o : SpecGrammar.OptWhole (Lost := Lost) 5 ts o -> Mid ts o.
Proof. intros W. apply (optwhole_all lost_block lost_class lost_whole lost_stmt) in W. destruct o; [apply W|exact W]. Qed.
Lemma wh ts e : SpecGrammar.Whole (Lost := Lost) 1 ts e -> SH ts.
Proof. intros W. apply (whole_all lost_block lost_class lost_whole lost_stmt) in W. apply W. Qed.
Lemma brokenexpr_bad :
  (forall ts, BrokenExpr (Lost := Lost) n ts -> BadE n ts) /\
  (forall ts, Unfinished (Lost := Lost) n ts -> UnfE n ts) /\
  (forall ks ts, Unclosed (Lost := Lost) n ks ts -> UncE n ks ts) /\
  (forall ks ts, BrokenWholes (Lost := Lost) n ks ts -> WhsE n ks ts) /\
  (forall a ts, BrokenArgs (Lost := Lost) n a ts -> ArgE n a ts) /\
  (forall ks ts, BrokenPairs (Lost := Lost) n ks ts -> PrsE n ks ts) /\
  (forall ts, BrokenParts (Lost := Lost) n ts -> PtsE n ts) /\
  (forall k ts e, Dangling (Lost := Lost) n k ts e -> DngE n (lm k) ts e).
Proof.
  apply (brokenexpr_all_min Lost n (BadE n) (UnfE n) (UncE n) (WhsE n) (ArgE n) (PrsE n) (PtsE n) (fun k => DngE n (lm k))).
  - intros ts _ X. apply stop_paren, X.
  - intros k u ts I _ X. cbn [app steps_before] in I. each I; (eapply stop_unop; [reflexivity|exact X]).
  - intros k c ts I _ X. each I; (eapply stop_cast; [reflexivity|exact X]).
  - intros k i ts I _ X. each I; (eapply stop_include; [reflexivity|exact X]).
  - intros ts _ X. apply stop_clone, X.
  - intros tv v ts V _ X Y. destruct (ac _ _ V) as [V1 V2]. apply (stop_assign n tv v KEqual OEq); auto.
  - intros tv v ts V _ X. destruct (ac _ _ V) as [V1 V2]. apply (stop_reference n tv v); auto.
  - intros k o tv v ts I V _ X. destruct (ac _ _ V) as [V1 V2]. each I; (eapply stop_assign; [exact V1|exact V2|reflexivity|exact X|discriminate]).
  - intros ts _ X. apply stop_list, X.
  - intros tp ps P X Y. apply (stop_list_equal n tp ps); auto. revert tp ps P. apply (grammar_all lost_block lost_class lost_whole lost_stmt).
  - intros tp ps ts P _ X Y. apply (stop_list_assign n tp ps ts); auto. revert tp ps P. apply (grammar_all lost_block lost_class lost_whole lost_stmt).
  - intros ts _ X. apply stop_isset, X.
  - intros ts _ X. apply stop_empty, X.
  - intros ts _ X. apply stop_exit, X.
  - intros tv v ts V _ X Y. destruct (ac _ _ V) as [V1 V2]. apply stop_call; auto. apply (base_access tv v); auto.
  - intros tn p ts N _ X Y. destruct (name_is_path _ _ N) as (abs & fs & NE & -> & ->). apply stop_call; auto. apply base_name, NE.
  - intros tc p t s ts C W _ X Y. change (tc ++ Kw KScopeOp :: t :: Kw KParenthesesOpen :: ts) with (tc ++ [Kw KScopeOp; t] ++ Kw KParenthesesOpen :: ts). rewrite app_assoc.
    apply stop_call; auto. apply (base_method tc p t s); [apply class_is_cls, C|apply word_ident, W].
  - intros tc c ts C _ X. apply (stop_new n tc c); auto. revert tc c C. apply (grammar_all lost_block lost_class lost_whole lost_stmt).
  - apply stop_new_none.
  - intros k ts K _ X. apply stop_text; auto.
  - intros ->. apply stop_heredoc.
  - intros ts _ X. apply stop_array, X.
  - intros ts _ X. apply stop_array_word, X.
  (* unfinished *)
  - apply unf_none.
  - intros ts _ X. apply unf_some, X.
  (* unclosed *)
  - intros ks ts _ X. apply unc_unf, X.
  - intros ks ts e W X. apply (unc_whole n ks ts e); [apply wf, W|apply (wh _ _ W)|exact X].
  - intros ks ts e _ X Y. eapply unc_dangling; [exact X|exact Y].
  - intros ks k o m la lb ta a ts I W _ X Y. each I; (apply ex_ in W as [C H]; [|lia]; eapply (unc_bin n ks _ _ _ _ _ _ _ a); [reflexivity|reflexivity|reflexivity| | | |exact C|exact H|exact X|exact Y]; cbn; lia).
  - intros ks ta a ts W _ X Y. apply ex_ in W as [C H]; [|lia]. eapply (unc_bin n ks 18 17 15 OPow KPow true _ a); [reflexivity|reflexivity|reflexivity|lia|lia|lia|exact C|exact H|exact X|exact Y].
  - intros ks ta a W NI X Y. apply ex_ in W as [C H]; [|lia]. eapply (unc_inst n ks); [| |exact C|exact H| |exact X|exact Y]; [cbn; lia|cbn; lia|]. intros x y E. apply NI. unfold is_instanceof. rewrite E. exact I.
  - intros ks tc c tt t ts W M _ X Y. apply ex_ in W as [C H]; [|lia]. apply (unc_else n ks 4 4 tc c tt t ts); auto. apply mi, M.
  (* lists *)
  - intros ks ts _ X. apply whs_last, X.
  - intros ks ts e tl W _ X. apply (whs_more n ks ts e); [apply wf, W|exact X].
  - intros first ts _ X Y Z. apply arg_last; assumption.
  - intros first ts _ X. apply arg_unpack, X.
  - intros first ts e tl W _ X. apply (arg_more n first ts e); [|exact X]. revert ts e W. apply (grammar_all lost_block lost_class lost_whole lost_stmt).
  - intros ks ts _ X Y. apply prs_last; assumption.
  - intros ks tk k ts W _ X. apply (prs_value n ks tk k); [apply wf, W|exact X].
  - intros ks ts p tl W _ X. apply (prs_more n ks ts p); [|exact X]. revert ts p W. apply (grammar_all lost_block lost_class lost_whole lost_stmt).
  (* strings *)
  - intros ts _ X. apply pts_code, X.
  - intros s ts _ X. apply pts_text, X.
  - intros v ts _ X. apply (pts_var n v [] _ ts (var_simple false v) X).
  - intros v p ts _ X. apply (pts_var n v [Kw KObjectOp; TString p] (ex (EObjMember (ex (EVar (VName v))) [word_expr p])) ts); [|exact X].
    apply (vars_strip false _ _ _ (prop_strip (ex (EVar (VName v))) (word_expr p))). apply (var_prop false [TVariable v]); [apply var_simple|]. right. left. eauto.
  - intros tc c ts W _ X. apply (pts_more n tc c); [apply wf, W|exact X].
  - intros ts _ X W. apply pts_dollar_code; assumption.
  - intros x ts _ X. apply pts_dollar, X.
  - intros x ti i ts W _ X. apply (pts_dollar_index n x ti i); [apply wf, W|exact X].
  - intros tc c ts W Y _ X. apply (pts_dollar_more n tc c); [apply wf, W|exact Y|exact X].
  (* operators *)
  - intros k ts e _ X. apply (dng_weak n (lm (S k))); [|exact X]. unfold lm; repeat match goal with |- context [?a <=? ?b] => destruct (Nat.leb_spec a b) end; lia.
  - intros k o m la lb ta a ts I W _ X Y. each I; (apply ex_ in W as [C H]; [|lia]; eapply dng_weak; [|eapply (dng_bin n _ _ _ _ _ _ _ a _ None); [reflexivity|reflexivity|reflexivity| | | |exact C|exact H|exact Y|apply part_unf, X]]; cbn; lia).
  - intros k o m la lb ta a ts e I W _ X. assert (Y : among enders n) by apply X.
    each I; (apply ex_ in W as [C H]; [|lia]; eapply dng_weak; [|eapply (dng_bin n _ _ _ _ _ _ _ a _ (Some e)); [reflexivity|reflexivity|reflexivity| | | |exact C|exact H|exact Y|eapply part_dng; [|exact X]]]; cbn; lia).
  - intros ta a ts W _ X Y. apply ex_ in W as [C H]; [|lia]. eapply (dng_bin n 18 17 15 OPow KPow true _ a _ None); [reflexivity|reflexivity|reflexivity|lia|lia|lia|exact C|exact H|exact Y|apply part_unf, X].
  - intros ta a ts e W _ X. assert (Y : among enders n) by apply X. apply ex_ in W as [C H]; [|lia].
    eapply (dng_bin n 18 17 15 OPow KPow true _ a _ (Some e)); [reflexivity|reflexivity|reflexivity|lia|lia|lia|exact C|exact H|exact Y|eapply part_dng; [|exact X]; cbn; lia].
  - intros ta a W NI X. apply ex_ in W as [C H]; [|lia]. eapply dng_weak; [|eapply (dng_inst n); [| |exact C|exact H| |exact X]]; [cbn; lia|cbn; lia|cbn; lia|]. intros x y E. apply NI. unfold is_instanceof. rewrite E. exact I.
  - intros tc c tt t W M X. apply ex_ in W as [C H]; [|lia]. apply (dng_then n 4 4 tc c tt t); auto. apply mi, M.
  - intros tc c tt t ts W M _ X Y. apply ex_ in W as [C H]; [|lia]. apply (dng_else n 4 4 tc c tt t ts None); auto; [apply mi, M|apply part_unf, X].
  - intros tc c tt t ts e W M _ X. assert (Y : among enders n) by apply X. apply ex_ in W as [C H]; [|lia]. apply (dng_else n 4 4 tc c tt t ts (Some e)); auto; [apply mi, M|eapply part_dng; [|exact X]; cbn; lia].
  - intros tv v ts e V _ X. destruct (ac _ _ V) as [V1 V2]. apply (dng_assign n _ (lm 4) tv v KEqual OEq ts e); auto. cbn. lia.
  - intros k o tv v ts e I V _ X. destruct (ac _ _ V) as [V1 V2]. each I;
      match goal with |- DngE _ _ (_ ++ Kw ?k :: _) (ex (ECompound _ ?o _)) => apply (dng_assign n _ (lm 4) tv v k o ts e V1 V2 eq_refl); [cbn; lia|exact X] end.
  - intros k i ts e I _ X. each I; (eapply (dng_include n _ (lm 1)); [reflexivity|cbn; lia|exact X]).
  - intros ts e _ X. apply (dng_clone n _ (lm 1)); [cbn; lia|exact X].
  - intros k u ts e I _ X. each I; (eapply dng_unop; [reflexivity|exact X]).
  - intros k c ts e I _ X. each I; (eapply dng_cast; [reflexivity|exact X]).
  - intros tv v ts V _ X Y. destruct (ac _ _ V) as [V1 V2]. apply (dng_index n _ tv v); assumption.
  - intros tv v V X. destruct (ac _ _ V) as [V1 V2]. apply (dng_property n _ tv v); assumption.
  - intros tv v ts V _ X Y. destruct (ac _ _ V) as [V1 V2]. apply (dng_property_in n _ tv v); assumption.
  - intros tv v V X. destruct (ac _ _ V) as [V1 V2]. apply (dng_static n _ tv v); assumption.
Qed.
Lemma uncl ks ts : Unclosed (Lost := Lost) n ks ts -> UncE n ks ts.
Proof. apply brokenexpr_bad. Qed.
Lemma optu ks ts : OptUnclosed (Lost := Lost) n ks ts -> OptU n ks ts.
Proof. intros [U X]. apply opt_unc; [apply uncl, U|exact X]. Qed.
Lemma default_init ti o : SpecGrammar.Default (Lost := Lost) ti o -> Init ti o.
Proof. intros [|ts e W]; cbn; [reflexivity|]. exists ts. split; [reflexivity|apply wf, W]. Qed.
Lemma vars_bad ts : BrokenVars (Lost := Lost) n ts -> VrsE n ts.
Proof.
  induction 1 as [x X|x ts U|x td d D X|x td d ts D _ IH];
    [apply vrs_name, X|apply vrs_value, uncl, U|eapply vrs_next; eauto using default_init|eapply vrs_more; eauto using default_init].
Qed.
Lemma consts_bad ts : BrokenConsts (Lost := Lost) n ts -> CnsE n ts.
Proof.
  induction 1 as [t x W X|t x ts W U|t x te e W E X|t x te e ts W E _ IH]; apply word_ident in W;
    [eapply cns_name; eauto|eapply cns_value; [exact W|apply uncl, U]|eapply cns_comma; [exact W|apply wf, E|apply cns_none, X]|eapply cns_comma; [exact W|apply wf, E|exact IH]].
Qed.
Lemma names_bad ts : BrokenNames n ts -> NmsE n ts.
Proof. induction 1 as [X Y|tn p ts N _ IH]; [apply nms_none; assumption|eapply nms_more; [apply name_is_path, N|exact IH]]. Qed.
Lemma paren_bad ts : BrokenParen (Lost := Lost) n ts -> BadP n ts.
Proof. intros [X|ts' X]; [apply badp_open, X|apply badp_in, uncl, X]. Qed.
Lemma for_bad ts : BrokenFor (Lost := Lost) n ts -> BadFor n true ts.
Proof.
  intros [X|ti X|ti i tt I X|ti i tt t tn I T X];
    [apply for_open, X|apply for_start_broken, optu, X|eapply for_test_broken; eauto using of, optu|eapply for_step_broken; eauto using of, optu].
Qed.
Lemma foreach_bad ts : BrokenForeach (Lost := Lost) n ts -> BadForeach n true ts.
Proof.
  intros [X|te X|te e W X Y|te e tv v W V X|te e tk k tv v W K V X];
    [apply foreach_open, X|apply foreach_as_broken, uncl, X|eapply foreach_var; eauto using wf|eapply foreach_close; eauto using wf, lv|eapply foreach_close_key; eauto using wf, lv].
Qed.
Lemma broken_bad :
  (forall c ts, Broken (Lost := Lost) n c ts -> Bad n c ts) /\
  (forall c ts, BrokenIf (Lost := Lost) n c ts -> BadIf n c ts) /\
  (forall c ts, BrokenBraces (Lost := Lost) n c ts -> BadB n c ts) /\
  (forall c ts, BrokenCatch (Lost := Lost) n c ts -> BadC n c ts) /\
  (forall ts, BrokenLabel (Lost := Lost) n ts -> BadL n ts) /\
  (forall a c ts, BrokenFunction (Lost := Lost) n a c ts -> BadF n a c ts) /\
  (forall k ts, BrokenClass (Lost := Lost) n k ts -> BadO n (oo_of k) ts) /\
  (forall ts, BrokenMember (Lost := Lost) n ts -> BadM n ts).
Proof.
  apply (broken_all_min Lost n (Bad n) (BadIf n) (BadB n) (BadC n) (BadL n) (BadF n) (fun k => BadO n (oo_of k)) (BadM n)).
  - apply bad_here.
  - intros ts X NE. apply bad_unclosed; [apply uncl, X|exact NE].
  - intros ts X. apply bad_echo_broken. apply brokenexpr_bad, X.
  - intros k f ts I X. apply (bad_jump_broken n k f ts); [|apply optu, X]. each I; auto.
  - intros ts X. apply bad_throw_broken, uncl, X.
  - intros ts X. apply bad_global. induction X as [X Y|x X|x ts X IH]; [apply glb_none; assumption|apply glb_end, X|apply glb_more, IH].
  - intros X. apply bad_unset_open, X.
  - intros ts X. apply bad_unset_list. induction X as [X|tv v V X|tv v ts V X IH]; [apply accs_none, X|eapply accs_end; [apply (ac _ _ V)|exact X]|eapply accs_more; [apply (ac _ _ V)|exact IH]].
  - intros ts vs W X. apply (accesslist_all lost_block lost_class lost_whole lost_stmt) in W as (tss & NE & -> & F). eapply bad_unset; eauto.
  - intros tb b tc e B W X. eapply bad_do_end; [exact (bc false _ _ B)|apply wf, W|exact X].
  - intros ts X. apply bad_while_head, paren_bad, X.
  - intros ts X. apply bad_switch_head, paren_bad, X.
  - intros ts X. apply bad_for_any, for_bad, X.
  - intros ts X. apply bad_foreach_any, foreach_bad, X.
  - intros tb b B X. eapply bad_do_while; [exact (bc true _ _ B)|exact X].
  - intros tb b ts B X. eapply bad_do_cond; [exact (bc false _ _ B)|apply paren_bad, X].
  - intros c tc e ts W _ X. eapply bad_while; eauto using wf.
  - intros c ts _ X. apply bad_do, X.
  - intros c ti i tt t tn m ts I T M _ X. apply bad_for_any. eapply for_body; eauto using of.
  - intros c te e tv v ts W V _ X. apply bad_foreach_any. eapply foreach_body; eauto using wf, lv.
  - intros c te e tk k tv v ts W K V _ X. apply bad_foreach_any. eapply foreach_body_key; eauto using wf, lv.
  - intros c ts _ X. apply bad_if, X.
  - intros c tb b ts S _ X Y. apply ss in S as (tss & -> & F). eapply bad_block; eauto.
  - intros c ts _ X. apply bad_try, X.
  - intros c tb b tc cs ts S K _ X. apply (catches_all lost_block lost_class lost_whole lost_stmt) in K as (tss & -> & F). eapply bad_catch; [apply ib, S|exact F|exact X].
  - intros c tb b tc cs ts S K _ X. apply (catches_all lost_block lost_class lost_whole lost_stmt) in K as (tss & -> & F). eapply bad_finally; [apply ib, S|exact F|exact X].
  - intros te e W X. eapply bad_switch_open; [apply wf, W|exact X].
  - intros te e tl l ts W B _ X. apply (labels_all lost_block lost_class lost_whole lost_stmt) in B as (_ & tss & -> & F). eapply bad_switch; [apply wf, W|exact F|exact X].
  - intros r X Y. rewrite flag_opt. apply bad_function_name; assumption.
  - intros r x c ts _ X. rewrite flag_opt. eapply bad_function, X.
  - intros ms ts _ X Y. rewrite cmods_same. apply bad_class; assumption.
  - intros ts _ X Y. apply bad_interface; assumption.
  - intros ts _ X Y. apply bad_trait; assumption.
  (* if *)
  - intros ts X. apply if_head, paren_bad, X.
  - intros c tc e ts W _ X. eapply Stops.if_body; eauto using wf.
  - intros c tc e tb b ts W B _ X. eapply Stops.if_else; [apply wf, W|exact (bc true _ _ B)|exact X].
  - intros c tc e tb b ts W B _ X. eapply Stops.if_elseif; [apply wf, W|exact (bc true _ _ B)|exact X].
  (* braces *)
  - apply braces_open.
  - intros c tb b ts S _ X Y. apply ss in S as (tss & -> & F). eapply braces_in; eauto.
  (* catch *)
  - apply catch_open.
  - apply catch_name.
  - intros tn p N X Y. destruct (name_is_path _ _ N) as (abs & fs & NE & -> & ->). apply catch_var; assumption.
  - intros tn p v N X. destruct (name_is_path _ _ N) as (abs & fs & NE & -> & ->). apply catch_close; assumption.
  - intros c tn p v ts N _ X. destruct (name_is_path _ _ N) as (abs & fs & NE & -> & ->). apply catch_body; assumption.
  (* switch *)
  - apply label_none.
  - intros te X. apply label_case_broken, uncl, X.
  - apply label_default.
  - intros semi te e tb b ts W S _ X Y. apply ss in S as (tss & -> & F). eapply label_case_in; eauto using wf. destruct semi; red; auto.
  - intros semi tb b ts S _ X Y. apply ss in S as (tss & -> & F). eapply label_default_in; eauto. destruct semi; red; auto.
  (* functions *)
  - intros a. apply fun_open.
  - intros a. apply fun_param.
  - intros a c tp ps ts P B X Y. apply (params_all lost_block lost_class lost_whole lost_stmt) in P as (tss & -> & F). eapply fun_body; [exact F|exact X|].
    intros AB l N. destruct B as [B|c' tb b ts S B B'].
    + cbn [app]. eapply except_hd; [apply Y; auto|exact N].
    + reflexivity.
  (* classes *)
  - intros k. apply oo_name.
  - apply oo_extends.
  - intros x te p ts E X. eapply oo_implements; [apply extends_base, E|apply names_bad, X].
  - intros x ts X. apply oo_extends_list, names_bad, X.
  - intros x te p ti is E S X. cbn [oo_of]. rewrite <- (app_nil_r ti). eapply oo_class; [apply extends_base, E|apply supers_names, S| |].
    + apply cb_open. destruct n as [[]|]; cbn in *; auto. intros [I|[]]. apply X. auto.
    + intros l N. pose proof (except_hd _ n l X N) as Y. unfold names_end. cbn [app]. weak1 Y.
  - intros x ti is S X. cbn [oo_of]. rewrite <- (app_nil_r ti). eapply oo_interface; [apply supers_names, S| |].
    + apply cb_open. destruct n as [[]|]; cbn in *; auto. intros [I|[]]. apply X. auto.
    + intros l N. pose proof (except_hd _ n l X N) as Y. cbn [app]. weak1 Y.
  - intros x X. cbn [oo_of]. apply (oo_trait n x []), cb_open, X.
  - intros x te p ti is tm l ts E S M _ X Y. apply (members_all lost_block lost_class lost_whole lost_stmt) in M as (tss & mss & -> & F & ->). cbn [oo_of].
    eapply oo_class; [apply extends_base, E|apply supers_names, S|eapply cb_in; eauto|]. intros l N. reflexivity.
  - intros x ti is tm l ts S M _ X Y. apply (members_all lost_block lost_class lost_whole lost_stmt) in M as (tss & mss & -> & F & ->). cbn [oo_of].
    eapply oo_interface; [apply supers_names, S|eapply cb_in; eauto|]. intros l N. reflexivity.
  - intros x tm l ts M _ X Y. apply (members_all lost_block lost_class lost_whole lost_stmt) in M as (tss & mss & -> & F & ->). cbn [oo_of]. apply oo_trait. eapply cb_in; eauto.
  (* members *)
  - intros ms X Y. rewrite mods_same. apply member_none; assumption.
  - intros ts X. apply member_use, names_bad, X.
  - intros ts l N X. destruct (names_commas _ _ N) as (tss & NE & -> & F). eapply member_use_end; eauto.
  - apply member_var.
  - intros ts V. apply member_var_list, vars_bad, V.
  - intros ms ts V. rewrite mods_same. apply member_vars_broken, vars_bad, V.
  - intros ms X. rewrite mods_same. apply member_consts_broken, cns_none, X.
  - intros ms ts V. rewrite mods_same. apply member_consts_broken, consts_bad, V.
  - intros ms r X Y. rewrite mods_same, flag_opt. apply member_method_name; assumption.
  - intros ms r x ts _ X. rewrite mods_same, flag_opt. apply member_method, X.
Qed.
End Lost.
(** what is dropped in front of a closing brace *)
Definition safe (Lost : part -> list token -> Prop) : Prop :=
  (forall u, Lost InBlock u -> Unf u) /\ (forall u, Lost InClass u -> UnfM u) /\ (forall n e u, Lost (AsWhole n e) u -> MWhole n u e) /\
  (forall s u, Lost (AsStmt s) u -> StmC any u s /\ forall v, u <> Kw KEcho :: v).
Lemma cut_whole Lost : safe Lost -> forall n e u, Cut (Lost := Lost) n u e -> MWhole n u e.
Proof.
  intros (IB & IC & IW & IS) n e u C.
  assert (D : forall next, among enders next -> DngE next (lm n) u e).
  { intros next N. destruct (brokenexpr_bad IB IC IW IS next) as (_ & _ & _ & _ & _ & _ & _ & X). exact (X n u e (C next N)). }
  split; [|exact (proj1 (proj2 (proj1 (D None Logic.I))))].
  intros toks L prec p l M H CL. assert (N : among enders (hd_error l)).
  { destruct l as [|[k| | | | | | | |] l]; try exact Logic.I; try discriminate CL. unfold closing, hd_ok, closer, tok_in in CL. apply existsb_exists in CL as (x & I & E). apply LexWords.kind_eqb_eq in E. subst x.
    cbn [hd_error among]. revert I. unfold enders, simple_words, statement_words. cbn [app In]. tauto. }
  exact (proj2 (D _ N) toks L prec p l M eq_refl H).
Qed.
Lemma cut_stmt Lost : safe Lost -> forall s u, CutStmt (Lost := Lost) u s -> StmC any u s /\ forall v, u <> Kw KEcho :: v.
Proof.
  intros (IB & IC & IW & IS) s u C. destruct (brokenexpr_bad IB IC IW IS semi) as (B & _ & _ & _ & _ & _ & _ & D). destruct C as [ts e X|ts e X|k f ts e I X|k f ts I X].
  - apply D in X. split; [apply cut_expr, X|]. intros v E. destruct X as ((_ & _ & t & r & -> & Y) & _). injection E as -> _. discriminate Y.
  - apply D in X. split; [apply cut_throw, X|discriminate].
  - apply D in X. split; [apply (cut_jump k f ts (Some e)); [each I; auto|exact X]|]. intros v E. each I; discriminate E.
  - apply B in X. split; [apply (cut_jump k f ts None); [each I; auto|exact X]|]. intros v E. each I; discriminate E.
Qed.
Lemma safe_strict : safe strict.
Proof. repeat split; contradiction. Qed.
Lemma safe_lost k : safe (lost k).
Proof.
  induction k as [|k IH]; [exact safe_strict|]. assert (IH' := IH). destruct IH' as (IB & IC & IW & IS). split; [|split; [|split]]; cbn [lost].
  - intros u H. apply bad_unf. exact (proj1 (broken_bad IB IC IW IS _) _ _ H).
  - intros u H. apply bad_unfm. destruct (broken_bad IB IC IW IS (Some (Kw KCurlyBracesClose))) as (_ & _ & _ & _ & _ & _ & _ & M). exact (M u H).
  - apply cut_whole, IH.
  - apply cut_stmt, IH.
Qed.
Lemma safe_cut k : safe (cut_expressions k).
Proof.
  induction k as [|k IH]; [exact safe_strict|]. split; [|split; [|split]]; cbn [cut_expressions]; try contradiction; [apply cut_whole, IH|apply cut_stmt, IH].
Qed.
