(** * GrammarEx: a program with its derivation (example for C38) *)
From Verif Require Import Base Tokens Ast AstMap Lexer Parser Driver Spec SpecProg LexMono SpecGrammar.
From Coq Require Import String Lia.
Local Open Scope string_scope. Local Open Scope list_scope.

Lemma up {Lost} n k ts e : Expr (Lost := Lost) (k + n) ts e -> Expr (Lost := Lost) n ts e.
Proof. revert n. induction k as [|k IH]; intros n H; [exact H|]. apply IH, e_up. replace (S (k + n)) with (S k + n) by lia. exact H. Qed.
Lemma up_to {Lost} n m ts e : Expr (Lost := Lost) m ts e -> n <= m -> Expr (Lost := Lost) n ts e.
Proof. intros H L. apply (up n (m - n)). replace (m - n + n) with m by lia. exact H. Qed.
Lemma acc {Lost} n ts e : Access (Lost := Lost) ts e -> n <= 18 -> Expr (Lost := Lost) n ts e. Proof. intros H L. eapply up_to; [apply e_access, H|exact L]. Qed.
Ltac lv := first [reflexivity | repeat constructor].
Ltac var x := apply acc; [apply (a_var (s2l x))|lv].
Ltac wvar x := apply w_expr; var x.
Ltac int z := eapply up_to; [apply (e_int z)|lv].
Ltac wint z := apply w_expr; int z.
Ltac binary k := eapply up_to; [eapply (e_binary k); [cbn; tauto| |]|lv].
Ltac nm a := apply (name false [] (s2l a)).
Ltac one := apply parts_nil.

(** namespace A\B; use C\D as E;
    $x = $a + $b * 2 > 1 && !$c ? f($d, ...$g) : new G(1);
    abstract class H extends \I implements J {
      const X = 1;
      private static $p = [1, 'k' => 2,];
      function &q(array $r = [], L &$s) { return $this->t[0]->u($r); }
    }
    if ($a) foreach ($b as $k => $v) echo $v, <a string with text n and variable $v->w>;
    else { try { exit(1); } catch (Z $z) { } } *)
Definition ex_tokens : list token :=
  [Kw KNamespace; TString (s2l "A"); Kw KNsSeparator;
   TString (s2l "B"); Kw KSemiColon; Kw KUse; TString (s2l "C");
   Kw KNsSeparator; TString (s2l "D"); Kw KAs; TString (s2l "E");
   Kw KSemiColon;
   TVariable (s2l "x"); Kw KEqual; TVariable (s2l "a"); Kw KPlus;
   TVariable (s2l "b"); Kw KMul; TInt 2; Kw KGt; TInt 1;
   Kw KBoolAnd; Kw KBoolNot; TVariable (s2l "c"); Kw KQuestionMark;
   TString (s2l "f"); Kw KParenthesesOpen; TVariable (s2l "d");
   Kw KComma; Kw KEllipsis; TVariable (s2l "g"); Kw KParenthesesClose;
   Kw KColon; Kw KNew; TString (s2l "G"); Kw KParenthesesOpen;
   TInt 1; Kw KParenthesesClose; Kw KSemiColon;
   Kw KAbstract; Kw KClass; TString (s2l "H"); Kw KExtends; Kw KNsSeparator;
   TString (s2l "I"); Kw KImplements; TString (s2l "J"); Kw KCurlyBracesOpen;
   Kw KConst; TString (s2l "X"); Kw KEqual; TInt 1; Kw KSemiColon;
   Kw KPrivate; Kw KStatic; TVariable (s2l "p"); Kw KEqual;
   Kw KSquareBracketOpen; TInt 1; Kw KComma; TCes (s2l "k");
   Kw KDoubleArrow; TInt 2; Kw KComma; Kw KSquareBracketClose;
   Kw KSemiColon;
   Kw KFunction; Kw KAmpersand; TString (s2l "q");
   Kw KParenthesesOpen; Kw KArray; TVariable (s2l "r");
   Kw KEqual; Kw KSquareBracketOpen; Kw KSquareBracketClose;
   Kw KComma; TString (s2l "L"); Kw KAmpersand; TVariable (s2l "s");
   Kw KParenthesesClose; Kw KCurlyBracesOpen; Kw KReturn;
   TVariable (s2l "this"); Kw KObjectOp;
   TString (s2l "t"); Kw KSquareBracketOpen; TInt 0; Kw KSquareBracketClose;
   Kw KObjectOp; TString (s2l "u"); Kw KParenthesesOpen;
   TVariable (s2l "r"); Kw KParenthesesClose; Kw KSemiColon;
   Kw KCurlyBracesClose; Kw KCurlyBracesClose;
   Kw KIf; Kw KParenthesesOpen; TVariable (s2l "a"); Kw KParenthesesClose;
   Kw KForeach; Kw KParenthesesOpen; TVariable (s2l "b");
   Kw KAs; TVariable (s2l "k"); Kw KDoubleArrow; TVariable (s2l "v");
   Kw KParenthesesClose; Kw KEcho; TVariable (s2l "v");
   Kw KComma; Kw KDoubleQuote; TCes (s2l "n "); TVariable (s2l "v");
   Kw KObjectOp; TString (s2l "w"); Kw KDoubleQuote; Kw KSemiColon;
   Kw KElse; Kw KCurlyBracesOpen; Kw KTry; Kw KCurlyBracesOpen;
   Kw KExit; Kw KParenthesesOpen; TInt 1; Kw KParenthesesClose;
   Kw KSemiColon; Kw KCurlyBracesClose; Kw KCatch; Kw KParenthesesOpen;
   TString (s2l "Z"); TVariable (s2l "z"); Kw KParenthesesClose;
   Kw KCurlyBracesOpen; Kw KCurlyBracesClose; Kw KCurlyBracesClose].
Definition vx (x : string) : expr := ex (EVar (VName (s2l x))).
Definition ix (z : Z) : expr := ex (EInt z).
Definition px (a : string) : path := mkPath false None (s2l a).
Definition ex_tree : list stmt :=
  [ st (SDecl (DNamespace (name_path false [s2l "A"] (s2l "B"))));
    st (SUse [QualifiedName (name_path false [s2l "C"] (s2l "D")) (Some (s2l "E"))]);
    st (SExpr (ex (EAssign (vx "x")
      (ex (ETernary
        (ex (EBinary OAnd (ex (EBinary OGt (ex (EBinary OAdd (vx "a") (ex (EBinary OMul (vx "b") (ix 2))))) (ix 1))) (ex (EUnary UNot (vx "c")))))
        (Some (ex (ECall (ex (EPath (px "f"))) [vx "d"; ex (EUnpack (vx "g"))])))
        (ex (ENew (ex (EPath (px "G"))) [ix 1])))))));
    st (SDecl (DClass (class_modifiers_new [CAbstract]) (s2l "H") (Some (mkPath true None (s2l "I"))) [px "J"]
      [ MConst (member_modifiers_new []) (s2l "X") (ix 1);
        MProp (member_modifiers_new [MPrivate; MStatic]) (s2l "p") (Some (ex (EArray [(None, ix 1); (Some (ex (EString (s2l "k"))), ix 2)])));
        MMethod (member_modifiers_new []) (s2l "q")
          (mkFun [mkParam (s2l "r") false false (Some TyArray) (Some (ex (EArray []))); mkParam (s2l "s") true false (Some (TyObject (Some (px "L")))) None]
            (Some [st (SReturn (Some (ex (ECall (ex (EObjMember (ex (EArrayIdx (ex (EObjMember (vx "this") [word_expr (s2l "t")])) [Some (ix 0)])) [word_expr (s2l "u")])) [vx "r"]))))])
            [] true) ]));
    st (SIf (vx "a")
      [st (SForEach (vx "b") (Some (vx "k")) (vx "v")
        [st (SEcho [vx "v"; ex (EBinary OConcat (ex (EString (s2l "n "))) (ex (EObjMember (vx "v") [word_expr (s2l "w")])))])])]
      [st (STry [st (SExpr (ex (EExit (Some (ix 1)))))] [mkCatch (px "Z") (s2l "z") []] None)]) ].
Lemma ex_derivation : Program (Lost := strict) (ex_tokens) ex_tree.
Proof.
  assert (D : exists ts l, Program (Lost := strict) ts l /\ ts = ex_tokens /\ l = ex_tree); [|destruct D as (ts & l & D & <- & <-); exact D].
  eexists. eexists. split.
  { eapply program_more. { apply (top_namespace [s2l "A"] (s2l "B")). }
    eapply program_more. { apply top_use, uses_one. eapply (use_as _ _ (s2l "E")), (name false [s2l "C"] (s2l "D")). }
    eapply program_more.
    { apply top_stmt, s_weak, s_expr, w_tail. do 17 apply t_up. eapply t_assign; [apply (a_var (s2l "x"))|]. apply w_expr. eapply e_ternary.
      - binary KBoolAnd; [binary KGt|].
        + binary KPlus; [var "a"|]. binary KMul; [var "b"|int 2%Z].
        + int 1%Z.
        + eapply up_to; [apply e_not, not_bang, not_base; var "c"|lv].
      - apply o_some, w_expr, acc; [|lv]. eapply a_function; [nm "f"|]. apply args_some. eapply args_more; [apply arg_value; wvar "d"|]. apply args_one, arg_unpack. wvar "g".
      - eapply (up_to _ 18); [|lv]. eapply e_new; [apply n_class, class_name; nm "G"|]. apply args_some, args_one, arg_value. wint 1%Z. }
    eapply program_more.
    { apply top_stmt, s_weak. apply (s_class [CAbstract] (s2l "H")); [apply extends_some, (name true [] (s2l "I"))|apply supers_some, names_one; nm "J"|]. apply inner_members.
      eapply members_cons; [apply (m_consts []), consts_one; [apply (word_name (s2l "X"))|wint 1%Z]|].
      eapply members_cons; [apply (m_vars [MPrivate; MStatic]), (vars_one (s2l "p")), default_some, w_expr, acc; [|lv]|].
      { apply a_array. eapply (pairs_some _ _ true). eapply pairs_more; [apply pair_value; wint 1%Z|]. apply pairs_one, pair_key; [|wint 2%Z]. apply w_expr, acc; [apply (a_string (s2l "k"))|lv]. }
      eapply members_cons; [|apply members_nil]. apply (m_method [] true (s2l "q")).
      - apply params_some. eapply params_more.
        + eapply (param_ _ _ false false (s2l "r")); [apply hint_array|]. apply default_some, w_expr, acc; [|lv]. apply a_array, pairs_none.
        + apply params_one. eapply (param_ _ _ true false (s2l "s")); [apply hint_class; nm "L"|apply default_none].
      - apply method_body, inner_all. eapply stmts_cons; [|apply stmts_nil]. apply s_weak, (s_jump KReturn SReturn); [cbn; tauto|]. apply o_some, w_expr, acc; [|lv].
        eapply a_call; [|apply args_some, args_one, arg_value; wvar "r"]. eapply a_property; [|apply (p_name (s2l "u"))].
        eapply a_index; [|apply o_some; wint 0%Z]. eapply a_property; [apply (a_var (s2l "this"))|apply (p_name (s2l "t"))]. }
    apply program_one, top_stmt, s_if. eapply if_else; [wvar "a"| |].
    - eapply body_single; [|shelve]. eapply s_foreach_key; [wvar "b"|apply loop_value, (a_var (s2l "k"))|apply loop_value, (a_var (s2l "v"))|].
      eapply body_single; [|shelve]. apply s_echo. eapply wholes_more; [wvar "v"|]. apply wholes_one, w_expr. eapply (up_to _ 18); [|lv]. eapply e_text.
      eapply (parts_text (s2l "n ")); [discriminate| |apply (parts_property (s2l "v") (s2l "w")), parts_nil]. reflexivity.
    - apply body_braces, inner_all. eapply stmts_cons; [|apply stmts_nil]. eapply s_try; [|eapply catches_cons|apply finally_none].
      + apply inner_all. eapply stmts_cons; [|apply stmts_nil]. apply s_weak, s_expr, w_expr. eapply (up_to _ 18); [|lv]. apply e_exit_with. wint 1%Z.
      + nm "Z".
      + apply inner_all, stmts_nil.
      + apply catches_nil. }
  split; vm_compute; reflexivity. Unshelve. all: intros [].
Qed.
(** a source *)
Definition ex_source : str := s2l "<?php if ($a) /* c */ $x += f($b) . 's'; else { ?> t <?php }".
Definition ex_source_toks : list token :=
  [ Kw KOpenTag; Kw KIf; Kw KParenthesesOpen; TVariable (s2l "a"); Kw KParenthesesClose; TComment (s2l " c ");
    TVariable (s2l "x"); Kw KPlusEqual; TString (s2l "f"); Kw KParenthesesOpen; TVariable (s2l "b"); Kw KParenthesesClose; Kw KDot; TCes (s2l "s"); Kw KSemiColon;
    Kw KElse; Kw KCurlyBracesOpen; Kw KCloseTag; TInlineHtml (s2l " t "); Kw KOpenTag; Kw KCurlyBracesClose ].
Definition ex_source_tree : list stmt :=
  [ st (SIf (vx "a")
      [st (SExpr (ex (ECompound (vx "x") OAdd (ex (EBinary OConcat (ex (ECall (ex (EPath (px "f"))) [vx "b"])) (ex (EString (s2l "s"))))))))]
      [st (SEcho [ex (EString (s2l " t "))])]) ].
Definition run_kinds (f : nat) (src : str) : option (list token) := match tokenize f src with DOk (l, _) => Some (map fst l) | _ => None end.
Lemma run_tokens f src toks : run_kinds f src = Some toks -> tokens_of src toks.
Proof.
  unfold run_kinds. intros E. destruct (tokenize f src) as [[ts s]| | |] eqn:T; try discriminate E. injection E as E.
  exists f. intros g L. exists ts, s. split; [|exact E]. unfold tokenize in *. rewrite (tokenize_mono _ f g f g [] tst_init L L); [exact T|]. rewrite T. discriminate.
Qed.
Lemma ex_source_tokens : tokens_of ex_source ex_source_toks.
Proof. apply (run_tokens 100). vm_compute. reflexivity. Qed.
Lemma ex_source_derivation : Program (Lost := strict) (flat_map visible ex_source_toks) ex_source_tree.
Proof.
  assert (D : exists ts l, Program (Lost := strict) ts l /\ ts = flat_map visible ex_source_toks /\ l = ex_source_tree); [|destruct D as (ts & l & D & <- & <-); exact D].
  eexists. eexists. split.
  { apply program_one, top_stmt, s_if. eapply if_else; [wvar "a"| |].
    - eapply body_single; [|shelve]. apply s_expr, w_tail. do 17 apply t_up. eapply (t_compound KPlusEqual); [cbn; tauto|apply (a_var (s2l "x"))|]. apply w_expr.
      binary KDot; [|apply acc; [apply (a_string (s2l "s"))|lv]]. apply acc; [|lv]. eapply a_function; [nm "f"|]. apply args_some, args_one, arg_value. wvar "b".
    - apply body_braces, inner_all. eapply stmts_cons; [|apply stmts_nil]. apply s_weak, s_echo, wholes_one, w_expr, acc; [apply (a_string (s2l " t "))|lv]. }
  split; vm_compute; reflexivity. Unshelve. all: intros [].
Qed.
