(** * ErrEx: broken programs (examples for C39, C40 and C50) *)
From Verif Require Import Base Tokens Ast AstMap Lexer Parser Driver Spec SpecProg LexMono SpecGrammar SpecErr GrammarEx Wp.
From Verif Require StopsExpr.
From Coq Require Import String Lia.
Local Open Scope string_scope. Local Open Scope list_scope.

(** ** C39: a method that breaks behind its return value *)
Definition bad_source : str := s2l "<?php f(); class A { function g() { if ($b) return 2 ) }".
Definition bad_before : list token := [TString (s2l "f"); Kw KParenthesesOpen; Kw KParenthesesClose; Kw KSemiColon].
Definition bad_part : list token :=
  [Kw KClass; TString (s2l "A"); Kw KCurlyBracesOpen; Kw KFunction; TString (s2l "g"); Kw KParenthesesOpen; Kw KParenthesesClose; Kw KCurlyBracesOpen;
   Kw KIf; Kw KParenthesesOpen; TVariable (s2l "b"); Kw KParenthesesClose; Kw KReturn; TInt 2].
Definition bad_rest : list token := [Kw KParenthesesClose; Kw KCurlyBracesClose].
Definition toks_of (f : nat) (src : str) : list tokspan := match tokenize f src with DOk (l, _) => l | _ => [] end.
Lemma kind_out k ks : existsb (kind_eqb k) ks = false -> ~ In k ks.
Proof. intros E I. assert (X : existsb (kind_eqb k) ks = true) by (apply existsb_exists; exists k; split; [exact I|apply kind_eqb_eq; reflexivity]). congruence. Qed.
Lemma kind_in k ks : existsb (kind_eqb k) ks = true -> In k ks.
Proof. intros E. apply existsb_exists in E as (k' & I & E). apply kind_eqb_eq in E. subst. exact I. Qed.
Ltac next_in := unfold lacks_expression, among; first [exact I | apply kind_in; reflexivity].
Ltac next_out := unfold except; first [exact I | apply kind_out; reflexivity].
Lemma bad_breaks : breaks (flat_map visible (map fst (toks_of 200 bad_source))) bad_before bad_part bad_rest.
Proof.
  split; [vm_compute; reflexivity|]. split.
  - right. exists [st (SExpr (ex (ECall (ex (EPath (px "f"))) [])))]. apply program_one, top_stmt, s_weak.
    apply (s_expr [TString (s2l "f"); Kw KParenthesesOpen; Kw KParenthesesClose]), w_expr, acc; [|lv]. apply (a_function [TString (s2l "f")]); [nm "f"|apply args_none].
  - apply (bt_stmt _ true); [|left; discriminate]. apply (b_class _ []); [|split; [next_in|next_out]].
    apply (bo_class _ (s2l "A") [] None [] [] [] []); [apply extends_none|apply supers_none|apply members_nil| |next_out].
    apply (bm_method _ [] false (s2l "g")). apply (bfn_body _ true true [] []); [apply params_none| |discriminate].
    apply (bb_inside _ true [] []); [apply stmts_nil| |next_out]. apply b_if, (bi_body _ true [TVariable (s2l "b")] (ex (EVar (VName (s2l "b"))))); [wvar "b"|].
    apply (b_jump _ KReturn SReturn [TInt 2]); [cbn; tauto|]. split; [apply (uc_whole _ _ _ (ex (EInt 2))); [wint 2%Z|split; [next_in|next_out]]|next_out].
Qed.
(** a call whose last argument, an array, is not closed *)
Definition call_source : str := s2l "<?php $x = f(1, [2, 3; g();".
Definition call_part : list token :=
  [TVariable (s2l "x"); Kw KEqual; TString (s2l "f"); Kw KParenthesesOpen; TInt 1; Kw KComma; Kw KSquareBracketOpen; TInt 2; Kw KComma; TInt 3].
Definition call_rest : list token := [Kw KSemiColon; TString (s2l "g"); Kw KParenthesesOpen; Kw KParenthesesClose; Kw KSemiColon].
Lemma call_breaks : breaks (flat_map visible (map fst (toks_of 100 call_source))) [] call_part call_rest.
Proof.
  split; [vm_compute; reflexivity|]. split; [auto|]. apply (bt_stmt _ true); [|left; discriminate]. apply b_expr; [|discriminate]. apply uc_unfinished, uf_some.
  apply (be_assign _ [TVariable (s2l "x")] (ex (EVar (VName (s2l "x"))))); [apply a_var| |next_out]. apply uf_some.
  apply (be_function _ [TString (s2l "f")] (px "f")); [nm "f"| |discriminate]. apply (ba_more _ true [TInt 1] (ex (EInt 1))); [apply arg_value; wint 1%Z|].
  apply ba_last; [|next_out|discriminate]. apply uc_unfinished, uf_some, be_array. apply (bq_more _ _ [TInt 2] (None, ex (EInt 2))); [apply pair_value; wint 2%Z|].
  apply bq_last; [|next_out]. apply (uc_whole _ _ _ (ex (EInt 3))); [wint 3%Z|split; [next_in|next_out]].
Qed.
(** an operator without its operand in a condition that is not closed *)
Definition op_source : str := s2l "<?php while ($a && $b + ; g();".
Definition op_part : list token := [Kw KWhile; Kw KParenthesesOpen; TVariable (s2l "a"); Kw KBoolAnd; TVariable (s2l "b"); Kw KPlus].
Lemma op_breaks : breaks (flat_map visible (map fst (toks_of 100 op_source))) [] op_part call_rest.
Proof.
  split; [vm_compute; reflexivity|]. split; [auto|]. apply (bt_stmt _ true); [|left; discriminate]. apply b_while_head, bp_in. eapply uc_dangling; [|split; [next_in|next_out]].
  do 5 apply dg_up. apply (dg_right _ KBoolAnd OAnd 6 6 7 [TVariable (s2l "a")] (ex (EVar (VName (s2l "a"))))); [cbn; tauto|var "a"|].
  do 6 apply dg_up. apply (dg_binary _ KPlus OAdd 13 13 14 [TVariable (s2l "b")] (ex (EVar (VName (s2l "b"))))); [cbn; tauto|var "b"|apply uf_none; next_in|next_in].
Qed.
(** two operators in a row *)
Definition two_source : str := s2l "<?php f(1, $a . $b . * $c);".
Definition two_part : list token := [TString (s2l "f"); Kw KParenthesesOpen; TInt 1; Kw KComma; TVariable (s2l "a"); Kw KDot; TVariable (s2l "b"); Kw KDot].
Definition two_rest : list token := [Kw KMul; TVariable (s2l "c"); Kw KParenthesesClose; Kw KSemiColon].
Lemma two_breaks : breaks (flat_map visible (map fst (toks_of 100 two_source))) [] two_part two_rest.
Proof.
  split; [vm_compute; reflexivity|]. split; [auto|]. apply (bt_stmt _ true); [|left; discriminate]. apply b_expr; [|discriminate]. apply uc_unfinished, uf_some.
  apply (be_function _ [TString (s2l "f")] (px "f")); [nm "f"| |discriminate]. apply (ba_more _ true [TInt 1] (ex (EInt 1))); [apply arg_value; wint 1%Z|].
  apply ba_last; [|next_out|discriminate].
  apply (uc_operator _ _ KDot OConcat 13 13 14 [TVariable (s2l "a"); Kw KDot; TVariable (s2l "b")] (ex (EBinary OConcat (ex (EVar (VName (s2l "a")))) (ex (EVar (VName (s2l "b"))))))); [cbn; tauto| |apply uf_none; next_in|next_out].
  apply (e_binary KDot OConcat 13 13 14 [TVariable (s2l "a")] _ [TVariable (s2l "b")]); [cbn; tauto|var "a"|var "b"].
Qed.
(** lists in which something is missing *)
Definition use_part : list token := [Kw KUse; TString (s2l "A"); Kw KComma; TString (s2l "B"); Kw KAs; TString (s2l "C"); Kw KComma].
Definition use_rest : list token := [Kw KSemiColon].
Lemma use_breaks : breaks (use_part ++ use_rest) [] use_part use_rest.
Proof.
  split; [reflexivity|]. split; [auto|]. apply bt_use. apply (bu_more _ [TString (s2l "A")] (QualifiedName (px "A") None)); [apply use_plain; nm "A"|].
  apply (bu_more _ [TString (s2l "B"); Kw KAs; TString (s2l "C")] (QualifiedName (px "B") (Some (s2l "C")))); [apply (use_as [TString (s2l "B")]); nm "B"|].
  apply bu_none; [exact I|next_out].
Qed.
Definition lists_part : list token :=
  [Kw KIf; Kw KParenthesesOpen; TVariable (s2l "a"); Kw KParenthesesClose; Kw KCurlyBracesOpen; Kw KUnset; Kw KParenthesesOpen; TVariable (s2l "b"); Kw KParenthesesClose; Kw KSemiColon;
   Kw KGlobal; TVariable (s2l "c"); Kw KComma; TVariable (s2l "d")].
Definition lists_rest : list token := [TVariable (s2l "e"); Kw KSemiColon; Kw KCurlyBracesClose].
Lemma lists_breaks : breaks (lists_part ++ lists_rest) [] lists_part lists_rest.
Proof.
  split; [reflexivity|]. split; [auto|]. apply (bt_stmt _ false); [|left; discriminate]. apply b_if, (bi_body _ false [TVariable (s2l "a")] (ex (EVar (VName (s2l "a"))))); [wvar "a"|].
  apply (b_block _ false [Kw KUnset; Kw KParenthesesOpen; TVariable (s2l "b"); Kw KParenthesesClose; Kw KSemiColon] [st (SUnset [ex (EVar (VName (s2l "b")))])]); [| |next_out].
  - apply (stmts_cons [Kw KUnset; Kw KParenthesesOpen; TVariable (s2l "b"); Kw KParenthesesClose; Kw KSemiColon] _ [] []); [|apply stmts_nil].
    apply s_weak, (s_unset [TVariable (s2l "b")]), accesses_one, a_var.
  - apply b_global, bg_more, bg_end. next_out.
Qed.
(** a constant of a class whose value is not closed *)
Definition member_source : str := s2l "<?php class A extends B { const X = 1, Y = [2; }".
Definition member_part : list token :=
  [Kw KClass; TString (s2l "A"); Kw KExtends; TString (s2l "B"); Kw KCurlyBracesOpen; Kw KConst; TString (s2l "X"); Kw KEqual; TInt 1; Kw KComma;
   TString (s2l "Y"); Kw KEqual; Kw KSquareBracketOpen; TInt 2].
Definition member_rest : list token := [Kw KSemiColon; Kw KCurlyBracesClose].
Lemma member_breaks : breaks (flat_map visible (map fst (toks_of 100 member_source))) [] member_part member_rest.
Proof.
  split; [vm_compute; reflexivity|]. split; [auto|]. apply (bt_stmt _ true); [|left; discriminate].
  apply (b_class _ [] (TString (s2l "A") :: [Kw KExtends; TString (s2l "B")] ++ [] ++ Kw KCurlyBracesOpen :: [] ++ _)); [|split; [next_in|next_out]].
  apply (bo_class _ (s2l "A") [Kw KExtends; TString (s2l "B")] (Some (px "B")) [] [] [] []);
    [apply extends_some; nm "B"|apply supers_none|apply members_nil| |next_out].
  apply (bm_consts _ []). apply (bk_more _ (TString (s2l "X")) (s2l "X") [TInt 1] (ix 1)); [constructor|wint 1%Z|].
  apply (bk_value _ _ (s2l "Y")); [constructor|]. apply uc_unfinished, uf_some, be_array.
  apply bq_last; [|next_out]. apply (uc_whole _ _ _ (ex (EInt 2))); [wint 2%Z|split; [next_in|next_out]].
Qed.
(** a call inside of a string that is not closed *)
Definition text_source : str := s2l "<?php echo ""n $a->b {$c}${d}${e[2]} {$f(1 }"";".
Definition text_part : list token :=
  [Kw KEcho; Kw KDoubleQuote; TCes (s2l "n "); TVariable (s2l "a"); Kw KObjectOp; TString (s2l "b"); TCes (s2l " "); Kw KCurlyBracesOpen; TVariable (s2l "c");
   Kw KCurlyBracesClose; Kw KDollarCurlyBracesOpen; TString (s2l "d"); Kw KCurlyBracesClose; Kw KDollarCurlyBracesOpen; TString (s2l "e"); Kw KSquareBracketOpen; TInt 2;
   Kw KSquareBracketClose; Kw KCurlyBracesClose; TCes (s2l " "); Kw KCurlyBracesOpen; TVariable (s2l "f"); Kw KParenthesesOpen; TInt 1].
Definition text_rest : list token := [Kw KCurlyBracesClose; Kw KDoubleQuote; Kw KSemiColon].
Lemma text_breaks : breaks (flat_map visible (map fst (toks_of 100 text_source))) [] text_part text_rest.
Proof.
  split; [vm_compute; reflexivity|]. split; [auto|]. apply (bt_stmt _ true); [|left; discriminate].
  apply b_echo, bw_last, uc_unfinished, uf_some, be_text; [cbn; tauto|]. apply br_text, br_property, br_text.
  apply (br_more _ [TVariable (s2l "c")] (ex (EVar (VName (s2l "c"))))); [wvar "c"|]. apply br_dollar, (br_dollar_index _ _ [TInt 2] (ix 2)); [wint 2%Z|]. apply br_text, br_code, uc_unfinished, uf_some.
  apply (be_call _ [TVariable (s2l "f")] (ex (EVar (VName (s2l "f"))))); [apply a_var| |discriminate].
  apply ba_last; [|next_out|discriminate]. apply (uc_whole _ _ _ (ex (EInt 1))); [wint 1%Z|split; [next_in|next_out]].
Qed.
(** the end of the source inside of a loop *)
Definition cut_tokens : list token := [Kw KForeach; Kw KParenthesesOpen; TVariable (s2l "a"); Kw KAs; TVariable (s2l "k"); Kw KDoubleArrow; TVariable (s2l "v"); Kw KParenthesesClose; Kw KCurlyBracesOpen].
Lemma cut_breaks : breaks cut_tokens [] cut_tokens [].
Proof.
  split; [reflexivity|]. split; [auto|]. apply (bt_stmt _ true); [|left; discriminate].
  apply (b_foreach_key _ true [TVariable (s2l "a")] (ex (EVar (VName (s2l "a")))) [TVariable (s2l "k")] (ex (EVar (VName (s2l "k")))) [TVariable (s2l "v")] (ex (EVar (VName (s2l "v")))));
    [wvar "a"|apply loop_value, a_var..|]. apply (b_block _ true [] []); [apply stmts_nil|apply b_here; exact I|exact I].
Qed.

(** ** C40: a statement and a property without a semicolon *)
Definition lost_source_ex : str := s2l "<?php class A { function f() { g(); return 1 } public $p = 2 }".
Definition lost_toks : list token :=
  [Kw KOpenTag; Kw KClass; TString (s2l "A"); Kw KCurlyBracesOpen; Kw KFunction; TString (s2l "f"); Kw KParenthesesOpen; Kw KParenthesesClose; Kw KCurlyBracesOpen;
   TString (s2l "g"); Kw KParenthesesOpen; Kw KParenthesesClose; Kw KSemiColon; Kw KReturn; TInt 1; Kw KCurlyBracesClose;
   Kw KPublic; TVariable (s2l "p"); Kw KEqual; TInt 2; Kw KCurlyBracesClose].
Definition lost_tree : list stmt :=
  [st (SDecl (DClass (class_modifiers_new []) (s2l "A") None [] [MMethod (member_modifiers_new []) (s2l "f") (mkFun [] (Some [st (SExpr (ex (ECall (ex (EPath (px "g"))) [])))]) [] false)]))].
Lemma lost_tokens_ex : tokens_of lost_source_ex lost_toks.
Proof. apply (run_tokens 200). vm_compute. reflexivity. Qed.
Lemma lost_derivation : Program (Lost := lost 1) (flat_map visible lost_toks) lost_tree.
Proof.
  assert (D : exists ts l, Program (Lost := lost 1) ts l /\ ts = flat_map visible lost_toks /\ l = lost_tree); [|destruct D as (ts & l & D & <- & <-); exact D].
  eexists. eexists. split.
  { apply program_one, top_stmt, s_weak. apply (s_class [] (s2l "A")); [apply extends_none|apply supers_none|].
    eapply (inner_members_lost _ _ [Kw KPublic; TVariable (s2l "p"); Kw KEqual; TInt 2]).
    - eapply members_cons; [|apply members_nil]. apply (m_method [] false (s2l "f")); [apply params_none|]. apply method_body. eapply (inner_lost _ _ [Kw KReturn; TInt 1]).
      + eapply stmts_cons; [|apply stmts_nil]. apply s_weak, s_expr, w_expr, acc; [|lv]. eapply a_function; [nm "g"|apply args_none].
      + cbn [lost]. apply (b_jump _ KReturn SReturn [TInt 1]); [cbn; tauto|]. split; [apply (uc_whole _ _ _ (ex (EInt 1))); [wint 1%Z|split; [next_in|next_out]]|next_out].
    - cbn [lost]. apply (bm_vars _ [MPublic] [TVariable (s2l "p"); Kw KEqual; TInt 2]), bv_value, (uc_whole _ _ _ (ex (EInt 2))); [wint 2%Z|split; [next_in|next_out]]. }
  split; vm_compute; reflexivity.
Qed.

(** ** C50: operators without their last operand *)
Definition cut_source_ex : str := s2l "<?php $x = $a + ; if ($a && ) { f($b * , !$a - ); } return $a ? $b : ;".
Definition cut_toks : list token :=
  [Kw KOpenTag; TVariable (s2l "x"); Kw KEqual; TVariable (s2l "a"); Kw KPlus; Kw KSemiColon;
   Kw KIf; Kw KParenthesesOpen; TVariable (s2l "a"); Kw KBoolAnd; Kw KParenthesesClose; Kw KCurlyBracesOpen;
   TString (s2l "f"); Kw KParenthesesOpen; TVariable (s2l "b"); Kw KMul; Kw KComma; Kw KBoolNot; TVariable (s2l "a"); Kw KMinus; Kw KParenthesesClose; Kw KSemiColon; Kw KCurlyBracesClose;
   Kw KReturn; TVariable (s2l "a"); Kw KQuestionMark; TVariable (s2l "b"); Kw KColon; Kw KSemiColon].
Definition cut_tree : list stmt :=
  let a := ex (EVar (VName (s2l "a"))) in let b := ex (EVar (VName (s2l "b"))) in
  [st (SExpr (ex (EAssign (ex (EVar (VName (s2l "x")))) a)));
   st (SIf a [st (SExpr (ex (ECall (ex (EPath (px "f"))) [b; ex (EUnary UNot a)])))] []);
   st (SReturn (Some a))].
Lemma cut_tokens_ex : tokens_of cut_source_ex cut_toks.
Proof. apply (run_tokens 200). vm_compute. reflexivity. Qed.
Lemma dg_down {Lost} next n m ts e : Dangling (Lost := Lost) next n ts e -> m <= n -> Dangling (Lost := Lost) next m ts e.
Proof. intros D LE. induction LE as [|k _ IH]; [exact D|]. exact (IH (dg_up next _ _ _ D)). Qed.
Ltac cutbin k o n la lb ta a := apply w_lost; cbn [cut_expressions]; intros next N; apply (dg_down next n); [|repeat constructor]; apply (dg_binary next k o n la lb ta a []); [cbn; tauto| |apply uf_none, StopsExpr.enders_lack, N|exact N].
Lemma cut_derivation : Program (Lost := cut_expressions 1) (flat_map visible cut_toks) cut_tree.
Proof.
  assert (D : exists ts l, Program (Lost := cut_expressions 1) ts l /\ ts = flat_map visible cut_toks /\ l = cut_tree); [|destruct D as (ts & l & D & <- & <-); exact D].
  eexists. eexists. split.
  { eapply program_more; [|eapply program_more; [|apply program_one]]; apply top_stmt.
    - apply s_weak, s_expr, w_tail. do 17 apply t_up. eapply (t_assign [TVariable (s2l "x")]); [apply a_var|]. cutbin KPlus OAdd 13 13 14 [TVariable (s2l "a")] (ex (EVar (VName (s2l "a")))). var "a".
    - apply s_if, if_only; [cutbin KBoolAnd OAnd 6 6 7 [TVariable (s2l "a")] (ex (EVar (VName (s2l "a")))); var "a"|]. apply body_braces, inner_all. eapply stmts_cons; [|apply stmts_nil].
      apply s_weak, s_expr, w_expr, acc; [|lv]. eapply a_function; [nm "f"|]. apply args_some. eapply args_more; [apply arg_value|apply args_one, arg_value].
      + cutbin KMul OMul 14 14 15 [TVariable (s2l "b")] (ex (EVar (VName (s2l "b")))). var "b".
      + cutbin KMinus OSub 13 13 14 [Kw KBoolNot; TVariable (s2l "a")] (ex (EUnary UNot (ex (EVar (VName (s2l "a")))))). eapply up_to; [apply e_not, not_bang, not_base; var "a"|lv].
    - apply s_weak, (s_jump KReturn SReturn); [cbn; tauto|]. apply o_some, w_lost. cbn [cut_expressions]. intros next N. do 3 apply dg_up. eapply (dg_else next [TVariable (s2l "a")] _ [TVariable (s2l "b")] (Some (ex (EVar (VName (s2l "b")))))); [var "a"|apply o_some; wvar "b"|apply uf_none, StopsExpr.enders_lack, N|exact N]. }
  split; vm_compute; reflexivity.
Qed.
(** an operator without operand inside of a string *)
Definition inside_source : str := s2l "<?php echo ""{$a . } b"";".
Definition inside_toks : list token :=
  [Kw KOpenTag; Kw KEcho; Kw KDoubleQuote; Kw KCurlyBracesOpen; TVariable (s2l "a"); Kw KDot; Kw KCurlyBracesClose; TCes (s2l " b"); Kw KDoubleQuote; Kw KSemiColon].
Definition inside_tree : list stmt := [st (SEcho [ex (EBinary OConcat (ex (EVar (VName (s2l "a")))) (ex (EString (s2l " b"))))])].
Lemma inside_tokens_ex : tokens_of inside_source inside_toks.
Proof. apply (run_tokens 200). vm_compute. reflexivity. Qed.
Lemma inside_derivation : Program (Lost := cut_expressions 1) (flat_map visible inside_toks) inside_tree.
Proof.
  assert (D : exists ts l, Program (Lost := cut_expressions 1) ts l /\ ts = flat_map visible inside_toks /\ l = inside_tree); [|destruct D as (ts & l & D & <- & <-); exact D].
  eexists. eexists. split.
  { apply program_one, top_stmt, s_weak, s_echo, wholes_one, w_expr. eapply up_to; [apply e_text|lv].
    eapply parts_code; [|apply (parts_text (s2l " b") []); [discriminate|reflexivity|apply parts_nil]].
    cutbin KDot OConcat 13 13 14 [TVariable (s2l "a")] (ex (EVar (VName (s2l "a")))). var "a". }
  split; vm_compute; reflexivity.
Qed.
(** what is not closed before a semicolon *)
Definition unclosed_source : str := s2l "<?php while ($a) { $a->b[1 . ; return f($a, [2; }".
Definition unclosed_toks : list token :=
  [Kw KOpenTag; Kw KWhile; Kw KParenthesesOpen; TVariable (s2l "a"); Kw KParenthesesClose; Kw KCurlyBracesOpen;
   TVariable (s2l "a"); Kw KObjectOp; TString (s2l "b"); Kw KSquareBracketOpen; TInt 1; Kw KDot; Kw KSemiColon;
   Kw KReturn; TString (s2l "f"); Kw KParenthesesOpen; TVariable (s2l "a"); Kw KComma; Kw KSquareBracketOpen; TInt 2; Kw KSemiColon; Kw KCurlyBracesClose].
Definition unclosed_tree : list stmt :=
  let a := ex (EVar (VName (s2l "a"))) in [st (SWhile a [st (SExpr (ex (EObjMember a [word_expr (s2l "b")]))); st (SReturn None)])].
Lemma unclosed_tokens_ex : tokens_of unclosed_source unclosed_toks.
Proof. apply (run_tokens 200). vm_compute. reflexivity. Qed.
Lemma unclosed_derivation : Program (Lost := cut_expressions 1) (flat_map visible unclosed_toks) unclosed_tree.
Proof.
  assert (D : exists ts l, Program (Lost := cut_expressions 1) ts l /\ ts = flat_map visible unclosed_toks /\ l = unclosed_tree); [|destruct D as (ts & l & D & <- & <-); exact D].
  eexists. eexists. split.
  { apply program_one, top_stmt. apply s_while; [wvar "a"|]. apply body_braces, inner_all. eapply stmts_cons; [|eapply stmts_cons; [|apply stmts_nil]]; apply s_weak, s_lost; cbn [cut_expressions].
    - apply cs_expr. apply (dg_down semi 18); [|repeat constructor]. apply (dg_index semi [TVariable (s2l "a"); Kw KObjectOp; TString (s2l "b")] (property (ex (EVar (VName (s2l "a")))) (word_expr (s2l "b"))) [TInt 1; Kw KDot]);
        [apply (a_property [TVariable (s2l "a")] (ex (EVar (VName (s2l "a")))) [TString (s2l "b")] (word_expr (s2l "b"))); [apply a_var|apply p_name]| |split; [next_in|next_out]].
      eapply uc_dangling; [|split; [next_in|next_out]]. apply (dg_down semi 13); [|repeat constructor].
      apply (dg_binary semi KDot OConcat 13 13 14 [TInt 1] (ex (EInt 1)) []); [cbn; tauto|int 1%Z|apply uf_none; next_in|next_in].
    - apply (cs_jump_none KReturn SReturn (TString (s2l "f") :: Kw KParenthesesOpen :: TVariable (s2l "a") :: Kw KComma :: [Kw KSquareBracketOpen; TInt 2])); [cbn; tauto|].
      apply (be_function _ [TString (s2l "f")] (px "f")); [nm "f"| |discriminate].
      apply (ba_more _ true [TVariable (s2l "a")] (ex (EVar (VName (s2l "a"))))); [apply arg_value; wvar "a"|].
      apply ba_last; [|next_out|discriminate]. apply uc_unfinished, uf_some, (be_array _ [TInt 2]).
      apply bq_last; [|next_out]. apply (uc_whole _ _ _ (ex (EInt 2))); [wint 2%Z|split; [next_in|next_out]]. }
  split; vm_compute; reflexivity.
Qed.
(** an instanceof without its class, an operand missing behind a clone *)
Definition classless_source : str := s2l "<?php if ($a instanceof ) { return clone $b * ; }".
Definition classless_toks : list token :=
  [Kw KOpenTag; Kw KIf; Kw KParenthesesOpen; TVariable (s2l "a"); Kw KInstanceOf; Kw KParenthesesClose; Kw KCurlyBracesOpen;
   Kw KReturn; Kw KClone; TVariable (s2l "b"); Kw KMul; Kw KSemiColon; Kw KCurlyBracesClose].
Definition classless_tree : list stmt :=
  let a := ex (EVar (VName (s2l "a"))) in let b := ex (EVar (VName (s2l "b"))) in [st (SIf a [st (SReturn (Some (ex (EClone b))))] [])].
Lemma classless_tokens_ex : tokens_of classless_source classless_toks.
Proof. apply (run_tokens 200). vm_compute. reflexivity. Qed.
Lemma classless_derivation : Program (Lost := cut_expressions 1) (flat_map visible classless_toks) classless_tree.
Proof.
  assert (D : exists ts l, Program (Lost := cut_expressions 1) ts l /\ ts = flat_map visible classless_toks /\ l = classless_tree); [|destruct D as (ts & l & D & <- & <-); exact D].
  eexists. eexists. split.
  { apply program_one, top_stmt. apply s_if, if_only.
    - apply w_lost. cbn [cut_expressions]. intros next N. apply (dg_down next 16); [|repeat constructor].
      apply (dg_instanceof next [TVariable (s2l "a")] (ex (EVar (VName (s2l "a"))))); [var "a"|intros []|exact N].
    - apply body_braces, inner_all. eapply stmts_cons; [|apply stmts_nil]. apply s_weak, (s_jump KReturn SReturn); [cbn; tauto|]. apply o_some, w_lost. cbn [cut_expressions]. intros next N.
      apply (dg_down next 18); [|repeat constructor]. apply dg_clone, (dg_down next 14); [|repeat constructor].
      apply (dg_binary next KMul OMul 14 14 15 [TVariable (s2l "b")] (ex (EVar (VName (s2l "b")))) []); [cbn; tauto|var "b"|apply uf_none, StopsExpr.enders_lack, N|exact N]. }
  split; vm_compute; reflexivity.
Qed.
