(** * WideEx: cases for C19, C28, C29, C31 and C33 over the whole grammar *)
From Verif Require Import Base Tokens Ast AstMap Lexer Parser Driver Spec SpecProg SpecCtl SpecMixed SpecText SpecGrammar SpecWide GrammarEx TextMain2 TextEx CompleteEx.
From Coq Require Import String Lia.
Local Open Scope string_scope. Local Open Scope list_scope.

Definition tokens_in (src : str) : list token := match run_kinds 400 src with Some l => l | None => [] end.
Ltac read := apply tokens_complete; [repeat constructor|apply (run_tokens 400); vm_compute; reflexivity].
Definition v (x : string) : list token := [TVariable (s2l x)].
Definition wv (x : string) : wtree := WLeaf 18 (v x) (vx x).
Lemma wv_ok x : wtree_ok (wv x).
Proof. split; [lia|]. apply e_access, a_var. Qed.

(** ** C19 *)
Definition call_toks : list token := [TString (s2l "f"); Kw KParenthesesOpen; TVariable (s2l "a"); Kw KParenthesesClose].
Definition call_expr : expr := ex (ECall (ex (EPath (px "f"))) [vx "a"]).
Definition op_tree : wtree :=
  WNode KBoolAnd OAnd 6 6 7
    (WNode KMinus OSub 13 13 14 (WLeaf 18 call_toks call_expr)
      (WNode KMul OMul 14 14 15 (WNode KDot OConcat 13 13 14 (wv "b") (WLeaf 18 [TCes (s2l "s")] (ex (EString (s2l "s")))))
        (WPow (WLeaf 17 (Kw KMinus :: v "c") (ex (EUnary UNegative (vx "c")))) (WPow (WLeaf 18 [TInt 2] (ix 2)) (wv "d")))))
    (WNode KIsEqual OEq 10 11 11 (wv "e") (WLeaf 4 (v "g" ++ [Kw KQuestionMark; Kw KColon; TInt 1]) (ex (ETernary (vx "g") None (ix 1))))).
Definition op_source : str := s2l "<?php f($a) - ($b . 's') * (-$c) ** 2 ** $d && $e == ($g ?: 1);".
Lemma op_ok : wtree_ok op_tree.
Proof.
  cbn [wtree_ok op_tree]. repeat split; try lia; try (cbn; tauto); try apply e_access, a_var.
  - apply e_access. apply (a_function [TString (s2l "f")] (px "f") (paren (v "a"))); [nm "f"|]. apply args_some, args_one, arg_value. wvar "a".
  - apply e_access, a_string.
  - apply (e_prefix KMinus); [cbn; tauto|]. var "c".
  - apply e_int.
  - apply (e_ternary (v "g") (vx "g") [] None [TInt 1] (ix 1)); [var "g"|apply o_none|int 1%Z].
Qed.
Lemma op_read : exists all, Source op_source all /\ flat_map visible all = wtokens 1 op_tree ++ [Kw KSemiColon].
Proof. match goal with |- exists _, Source ?src _ /\ _ => exists (tokens_in src) end. split; [read|vm_compute; reflexivity]. Qed.

(** ** C28 *)
Definition call_stmt : list token := call_toks ++ [Kw KSemiColon].
Definition if_first : arm := mkArm false (v "a") (vx "a") (Kw KWhile :: paren (v "b") ++ [Kw KSemiColon]) [st (SWhile (vx "b") [st SNone])].
Definition if_more : list arm :=
  [mkArm false call_toks call_expr (braces call_stmt) [st (SExpr call_expr)]; mkArm true [TInt 1] (ix 1) [Kw KReturn; Kw KSemiColon] [st (SReturn None)]].
Definition if_last : option (list token * list stmt) := Some (Kw KIf :: paren (v "d") ++ call_stmt, [st (SIf (vx "d") [st (SExpr call_expr)] [])]).
Definition if_source : str := s2l "<?php if ($a) while ($b) ; elseif (f($a)) { f($a) /* c */ ; } else if (1) return; else if ($d) f($a);".
Lemma call_whole : Whole (Lost := strict) 1 call_toks call_expr.
Proof.
  apply w_expr, acc; [|lia]. apply (a_function [TString (s2l "f")] (px "f") (paren (v "a"))); [nm "f"|]. apply args_some, args_one, arg_value. wvar "a".
Qed.
Lemma call_ok c : Stmt (Lost := strict) c call_stmt (st (SExpr call_expr)).
Proof. assert (X : Stmt (Lost := strict) true call_stmt (st (SExpr call_expr))) by apply s_expr, call_whole. destruct c; [exact X|apply s_weak, X]. Qed.
Lemma if_ok : chain_ok if_first if_more if_last.
Proof.
  apply chain_more; [split; [wvar "a"|]|apply chain_more; [split; [apply call_whole|]|apply chain_else; [split; [wint 1%Z|]|]]].
  - apply body_single; [|intros []]. apply (s_while _ (v "b")); [wvar "b"|]. apply body_single; [apply s_empty|intros []].
  - apply body_braces, inner_all, (stmts_cons call_stmt _ [] []); [apply call_ok|apply stmts_nil].
  - apply body_single; [|intros []]. apply (s_jump KReturn SReturn []); [cbn; tauto|apply o_none].
  - apply body_single; [|intros []]. apply s_if, if_only; [wvar "d"|]. apply body_single; [apply call_ok|intros []].
Qed.
Lemma if_read : exists all, Source if_source all /\ flat_map visible all = chain_tokens if_first if_more if_last.
Proof. match goal with |- exists _, Source ?src _ /\ _ => exists (tokens_in src) end. split; [read|vm_compute; reflexivity]. Qed.

(** ** C29 *)
Definition sw_labels : list wlabel :=
  [ mkWLabel (Some ([TInt 1], ix 1)) false [] []; mkWLabel (Some (call_toks, call_expr)) true (Kw KIf :: paren (v "x") ++ call_stmt) [st (SIf (vx "x") [st (SExpr call_expr)] [])];
    mkWLabel None false [] []; mkWLabel (Some ([TInt 2], ix 2)) false [Kw KSemiColon] [st SNone]; mkWLabel None false [Kw KReturn; Kw KSemiColon] [st (SReturn None)];
    mkWLabel (Some ([TInt 4], ix 4)) false [] [] ].
Definition sw_cases : list swcase :=
  [ mkCase [ix 1; call_expr] false [st (SIf (vx "x") [st (SExpr call_expr)] [])]; mkCase [ix 2] false [st SNone]; mkCase [] true [st (SReturn None)]; mkCase [ix 4] false [] ].
Definition sw_source : str := s2l "<?php switch ($a) { case 1: case f($a); if ($x) f($a); default: case 2: ; default: return; case 4: }".
Lemma sw_ok : Forall wlabel_ok sw_labels.
Proof.
  repeat apply Forall_cons; [..|apply Forall_nil]; (split; cbn [wvalue wstmts_toks wstmts]; [try exact I|try apply stmts_nil]).
  - wint 1%Z.
  - apply call_whole.
  - match goal with |- Stmts ?t [?s] => rewrite <- (app_nil_r t); apply (stmts_cons t s [] []); [|apply stmts_nil] end.
    apply s_if, if_only; [wvar "x"|]. apply body_single; [apply call_ok|intros []].
  - wint 2%Z.
  - apply (stmts_cons [Kw KSemiColon] _ [] []); [apply s_weak, s_empty|apply stmts_nil].
  - apply (stmts_cons [Kw KReturn; Kw KSemiColon] _ [] []); [|apply stmts_nil]. apply s_weak, (s_jump KReturn SReturn []); [cbn; tauto|apply o_none].
  - wint 4%Z.
Qed.
Lemma sw_grouped : grouped (map bare_label sw_labels) sw_cases.
Proof.
  set (d := mkWLabel None false [] []). set (n i := bare_label (nth i sw_labels d)).
  apply (grouped_case [n 0] (n 1)); [repeat constructor|discriminate|]. apply (grouped_case [n 2] (n 3)); [repeat constructor|discriminate|].
  apply (grouped_case [] (n 4)); [constructor|discriminate|]. apply (grouped_last [n 5]). repeat constructor.
Qed.
Lemma sw_read : exists all, Source sw_source all /\ flat_map visible all = switch_tokens (v "a") sw_labels.
Proof. match goal with |- exists _, Source ?src _ /\ _ => exists (tokens_in src) end. split; [read|vm_compute; reflexivity]. Qed.

(** ** C31 *)
Definition str_text : str := s2l "n {$b[1] /* c */}$c.".
Definition str_tokens : list token :=
  [TCes (s2l "n "); Kw KCurlyBracesOpen; TVariable (s2l "b"); Kw KSquareBracketOpen; TInt 1; Kw KSquareBracketClose; TComment (s2l " c "); Kw KCurlyBracesClose; TVariable (s2l "c")].
Lemma str_pieces q e : q = Quotes /\ e = s2l """;" \/ q = Doc (s2l "T") /\ e = [10%N] ++ s2l "T;" ++ [10%N] -> Pieces q [] (str_text ++ e) str_tokens (s2l ".") e.
Proof.
  intros [(-> & ->)|(-> & ->)].
  - ch Quotes 110%N. ch Quotes 32%N. eapply ps_piece; [apply (pc_code Quotes false (s2l "n ") [TCes (s2l "n ")] (s2l "$b[1] /* c */}$c."";") [TVariable (s2l "b"); Kw KSquareBracketOpen; TInt 1; Kw KSquareBracketClose; TComment (s2l " c ")] (s2l "$c."";"))| |reflexivity].
    + exact I.
    + apply (literal_some (s2l "n ")); [discriminate|]. apply (fragment_text (s2l "n ")). repeat constructor; reflexivity.
    + reflexivity.
    + apply (tx_lexeme (s2l "$b")); [apply (lx_variable (s2l "b")); reflexivity|]. op "[" KSquareBracketOpen.
      apply (tx_lexeme (s2l "1")); [one_digit|]. op "]" KSquareBracketClose. sp. apply (tx_block (s2l " c ")); [discriminate|reflexivity|none_inside|]. apply tx_stop.
    + eapply ps_piece; [apply (pc_variable Quotes (s2l "c") [] []); [exact I|constructor|reflexivity..|discriminate]| |reflexivity]. ch Quotes 46%N. apply ps_none.
  - ch (Doc (s2l "T")) 110%N. ch (Doc (s2l "T")) 32%N. eapply ps_piece; [apply (pc_code (Doc (s2l "T")) false (s2l "n ") [TCes (s2l "n ")] (s2l "$b[1] /* c */}$c." ++ [10%N] ++ s2l "T;" ++ [10%N]) [TVariable (s2l "b"); Kw KSquareBracketOpen; TInt 1; Kw KSquareBracketClose; TComment (s2l " c ")] (s2l "$c." ++ [10%N] ++ s2l "T;" ++ [10%N]))| |reflexivity].
    + exact I.
    + apply (literal_some (s2l "n ")); [discriminate|]. apply (fragment_text (s2l "n ")). repeat constructor; reflexivity.
    + reflexivity.
    + apply (tx_lexeme (s2l "$b")); [apply (lx_variable (s2l "b")); reflexivity|]. op "[" KSquareBracketOpen.
      apply (tx_lexeme (s2l "1")); [one_digit|]. op "]" KSquareBracketClose. sp. apply (tx_block (s2l " c ")); [discriminate|reflexivity|none_inside|]. apply tx_stop.
    + eapply ps_piece; [apply (pc_variable (Doc (s2l "T")) (s2l "c") [] []); [exact I|constructor|reflexivity..|discriminate]| |reflexivity]. ch (Doc (s2l "T")) 46%N. apply ps_none.
Qed.
Lemma str_literal : Literal (s2l ".") [TCes (s2l ".")].
Proof. apply literal_some; [discriminate|]. apply (fragment_text (s2l ".")). repeat constructor. Qed.
Definition str_parts : list expr := [ex (EString (s2l "n ")); ex (EArrayIdx (vx "b") [Some (ix 1)]); vx "c"; ex (EString (s2l "."))].
Lemma str_ok : Parts (Lost := strict) (flat_map visible (str_tokens ++ [TCes (s2l ".")])) str_parts.
Proof.
  apply (parts_text (s2l "n ")); [discriminate|reflexivity|]. apply (parts_code [TVariable (s2l "b"); Kw KSquareBracketOpen; TInt 1; Kw KSquareBracketClose]).
  - apply w_expr, acc; [|lia]. apply (a_index (v "b") (vx "b") [TInt 1] (Some (ix 1))); [apply a_var|apply o_some; wint 1%Z].
  - apply (parts_var (s2l "c")), (parts_text (s2l ".")); [discriminate|reflexivity|apply parts_nil].
Qed.

(** the index behind a name in [${]...[}] *)
Definition idx_text : str := s2l "${x[1]}".
Definition idx_tokens : list token := [Kw KDollarCurlyBracesOpen; TString (s2l "x"); Kw KSquareBracketOpen; TInt 1; Kw KSquareBracketClose; Kw KCurlyBracesClose].
Definition idx_parts : list expr := [ex (EArrayIdx (vx "x") [Some (ix 1)])].
Lemma idx_pieces : Pieces Quotes [] (idx_text ++ s2l """;") idx_tokens [] (s2l """;").
Proof.
  eapply ps_piece; [apply (pc_code Quotes true [] [] (s2l "x[1]}"";") [TString (s2l "x"); Kw KSquareBracketOpen; TInt 1; Kw KSquareBracketClose] (s2l """;"))| |reflexivity].
  - exact I.
  - constructor.
  - discriminate.
  - apply (tx_lexeme (s2l "x")); [apply lx_name; [reflexivity|reflexivity|intros x k I; cbn in I; repeat (destruct I as [I|I]; [injection I as <- <-; discriminate|]); destruct I|discriminate|discriminate|discriminate]|]. op "[" KSquareBracketOpen.
    apply (tx_lexeme (s2l "1")); [one_digit|]. op "]" KSquareBracketClose. apply tx_stop.
  - apply ps_none.
Qed.
Lemma idx_ok : Parts (Lost := strict) (flat_map visible (idx_tokens ++ [])) idx_parts.
Proof. apply (parts_dollar_index (s2l "x") [TInt 1] (ix 1) [] []); [wint 1%Z|apply parts_nil]. Qed.

(** ** C33 *)
Definition three : list (str * list token * stmt) :=
  [ (s2l "<?php namespace A\B;", [Kw KOpenTag; Kw KNamespace; TString (s2l "A"); Kw KNsSeparator; TString (s2l "B"); Kw KSemiColon], st (SDecl (DNamespace (name_path false [s2l "A"] (s2l "B")))));
    (s2l " t", [TInlineHtml (s2l " t")], st (SEcho [ex (EString (s2l " t"))]));
    (s2l "<?php f($a);", Kw KOpenTag :: call_stmt, st (SExpr call_expr)) ].
Definition joined_source : str := s2l "<?php namespace A\B; ?> t<?php f( $a );".
Lemma three_ok : Forall (fun x => statement_source (fst (fst x)) (snd (fst x)) (snd x)) three.
Proof.
  repeat apply Forall_cons; [| | |apply Forall_nil]; (split; [read|]); cbn [fst snd flat_map visible app].
  - apply (top_namespace [s2l "A"] (s2l "B")).
  - apply top_stmt, s_weak, (s_echo [TCes (s2l " t")]), wholes_one, w_expr, acc; [apply a_string|lia].
  - apply top_stmt, call_ok.
Qed.
Lemma three_read : exists all, Source joined_source all /\ flat_map visible all = flat_map (fun x => flat_map visible (snd (fst x))) three.
Proof. match goal with |- exists _, Source ?src _ /\ _ => exists (tokens_in src) end. split; [read|vm_compute; reflexivity]. Qed.
