(** * Property C46: the tokens stand in the source where their spans say *)
From Verif Require Import Base Tokens Lexer Driver Spec SpecPlace Place.
From Coq Require Import String.
Local Open Scope string_scope. Local Open Scope list_scope.

(** The tokens of a source stand in it one behind the other *)
Theorem C46_laid : forall f src toks s, tokenize f src = DOk (toks, s) -> laid src 0 (blen src) toks.
Proof. exact tokens_laid. Qed.
Print Assumptions C46_laid.

(** So the text of a variable, a name, a comment and a piece of HTML is found where its span begins *)
Theorem C46_found : forall f src toks s t sp, tokenize f src = DOk (toks, s) -> In (t, sp) toks ->
  match t with
  | TVariable v => stands src (sp_start sp) (s2l "$" ++ v)
  | TString w | TInlineHtml w => stands src (sp_start sp) w
  | TComment w => exists o c, In (o, c) comment_marks /\ stands src (sp_start sp) (s2l o ++ w ++ s2l c)
  | Kw KEnd => False
  | _ => True
  end.
Proof. exact tokens_found. Qed.
Print Assumptions C46_found.

Example C46_example : exists s, tokenize 300 place_source = DOk
  ([(TInlineHtml (s2l "a"), mk_span 0 1); (Kw KOpenTag, mk_span 1 6); (TVariable (s2l "b"), mk_span 7 9); (Kw KEqual, mk_span 10 11);
    (TInt 31, mk_span 12 2);                                                       (* 0x1F *)
    (Kw KSemiColon, mk_span 16 17); (TComment (s2l " c"), mk_span 18 22); (Kw KEcho, mk_span 23 27);
    (Kw KDoubleQuote, mk_span 28 29); (TCes (s2l "x"), mk_span 29 30); (TVariable (s2l "y"), mk_span 30 32);
    (TCes (s2l " z"), mk_span 28 35); (Kw KDoubleQuote, mk_span 34 35);            (* the text has the span of the string *)
    (Kw KComma, mk_span 35 36); (TDouble (s2l "1.5"), mk_span 39 1);               (* 1.5 *)
    (Kw KComma, mk_span 40 41); (Kw KCastInt, mk_span 42 47); (TString (s2l "foo"), mk_span 47 50); (Kw KSemiColon, mk_span 50 51)], s)
  /\ place_source = s2l "a<?php $b = 0x1F; // c" ++ [10%N] ++ s2l "echo ""x$y z"", 1.5, (int)foo;".
Proof. exact place_case. Qed.
