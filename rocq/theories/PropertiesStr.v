(** * PropertiesStr: printed string literals *)
From Verif Require Import Base Tokens Ast AstMap Lexer Parser Printer Driver Spec SpecProg SpecRT StrFacts.
From Coq Require Import String. Local Open Scope string_scope. Local Open Scope list_scope.

(** ** C21 *)
(** The tokenizer stands before the printed form [p] of the string literal [s], followed
    by any [r]: it reads exactly the literal [s] and stops before [r] iff no two
    backslashes of [s] are adjacent. *)
Theorem C21_printed_literal : forall sf n s sp p code st r,
  render (pr_expr sf n (Ex (EString s) sp)) = Some p -> Forall scalar (s ++ r) -> reading code st (p ++ r) ->
  reads code st (TCes s) r <-> two_backslashes s = false.
Proof. exact printed_literal_iff. Qed.
Print Assumptions C21_printed_literal.
(** every string can be printed *)
Theorem C21_printable : forall sf n s sp, exists p, render (pr_expr sf n (Ex (EString s) sp)) = Some p.
Proof. intros. eexists. apply string_render. Qed.
Print Assumptions C21_printable.
(** Whole programs: printed, read and parsed again.  Without [']-characters both
    directions hold; with them see C20 for "if" and [C21_printed_literal] for "only if". *)
Theorem C21_program : forall sf s, Forall scalar s -> ~ In 39%N s ->
  survives sf (expr_program (EString s)) <-> two_backslashes s = false.
Proof. exact string_program_iff. Qed.
Print Assumptions C21_program.

Example C21_example :
  two_backslashes (s2l "it's a \n'") = false /\ two_backslashes (s2l "a\\'b") = true /\
  render (pr_expr (fun d => d) 0 (Ex (EString (s2l "it's a \n'")) span_new)) = Some (s2l "'it\'s a \n\''") /\
  render (pr_expr (fun d => d) 0 (Ex (EString (s2l "a\\'b")) span_new)) = Some (s2l "'a\\\\'b'") /\
  reading (s2l "'it\'s a \n\'' . $x") (mkTst 0 LInScripting [] 1 [0] false []) (s2l "'it\'s a \n\'' . $x").
Proof. repeat split; try reflexivity. exists []. split; reflexivity. Qed.
