(** * Property C37 *)
From Verif Require Import Base Tokens Ast Lexer Parser Driver SpecOrder OrderTop.
From Coq Require Import String.
Local Open Scope string_scope. Local Open Scope list_scope.

(** ** C37 *)
Theorem C37_tree_in_source_order : forall toks l p,
  parse_top toks = POk l p -> covers (items l) (map fst toks).
Proof. exact parse_top_ordered. Qed.
Print Assumptions C37_tree_in_source_order.
Theorem C37_source : forall f src l,
  parse_str f src = DOk l ->
  exists ts s, tokenize f src = DOk (ts, s) /\ covers (items l) (flat_map shown (map fst ts)).
Proof. exact parse_str_ordered. Qed.
Print Assumptions C37_source.
Theorem C37_no_more_words_than_tokens : forall toks l p,
  parse_top toks = POk l p -> List.length (items l) <= List.length toks.
Proof. exact parse_top_small. Qed.
Print Assumptions C37_no_more_words_than_tokens.
Theorem C37_no_number_twice : forall toks l p,
  parse_top toks = POk l p -> forall z, int_items z (items l) <= int_tokens z (map fst toks).
Proof. intros toks l p E z. apply covers_ints. exact (C37_tree_in_source_order toks l p E). Qed.
Print Assumptions C37_no_number_twice.

Example C37_example :
  match parse_str 200 (s2l "<?php function f(A &$x = 1) { return ($x + 2) * g('t')->h[3]; }") with
  | DOk l => items l =
      [IKw [KFunction]; IName (s2l "f"); IKw [KParenthesesOpen]; IPath (mkPath false None (s2l "A")); IKw [KAmpersand]; IVar (s2l "x");
       IKw [KEqual]; IInt 1; IKw [KParenthesesClose]; IKw [KCurlyBracesOpen]; IKw [KReturn]; IVar (s2l "x"); IKw [KPlus]; IInt 2;
       IKw [KMul]; IPath (mkPath false None (s2l "g")); IKw [KParenthesesOpen]; IText (s2l "t"); IKw [KParenthesesClose];
       IKw [KObjectOp]; IPath (mkPath false None (s2l "h")); IKw [KSquareBracketOpen]; IInt 3; IKw [KSquareBracketClose];
       IKw [KSemiColon]; IKw [KCurlyBracesClose]]
  | _ => False
  end.
Proof. vm_compute. reflexivity. Qed.
(** the order matters and no token counts twice *)
Example C37_covers_strict :
  ~ covers [IInt 1; IInt 2] [TInt 2; TInt 1] /\ ~ covers [IInt 1; IInt 1] [TInt 1].
Proof.
  split; intros C; apply covers_int_inv in C.
  - destruct C as [[E _]|C]; [discriminate E|]. apply covers_int_inv in C.
    destruct C as [[_ C]|C]; exact (covers_int_nil _ _ C).
  - destruct C as [[_ C]|C]; exact (covers_int_nil _ _ C).
Qed.
