(** * PropertiesProg: properties about whole programs *)
From Verif Require Import Base Tokens Ast AstMap Lexer Parser Printer Driver Spec SpecProg ProgOps ProgNames.
From Coq Require Import String. Local Open Scope string_scope. Local Open Scope list_scope.

(** ** C19 *)
(** [show_tree]: the text of a tree with as few parentheses as the precedence table [binops] allows *)
Theorem C19_precedence : forall t, otree_ok t ->
  parses_to (s2l "<?php " ++ show_tree 0 t ++ s2l ";") [St (SExpr (tree_expr t)) span_new].
Proof. exact ops_program. Qed.
Print Assumptions C19_precedence.
Theorem C19_unique_tree : forall t t', otree_ok t -> otree_ok t' -> show_tree 0 t = show_tree 0 t' -> tree_expr t = tree_expr t'.
Proof. exact ops_unique. Qed.
Print Assumptions C19_unique_tree.

Definition ex_op (b : nat) : binop := nth b binops (mkBinop "" OOr 0 false).
(** $a - ($b - $c) * $d ** $e ** $f *)
Definition ex_tree : otree :=
  let v (x : string) := OLeaf (s2l x) in
  ONode (ex_op 21) (v "a") (ONode (ex_op 23) (ONode (ex_op 21) (v "b") (v "c")) (ONode (ex_op 26) (v "d") (ONode (ex_op 26) (v "e") (v "f")))).
Example C19_example : otree_ok ex_tree /\ show_tree 0 ex_tree = s2l "$a - ($b - $c) * $d ** $e ** $f".
Proof. split; [cbn; tauto|reflexivity]. Qed.

(** ** C30 *)
Theorem C30_names : forall abs ns a, forallb plain_word (ns ++ [a]) = true -> ns <> [] \/ const_name a = None ->
  parses_to (s2l "<?php " ++ name_text abs (ns ++ [a]) ++ s2l ";") (expr_program (EPath (name_path abs ns a))).
Proof. exact name_program. Qed.
Print Assumptions C30_names.
(** the other names of one fragment are true, false and null *)
Theorem C30_constants : forall abs a c, plain_word a = true -> const_name a = Some c ->
  parses_to (s2l "<?php " ++ name_text abs [a] ++ s2l ";") (expr_program (EConst c)).
Proof. exact const_program. Qed.
Print Assumptions C30_constants.
Theorem C30_printed : forall abs ns a, render (pr_path (name_path abs ns a)) = Some (name_text abs (ns ++ [a])).
Proof. exact name_prints. Qed.
Print Assumptions C30_printed.
Theorem C30_imports : forall abs ns a alias, forallb plain_word (ns ++ [a]) = true -> (forall b, alias = Some b -> plain_word b = true) ->
  parses_to (s2l "<?php use " ++ name_text abs (ns ++ [a]) ++ match alias with Some b => s2l " as " ++ b | None => [] end ++ s2l ";")
    [St (SUse [QualifiedName (name_path abs ns a) alias]) span_new].
Proof. exact use_program. Qed.
Print Assumptions C30_imports.
Theorem C30_namespaces : forall ns a, forallb plain_word (ns ++ [a]) = true ->
  parses_to (s2l "<?php namespace " ++ name_text false (ns ++ [a]) ++ s2l ";") [St (SDecl (DNamespace (name_path false ns a))) span_new].
Proof. exact namespace_program. Qed.
Print Assumptions C30_namespaces.

Example C30_example : forallb plain_word [s2l "App"; s2l "Http"; s2l "Kernel"] = true /\
  name_text true [s2l "App"; s2l "Http"; s2l "Kernel"] = s2l "\App\Http\Kernel" /\
  name_path true [s2l "App"; s2l "Http"] (s2l "Kernel") = mkPath true (Some (s2l "App\Http")) (s2l "Kernel") /\
  plain_word (s2l "TRUE") = true /\ const_name (s2l "TRUE") = Some CTrue /\ const_name (s2l "Kernel") = None.
Proof. repeat split. Qed.
