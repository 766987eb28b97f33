(** * Property C38: every program of the grammar is accepted, with the tree the grammar gives *)
From Verif Require Import Base Tokens Ast AstMap Lexer Parser Driver Spec SpecProg SpecMixed SpecGrammar GrammarTop GrammarEx.
From Coq Require Import String.
Local Open Scope string_scope. Local Open Scope list_scope.

(** Sources: white space, comments and further tags are free *)
Theorem C38_source : forall src toks l, tokens_of src toks -> Program (Lost := strict) (flat_map visible toks) l ->
  parses_to src l.
Proof. exact (source_grammar strict_block strict_class strict_whole strict_stmt). Qed.
Print Assumptions C38_source.
Example C38_source_example :
  ex_source = s2l "<?php if ($a) /* c */ $x += f($b) . 's'; else { ?> t <?php }" /\
  tokens_of ex_source ex_source_toks /\ Program (Lost := strict) (flat_map visible ex_source_toks) ex_source_tree.
Proof. split; [reflexivity|]. split; [exact ex_source_tokens|exact ex_source_derivation]. Qed.

(** Token sequences *)
Theorem C38_tokens : forall toks l, behind_tag toks -> Program (Lost := strict) (map fst toks) l ->
  exists l' p, parse_top toks = POk l' p /\ strip l' = strip l.
Proof. exact (tokens_parse strict_block strict_class strict_whole strict_stmt). Qed.
Print Assumptions C38_tokens.
Example C38_tokens_example : Program (Lost := strict) ex_tokens ex_tree.
Proof. exact ex_derivation. Qed.

(** The grammar gives every token sequence one tree at most *)
Theorem C38_one_tree : forall ts l l', Program (Lost := strict) ts l -> Program (Lost := strict) ts l' -> strip l = strip l'.
Proof. exact (program_unique strict_block strict_class strict_whole strict_stmt). Qed.
Print Assumptions C38_one_tree.
Example C38_one_tree_example : exists l, Program (Lost := strict) ex_tokens l.
Proof. exists ex_tree. exact ex_derivation. Qed.
