(** * Property C41: from the characters of a source to its tree *)
From Verif Require Import Base Tokens Ast AstMap Lexer Parser Driver Spec SpecProg SpecMixed SpecErr SpecText SpecGrammar GrammarEx TextMain2 TextEx.
From Coq Require Import String.
Local Open Scope string_scope. Local Open Scope list_scope.

(** The tokenizer reads the tokens that the rules of SpecText.v give *)
Theorem C41_tokens : forall src ts, Source src ts -> tokens_of src ts.
Proof. exact source_tokens. Qed.
Print Assumptions C41_tokens.
Example C41_tokens_example : doc_source = s2l "<?php <<<T" ++ [10%N] ++ s2l "a$b" ++ [10%N] ++ s2l "T;" ++ [10%N] /\
  Source doc_source [Kw KOpenTag; Kw KHereDocStart; TCes (s2l "a"); TVariable (s2l "b"); Kw KHereDocEnd; Kw KSemiColon].
Proof. split; [reflexivity|exact doc_derived]. Qed.

(** Programs of the grammar, written down in any way *)
Theorem C41_source : forall src ts l, Source src ts -> Program (Lost := strict) (flat_map visible ts) l -> parses_to src l.
Proof. exact source_program. Qed.
Print Assumptions C41_source.
Example C41_source_example :
  text_source = s2l "<?php /* c */ echo $a->class, ""n {$b[1]}$c""; ?> t" /\
  Source text_source text_tokens /\ Program (Lost := strict) (flat_map visible text_tokens) text_tree.
Proof. split; [reflexivity|]. split; [exact text_derived|exact text_derivation]. Qed.

Example C41_echo_example : echo_source = s2l "t<?=1;" /\ Source echo_source echo_tokens /\
  Program (Lost := strict) (flat_map visible echo_tokens) [st (SEcho [ex (EString (s2l "t"))]); st (SEcho [ix 1])].
Proof. split; [reflexivity|]. split; [exact echo_derived|exact echo_derivation]. Qed.

(** Broken beginnings in front of closing braces *)
Theorem C41_dropped : forall n src ts l, Source src ts -> Program (Lost := lost n) (flat_map visible ts) l -> parses_to src l.
Proof. exact source_dropped. Qed.
Print Assumptions C41_dropped.
Example C41_dropped_example :
  drop_source = s2l "<?php {; return 1}" /\ Source drop_source drop_tokens /\ Program (Lost := lost 1) (flat_map visible drop_tokens) [st (SBlock [st SNone])].
Proof. split; [reflexivity|]. split; [exact drop_derived|exact drop_derivation]. Qed.

(** Broken programs *)
Theorem C41_rejected : forall src ts pre u rest, Source src ts -> breaks (flat_map visible ts) pre u rest ->
  exists F, forall f, F <= f -> exists toks s e, tokenize f src = DOk (toks, s) /\ parse_str f src = DErr e /\ reported_at toks (List.length (pre ++ u)) e.
Proof. exact source_rejected. Qed.
Print Assumptions C41_rejected.
Example C41_rejected_example :
  fail_source = s2l "<?php ; return 1] // c" /\ Source fail_source (Kw KOpenTag :: fail_tokens) /\ breaks (flat_map visible (Kw KOpenTag :: fail_tokens)) [Kw KSemiColon] [Kw KReturn; TInt 1] [Kw KSquareBracketClose].
Proof. split; [reflexivity|]. split; [exact fail_derived|exact fail_breaks]. Qed.
(** HTML and a tag with echo whose expression is not ended *)
Example C41_rejected_example_html :
  open_source = s2l "t<?=1]" /\ Source open_source open_tokens /\ breaks (flat_map visible open_tokens) [Kw KEcho; TCes (s2l "t"); Kw KSemiColon] [Kw KEcho; TInt 1] [Kw KSquareBracketClose].
Proof. split; [reflexivity|]. split; [exact open_derived|exact open_breaks]. Qed.

(** The rules give every source one sequence of tokens at most *)
Theorem C41_one_reading : forall src ts ts', Source src ts -> Source src ts' -> ts = ts'.
Proof. exact source_unique. Qed.
Print Assumptions C41_one_reading.
Example C41_one_reading_example : exists ts, Source text_source ts.
Proof. exists text_tokens. exact text_derived. Qed.
