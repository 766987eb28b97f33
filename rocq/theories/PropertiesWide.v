(** * Properties C19, C28, C29, C31 and C33 for all expressions and statements of the grammar, however they are written down *)
From Verif Require Import Base Tokens Ast Spec SpecProg SpecCtl SpecText SpecGrammar SpecWide GrammarEx Wide WideEx.
From Coq Require Import String.
Local Open Scope string_scope. Local Open Scope list_scope.

(** ** C19: operators over any operands *)
Theorem C19_any_operands : forall t src all, wtree_ok t -> Source src all -> flat_map visible all = wtokens 1 t ++ [Kw KSemiColon] ->
  parses_to src [st (SExpr (wexpr t))].
Proof. exact operators_parse. Qed.
Print Assumptions C19_any_operands.
Example C19_any_operands_example : op_source = s2l "<?php f($a) - ($b . 's') * (-$c) ** 2 ** $d && $e == ($g ?: 1);" /\ wtree_ok op_tree /\
  exists all, Source op_source all /\ flat_map visible all = wtokens 1 op_tree ++ [Kw KSemiColon].
Proof. split; [reflexivity|]. split; [exact op_ok|exact op_read]. Qed.

(** ** C28: chains of any conditions and bodies *)
Theorem C28_any_chain : forall x l el src all, chain_ok x l el -> Source src all -> flat_map visible all = chain_tokens x l el ->
  parses_to src [chain_tree x l el].
Proof. exact chains_parse. Qed.
Print Assumptions C28_any_chain.
Example C28_any_chain_example :
  if_source = s2l "<?php if ($a) while ($b) ; elseif (f($a)) { f($a) /* c */ ; } else if (1) return; else if ($d) f($a);" /\ chain_ok if_first if_more if_last /\
  exists all, Source if_source all /\ flat_map visible all = chain_tokens if_first if_more if_last.
Proof. split; [reflexivity|]. split; [exact if_ok|exact if_read]. Qed.

(** ** C29: switches over any values and statements *)
Theorem C29_any_switch : forall te e l cs src all, Whole (Lost := strict) 1 te e -> Forall wlabel_ok l -> grouped (map bare_label l) cs ->
  Source src all -> flat_map visible all = switch_tokens te l -> parses_to src [st (SSwitch e cs)].
Proof. exact switches_parse. Qed.
Print Assumptions C29_any_switch.
Example C29_any_switch_example : sw_source = s2l "<?php switch ($a) { case 1: case f($a); if ($x) f($a); default: case 2: ; default: return; case 4: }" /\
  Whole (Lost := strict) 1 (v "a") (vx "a") /\ Forall wlabel_ok sw_labels /\ grouped (map bare_label sw_labels) sw_cases /\
  exists all, Source sw_source all /\ flat_map visible all = switch_tokens (v "a") sw_labels.
Proof. split; [reflexivity|]. split; [wvar "a"|]. split; [exact sw_ok|]. split; [exact sw_grouped|exact sw_read]. Qed.

(** ** C31: strings and heredocs with any code in them *)
Theorem C31_any_string : forall text us b l e es, Pieces Quotes [] (text ++ s2l """;") us b (s2l """;") -> Literal b l ->
  Parts (Lost := strict) (flat_map visible (us ++ l)) (e :: es) ->
  parses_to (s2l "<?php echo """ ++ text ++ s2l """;") [st (SEcho [concatenation e es])].
Proof. exact strings_parse. Qed.
Print Assumptions C31_any_string.
Theorem C31_any_heredoc : forall tag text us b l e es, name_ok tag = true ->
  Pieces (Doc tag) [] (text ++ [10%N] ++ tag ++ s2l ";" ++ [10%N]) us b ([10%N] ++ tag ++ s2l ";" ++ [10%N]) -> Literal b l ->
  Parts (Lost := strict) (flat_map visible (us ++ l)) (e :: es) ->
  parses_to (s2l "<?php echo <<<" ++ tag ++ [10%N] ++ text ++ [10%N] ++ tag ++ s2l ";" ++ [10%N]) [st (SEcho [concatenation e es])].
Proof. exact heredocs_parse. Qed.
Print Assumptions C31_any_heredoc.
Example C31_any_example : str_text = s2l "n {$b[1] /* c */}$c." /\
  Pieces Quotes [] (str_text ++ s2l """;") str_tokens (s2l ".") (s2l """;") /\
  Pieces (Doc (s2l "T")) [] (str_text ++ [10%N] ++ s2l "T" ++ s2l ";" ++ [10%N]) str_tokens (s2l ".") ([10%N] ++ s2l "T" ++ s2l ";" ++ [10%N]) /\
  Literal (s2l ".") [TCes (s2l ".")] /\ Parts (Lost := strict) (flat_map visible (str_tokens ++ [TCes (s2l ".")])) str_parts.
Proof. split; [reflexivity|]. split; [apply str_pieces; auto|]. split; [apply str_pieces; auto|]. split; [exact str_literal|exact str_ok]. Qed.
Example C31_any_example_index : idx_text = s2l "${x[1]}" /\ Pieces Quotes [] (idx_text ++ s2l """;") idx_tokens [] (s2l """;") /\ Literal [] [] /\
  Parts (Lost := strict) (flat_map visible (idx_tokens ++ [])) idx_parts /\ idx_parts = [ex (EArrayIdx (vx "x") [Some (ix 1)])].
Proof. split; [reflexivity|]. split; [exact idx_pieces|]. split; [constructor|]. split; [exact idx_ok|reflexivity]. Qed.

(** ** C33: sources one by one and their tokens in sequence *)
Theorem C33_any_sources : forall (l : list (str * list token * stmt)) src all, l <> [] -> Forall (fun x => statement_source (fst (fst x)) (snd (fst x)) (snd x)) l ->
  Source src all -> flat_map visible all = flat_map (fun x => flat_map visible (snd (fst x))) l ->
  Forall (fun x => parses_to (fst (fst x)) [snd x]) l /\ parses_to src (map snd l).
Proof. exact one_by_one. Qed.
Print Assumptions C33_any_sources.
Example C33_any_sources_example : joined_source = s2l "<?php namespace A\B; ?> t<?php f( $a );" /\
  map (fun x => fst (fst x)) three = [s2l "<?php namespace A\B;"; s2l " t"; s2l "<?php f($a);"] /\
  Forall (fun x => statement_source (fst (fst x)) (snd (fst x)) (snd x)) three /\
  exists all, Source joined_source all /\ flat_map visible all = flat_map (fun x => flat_map visible (snd (fst x))) three.
Proof. split; [reflexivity|]. split; [reflexivity|]. split; [exact three_ok|exact three_read]. Qed.
