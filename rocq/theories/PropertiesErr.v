(** * Properties C39, C40 and C50: where broken programs are rejected, and what is dropped *)
From Verif Require Import Base Tokens Ast AstMap Lexer Parser Driver Spec SpecProg SpecMixed SpecGrammar SpecErr ErrTop ErrEx.
From Coq Require Import String.
Local Open Scope string_scope. Local Open Scope list_scope.

(** C39: the error is at the first token that does not fit *)
Theorem C39_source : forall src f ts s pre u rest,
  tokenize f src = DOk (ts, s) -> breaks (flat_map visible (map fst ts)) pre u rest ->
  exists e, parse_str f src = DErr e /\ reported_at ts (List.length (pre ++ u)) e.
Proof. exact source_breaks. Qed.
Print Assumptions C39_source.
Example C39_source_example :
  bad_source = s2l "<?php f(); class A { function g() { if ($b) return 2 ) }" /\
  tokenize 200 bad_source = DOk (toks_of 200 bad_source, match tokenize 200 bad_source with DOk (_, s) => s | _ => tst_init end) /\
  breaks (flat_map visible (map fst (toks_of 200 bad_source))) bad_before bad_part bad_rest /\
  nth_error (visible_spans (toks_of 200 bad_source)) (List.length (bad_before ++ bad_part)) = Some (Kw KParenthesesClose, mk_span 53 54).
Proof. split; [reflexivity|]. split; [vm_compute; reflexivity|]. split; [exact bad_breaks|vm_compute; reflexivity]. Qed.

Example C39_source_example_call :
  call_source = s2l "<?php $x = f(1, [2, 3; g();" /\
  tokenize 100 call_source = DOk (toks_of 100 call_source, match tokenize 100 call_source with DOk (_, s) => s | _ => tst_init end) /\
  breaks (flat_map visible (map fst (toks_of 100 call_source))) [] call_part call_rest /\
  nth_error (visible_spans (toks_of 100 call_source)) (List.length call_part) = Some (Kw KSemiColon, mk_span 21 22).
Proof. split; [reflexivity|]. split; [vm_compute; reflexivity|]. split; [exact call_breaks|vm_compute; reflexivity]. Qed.
Example C39_source_example_operand :
  op_source = s2l "<?php while ($a && $b + ; g();" /\
  tokenize 100 op_source = DOk (toks_of 100 op_source, match tokenize 100 op_source with DOk (_, s) => s | _ => tst_init end) /\
  breaks (flat_map visible (map fst (toks_of 100 op_source))) [] op_part call_rest /\
  nth_error (visible_spans (toks_of 100 op_source)) (List.length op_part) = Some (Kw KSemiColon, mk_span 24 25).
Proof. split; [reflexivity|]. split; [vm_compute; reflexivity|]. split; [exact op_breaks|vm_compute; reflexivity]. Qed.
Example C39_source_example_operators :
  two_source = s2l "<?php f(1, $a . $b . * $c);" /\
  tokenize 100 two_source = DOk (toks_of 100 two_source, match tokenize 100 two_source with DOk (_, s) => s | _ => tst_init end) /\
  breaks (flat_map visible (map fst (toks_of 100 two_source))) [] two_part two_rest /\
  nth_error (visible_spans (toks_of 100 two_source)) (List.length two_part) = Some (Kw KMul, mk_span 21 22).
Proof. split; [reflexivity|]. split; [vm_compute; reflexivity|]. split; [exact two_breaks|vm_compute; reflexivity]. Qed.
Example C39_source_example_member :
  member_source = s2l "<?php class A extends B { const X = 1, Y = [2; }" /\
  tokenize 100 member_source = DOk (toks_of 100 member_source, match tokenize 100 member_source with DOk (_, s) => s | _ => tst_init end) /\
  breaks (flat_map visible (map fst (toks_of 100 member_source))) [] member_part member_rest /\
  nth_error (visible_spans (toks_of 100 member_source)) (List.length member_part) = Some (Kw KSemiColon, mk_span 45 46).
Proof. split; [reflexivity|]. split; [vm_compute; reflexivity|]. split; [exact member_breaks|vm_compute; reflexivity]. Qed.
(** inside of a string *)
Example C39_source_example_text :
  tokenize 100 text_source = DOk (toks_of 100 text_source, match tokenize 100 text_source with DOk (_, s) => s | _ => tst_init end) /\
  text_source = s2l "<?php echo ""n $a->b {$c}${d}${e[2]} {$f(1 }"";" /\
  breaks (flat_map visible (map fst (toks_of 100 text_source))) [] text_part text_rest /\
  option_map (fun t => (fst t, sp_start (snd t), sp_end (snd t))) (nth_error (visible_spans (toks_of 100 text_source)) (List.length text_part)) = Some (Kw KCurlyBracesClose, 42, 43).
Proof. split; [vm_compute; reflexivity|]. split; [reflexivity|]. split; [exact text_breaks|vm_compute; reflexivity]. Qed.

(** Token sequences *)
Theorem C39_tokens : forall toks pre u rest, behind_tag toks -> breaks (map fst toks) pre u rest ->
  exists e p, parse_top toks = PErr e p /\ err_pos e = List.length (pre ++ u).
Proof. exact tokens_break_strict. Qed.
Print Assumptions C39_tokens.
Example C39_tokens_example : breaks cut_tokens [] cut_tokens [].
Proof. exact cut_breaks. Qed.
Example C39_tokens_example_lists : breaks (use_part ++ use_rest) [] use_part use_rest /\ breaks (lists_part ++ lists_rest) [] lists_part lists_rest.
Proof. split; [exact use_breaks|exact lists_breaks]. Qed.

(** Such a sequence belongs to no program of the grammar of C38, and there is one place
    only where it breaks *)
Theorem C39_no_program : forall ts pre u rest l, breaks ts pre u rest -> ~ Program (Lost := strict) ts l.
Proof. exact broken_no_program. Qed.
Print Assumptions C39_no_program.
Theorem C39_one_place : forall ts pre u rest pre' u' rest', breaks ts pre u rest -> breaks ts pre' u' rest' ->
  rest = rest' /\ pre ++ u = pre' ++ u'.
Proof. exact broken_once. Qed.
Print Assumptions C39_one_place.
Example C39_one_place_example : breaks (flat_map visible (map fst (toks_of 100 two_source))) [] two_part two_rest.
Proof. exact two_breaks. Qed.

(** C40: what is broken directly before a closing brace is dropped and the rest accepted *)
Theorem C40_source : forall n src toks l, tokens_of src toks -> Program (Lost := lost n) (flat_map visible toks) l ->
  parses_to src l.
Proof. exact lost_source. Qed.
Print Assumptions C40_source.
Example C40_source_example :
  lost_source_ex = s2l "<?php class A { function f() { g(); return 1 } public $p = 2 }" /\
  tokens_of lost_source_ex lost_toks /\ Program (Lost := lost 1) (flat_map visible lost_toks) lost_tree.
Proof. split; [reflexivity|]. split; [exact lost_tokens_ex|exact lost_derivation]. Qed.

Theorem C40_tokens : forall n toks l, behind_tag toks -> Program (Lost := lost n) (map fst toks) l ->
  exists l' p, parse_top toks = POk l' p /\ strip l' = strip l.
Proof. exact lost_tokens. Qed.
Print Assumptions C40_tokens.
Example C40_tokens_example : Program (Lost := lost 1) (flat_map visible lost_toks) lost_tree.
Proof. exact lost_derivation. Qed.

(** C50: an operator that lacks its last operand is dropped, in the place of any
    expression; before a semicolon also an index, a property, a call and an array that is
    not closed *)
Theorem C50_source : forall n src toks l, tokens_of src toks -> Program (Lost := cut_expressions n) (flat_map visible toks) l ->
  parses_to src l.
Proof. exact cut_source. Qed.
Print Assumptions C50_source.
Example C50_source_example :
  cut_source_ex = s2l "<?php $x = $a + ; if ($a && ) { f($b * , !$a - ); } return $a ? $b : ;" /\
  tokens_of cut_source_ex cut_toks /\ Program (Lost := cut_expressions 1) (flat_map visible cut_toks) cut_tree.
Proof. split; [reflexivity|]. split; [exact cut_tokens_ex|exact cut_derivation]. Qed.
Example C50_source_example_inside :
  inside_source = s2l "<?php echo ""{$a . } b"";" /\ tokens_of inside_source inside_toks /\ Program (Lost := cut_expressions 1) (flat_map visible inside_toks) inside_tree.
Proof. split; [reflexivity|]. split; [exact inside_tokens_ex|exact inside_derivation]. Qed.
Example C50_source_example_unclosed :
  unclosed_source = s2l "<?php while ($a) { $a->b[1 . ; return f($a, [2; }" /\
  tokens_of unclosed_source unclosed_toks /\ Program (Lost := cut_expressions 1) (flat_map visible unclosed_toks) unclosed_tree /\
  unclosed_tree = let a := ex (EVar (VName (s2l "a"))) in [st (SWhile a [st (SExpr (ex (EObjMember a [word_expr (s2l "b")]))); st (SReturn None)])].
Proof. split; [reflexivity|]. split; [exact unclosed_tokens_ex|]. split; [exact unclosed_derivation|reflexivity]. Qed.
Example C50_source_example_classless :
  classless_source = s2l "<?php if ($a instanceof ) { return clone $b * ; }" /\
  tokens_of classless_source classless_toks /\ Program (Lost := cut_expressions 1) (flat_map visible classless_toks) classless_tree.
Proof. split; [reflexivity|]. split; [exact classless_tokens_ex|exact classless_derivation]. Qed.

Theorem C50_tokens : forall n toks l, behind_tag toks -> Program (Lost := cut_expressions n) (map fst toks) l ->
  exists l' p, parse_top toks = POk l' p /\ strip l' = strip l.
Proof. exact ErrTop.cut_tokens. Qed.
Print Assumptions C50_tokens.
Example C50_tokens_example : Program (Lost := cut_expressions 1) (flat_map visible cut_toks) cut_tree.
Proof. exact cut_derivation. Qed.
