(** * Property C45: the spans of the tree lie in each other as the tree does *)
From Verif Require Import Base Tokens Ast Lexer Parser Driver SpecSpan SpanTop.
From Coq Require Import String.
Local Open Scope string_scope. Local Open Scope list_scope.

(** Tokens that stand one behind the other, and strings that are one text or empty *)
Theorem C45_nested : forall toks l p, in_line 0 toks \/ lined 0 toks ->
  ~ In (Kw KClone) (map fst toks) -> ~ In (Kw KDollarCurlyBracesOpen) (map fst toks) ->
  parse_top toks = POk l p -> nested 0 (last_end 0 toks) (flat_map statement_regions l).
Proof. exact parsed_nested. Qed.
Print Assumptions C45_nested.

(** Sources with such tokens *)
Theorem C45_source : forall f src toks s l, tokenize f src = DOk (toks, s) -> in_line 0 (filter_tokens toks) \/ lined 0 (filter_tokens toks) ->
  ~ In (Kw KClone) (map fst toks) -> ~ In (Kw KDollarCurlyBracesOpen) (map fst toks) ->
  parse_str f src = DOk l -> nested 0 (last_end 0 (filter_tokens toks)) (flat_map statement_regions l).
Proof. exact source_nested. Qed.
Print Assumptions C45_source.
Example C45_source_example : span_source = s2l "<?php function f(&$a) { if ($a[1] > 2) { return g('x', ...$a) + \A\B; } else { foreach ($a as $k => &$v); } }" /\
  exists toks s l, tokenize 2000 span_source = DOk (toks, s) /\ parse_str 2000 span_source = DOk l /\ in_line 0 (filter_tokens toks) /\
  ~ In (Kw KClone) (map fst toks) /\ ~ In (Kw KDollarCurlyBracesOpen) (map fst toks) /\
  flat_map statement_regions l =
    [Region (mk_span 6 109)                                                        (* function f ... *)
      [Region (mk_span 24 107)                                                     (* if ... else ... *)
        [Region (mk_span 28 37)                                                    (* $a[1] > 2 *)
          [Region (mk_span 28 33) [Region (mk_span 28 30) []; Region (mk_span 31 32) []]; Region (mk_span 36 37) []];
         Region (mk_span 41 69)                                                    (* return ...; *)
          [Region (mk_span 48 68)
            [Region (mk_span 48 61) [Region (mk_span 48 49) []; Region (mk_span 50 53) []; Region (mk_span 55 60) [Region (mk_span 58 60) []]];
             Region (mk_span 64 68) []]];
         Region (mk_span 79 105)                                                   (* foreach ... *)
          [Region (mk_span 88 90) []; Region (mk_span 94 96) []; Region (mk_span 100 101) []; Region (mk_span 101 103) []; Region (mk_span 104 105) []]]]].
Proof. split; [reflexivity|exact span_case]. Qed.

Example C45_source_strings_example : exists toks s l, tokenize 2000 (s2l "<?php f("""", ""a"");") = DOk (toks, s) /\
  lined 0 (filter_tokens toks) /\ ~ in_line 0 (filter_tokens toks) /\ parse_str 2000 (s2l "<?php f("""", ""a"");") = DOk l /\
  flat_map statement_regions l = [Region (mk_span 6 17) [Region (mk_span 6 16) [Region (mk_span 6 7) []; Region (mk_span 8 10) []; Region (mk_span 12 15) []]]].
Proof. exact empty_case. Qed.

(** Sources of tokens whose spans are their texts and of strings that are one text: the spans also lie in the source *)
Theorem C45_spelled : forall f src toks s l, tokenize f src = DOk (toks, s) -> spelled toks -> parse_str f src = DOk l ->
  nested 0 (blen src) (flat_map statement_regions l).
Proof. exact spelled_source. Qed.
Print Assumptions C45_spelled.
Example C45_spelled_example : exists toks s l, tokenize 2000 (s2l "<?php echo f(""ab"", 'c')[""d""] . ""e"";") = DOk (toks, s) /\ spelled toks /\
  parse_str 2000 (s2l "<?php echo f(""ab"", 'c')[""d""] . ""e"";") = DOk l /\
  flat_map statement_regions l =
    [Region (mk_span 6 35)                                                         (* echo ... *)
      [Region (mk_span 11 34)
        [Region (mk_span 11 28)                                                    (* f("ab", 'c')["d"] *)
          [Region (mk_span 11 23) [Region (mk_span 11 12) []; Region (mk_span 13 17) []; Region (mk_span 19 22) []]; Region (mk_span 24 27) []];
         Region (mk_span 31 34) []]]].
Proof. exact string_case. Qed.

(** Without the conditions it is false *)
Theorem C45_clone_refuted : exists l, parse_str 2000 (s2l "<?php 1 + clone $a;") = DOk l /\ forall hi, ~ nested 0 hi (flat_map statement_regions l).
Proof. exact clone_unnested. Qed.
Print Assumptions C45_clone_refuted.
Theorem C45_dollar_refuted : exists l, parse_str 2000 (s2l "<?php ""ab${c}de"";") = DOk l /\ forall hi, ~ nested 0 hi (flat_map statement_regions l).
Proof. exact dollar_unnested. Qed.
Print Assumptions C45_dollar_refuted.
Theorem C45_double_refuted : exists l, parse_str 2000 (s2l "<?php 1.5 + 2;") = DOk l /\ forall hi, ~ nested 0 hi (flat_map statement_regions l).
Proof. exact double_unnested. Qed.
Print Assumptions C45_double_refuted.
Theorem C45_hex_refuted : exists l, parse_str 2000 (s2l "<?php 0xff + 2;") = DOk l /\ forall hi, ~ nested 0 hi (flat_map statement_regions l).
Proof. exact hex_unnested. Qed.
Print Assumptions C45_hex_refuted.
