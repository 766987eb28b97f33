(** * Property C44: the sources on which the parser cannot panic *)
From Verif Require Import Base Tokens Ast Lexer Parser Driver Spec SpecGrammar SpecMixed SpecText SpecPanic SafeMain SafeEx.
From Coq Require Import String.
Local Open Scope string_scope. Local Open Scope list_scope.

(** On tokens that are not suspect the parser does not panic *)
Theorem C44_tokens : forall toks p, behind_tag toks -> ~ suspect (map fst toks) -> parse_top toks <> PPanic p.
Proof. exact tokens_safe. Qed.
Print Assumptions C44_tokens.
Example C44_tokens_example : exists toks, behind_tag toks /\ map fst toks = flat_map visible plus_tokens /\ ~ suspect (map fst toks) /\ exists e q, parse_top toks = PErr e q.
Proof.
  exists (map (fun t => (t, mk_span 6 7)) (flat_map visible plus_tokens)). split; [apply Forall_forall; intros t I; apply in_map_iff in I as (x & <- & _); cbn; auto with arith|].
  assert (M : map fst (map (fun t => (t, mk_span 6 7)) (flat_map visible plus_tokens)) = flat_map visible plus_tokens) by (rewrite map_map; apply map_id).
  split; [exact M|]. split; [rewrite M; exact plus_safe|]. eexists. eexists. vm_compute. reflexivity.
Qed.

(** A source that can be read and whose tokens are not suspect is parsed, or an error in
    the program is reported *)
Theorem C44_sources : forall src ts, Source src ts -> ~ suspect (flat_map visible ts) ->
  exists F, (exists l, forall f, F <= f -> parse_str f src = DOk l) \/
            (exists e, (forall f, F <= f -> parse_str f src = DErr e) /\ se_syntax e = None).
Proof. exact source_safe. Qed.
Print Assumptions C44_sources.
Example C44_sources_example : Source plus_source plus_tokens /\ ~ suspect (flat_map visible plus_tokens).
Proof. split; [exact plus_source_tokens|exact plus_safe]. Qed.

(** So the rules name every source on which a run can panic *)
Theorem C44_panics : forall src f p, Forall scalar src -> ~ Unread src Panics ->
  (forall ts, Source src ts -> ~ suspect (flat_map visible ts)) -> parse_str f src <> DPanic p.
Proof. exact never_panics. Qed.
Print Assumptions C44_panics.
Example C44_panics_example : Forall scalar plus_source /\ ~ Unread plus_source Panics /\ forall ts, Source plus_source ts -> ~ suspect (flat_map visible ts).
Proof. exact plus_never. Qed.
(** a source that panics for each of the reasons of SpecPanic.v *)
Example C44_reasons_example : Forall (fun src => exists p, parse_str 100 src = DPanic p) panicking.
Proof. exact they_panic. Qed.
