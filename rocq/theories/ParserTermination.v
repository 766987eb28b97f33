(** * ParserTermination: progress of every parser function and adequacy of the fuel (C01) *)
From Verif Require Import Base Tokens Ast Parser Wp.

Section Term.
Variable toks : list tokspan.
Notation len := (List.length toks).

(** success consumes at least one token; the position never moves back *)
Definition strict {A} (m : P A) (p : nat) : Prop :=
  wp m p (fun _ p' => p < len /\ p < p') (fun _ p' => p <= p').
(** the position never moves back *)
Definition forw {A} (m : P A) (p : nat) : Prop :=
  wp m p (fun _ p' => p <= p') (fun _ p' => p <= p').

Lemma strict_use {A} (m : P A) p (Q : A -> nat -> Prop) (E : perror -> nat -> Prop) :
  strict m p -> (forall a p', p < len -> p < p' -> Q a p') -> (forall e p', p <= p' -> E e p') -> wp m p Q E.
Proof. intros H HQ HE. eapply wp_mono; [exact H| |]; cbv beta; intros; [apply HQ; lia|auto]. Qed.
Lemma forw_use {A} (m : P A) p (Q : A -> nat -> Prop) (E : perror -> nat -> Prop) :
  forw m p -> (forall a p', p <= p' -> Q a p') -> (forall e p', p <= p' -> E e p') -> wp m p Q E.
Proof. intros H HQ HE. eapply wp_mono; [exact H| |]; cbv beta; intros; auto. Qed.

Create HintDb term.
Ltac arith := cbn in *; lia.
Ltac use := first
  [ apply strict_use; [ solve [ eauto 3 with term ] | intros ? ? ? ? | intros ? ? ? ]
  | apply forw_use; [ solve [ eauto 3 with term ] | intros ? ? ? | intros ? ? ? ] ].
Ltac st :=
  match goal with
  | |- strict _ _ => unfold strict
  | |- forw _ _ => unfold forw
  | |- wp (pbind _ _) _ _ _ => apply wp_bind
  | |- wp (pcatch _ _ _) _ _ _ => apply wp_catch
  | |- wp (deepest _ _ _) _ _ _ => apply wp_deepest
  | |- wp (deepest_unpack _) _ _ _ => apply wp_deepest_unpack; intros
  | |- wp (pret _) _ _ _ => apply wp_ret
  | |- wp (perr _) _ _ _ => apply wp_err
  | |- wp (pthrow _) _ _ _ => apply wp_throw
  | |- wp (ppanic _) _ _ _ => apply wp_panic
  | |- wp getpos _ _ _ => apply wp_getpos
  | |- wp (setpos _) _ _ _ => apply wp_setpos
  | |- wp adv _ _ _ => apply wp_adv
  | |- wp (unwrap_p _) _ _ _ => apply wp_unwrap; intros
  | |- wp (psub _ _) _ _ _ => apply wp_psub; intros
  | |- wp (peek _) _ _ _ => apply wp_peek
  | |- wp (span_at _ _) _ _ _ => apply wp_span_at; intros
  | |- wp (prev_end _) _ _ _ => apply wp_prev_end; intros
  | |- wp (look _ _ _ _) _ _ _ => apply wp_look; [intros ? ? ?|]
  | |- wp (look_var _ _ _) _ _ _ => apply wp_look_var; [intros ? ? ? ?|]
  | |- wp (look_string _ _ _) _ _ _ => apply wp_look_string; [intros ? ? ? ?|]
  | |- wp (look_ces _ _ _) _ _ _ => apply wp_look_ces; [intros ? ? ? ?|]
  | |- wp (sees _ _) _ _ _ => apply wp_sees; intros
  | |- _ => use
  | |- wp (match ?x with _ => _ end) _ _ _ => let E := fresh "E" in destruct x eqn:E; try (apply nth_lt in E)
  | |- wp (let (_, _) := ?x in _) _ _ _ => destruct x
  | |- _ => progress cbv beta zeta
  end.
Ltac go := repeat st; try solve [cbn in *; lia].
Hint Extern 5 (_ <= _) => lia : term.
Hint Extern 5 (_ < _) => lia : term.

Lemma expect_s k p : strict (expect toks k) p.
Proof. unfold expect. go. Qed.
Lemma expect_var_s p : strict (expect_var toks) p.
Proof. unfold expect_var. go. Qed.
Lemma expect_string_s p : strict (expect_string toks) p.
Proof. unfold expect_string. go. Qed.
Lemma expect_or_s k e p : strict (expect_or toks k e) p.
Proof. unfold expect_or. destruct e; go. Qed.
Hint Resolve expect_s expect_var_s expect_string_s expect_or_s : term.
Lemma parse_simple_variable_s p : strict (parse_simple_variable toks) p.
Proof. unfold parse_simple_variable. go. Qed.
Hint Resolve parse_simple_variable_s : term.
Lemma parse_simple_variable_expr_s p : strict (parse_simple_variable_expr toks) p.
Proof. unfold parse_simple_variable_expr. go. Qed.
Hint Resolve parse_simple_variable_expr_s : term.
Lemma parse_is_ref_f p : forw (parse_is_ref toks) p.
Proof. unfold parse_is_ref. go. Qed.
Lemma parse_is_variadic_f p : forw (parse_is_variadic toks) p.
Proof. unfold parse_is_variadic. go. Qed.
Hint Resolve parse_is_ref_f parse_is_variadic_f : term.

Lemma ns_fragments_s n : forall acc p, len - p < n -> strict (ns_fragments toks n acc) p.
Proof. induction n; intros acc p L; [lia|]. cbn [ns_fragments]. go. Qed.
Hint Resolve ns_fragments_s : term.
Hint Extern 6 (_ - _ < lf _) => unfold lf : term.
Hint Extern 5 (_ - _ < _) => unfold lf; lia : term.
Lemma parse_namespace_name_s p : strict (parse_namespace_name toks) p.
Proof. unfold parse_namespace_name. go. Qed.
Hint Resolve parse_namespace_name_s : term.
Lemma parse_name_s p : strict (parse_name toks) p.
Proof. unfold parse_name. go. Qed.
Hint Resolve parse_name_s : term.
Lemma parse_name_as_expr_s p : strict (parse_name_as_expr toks) p.
Proof. unfold parse_name_as_expr. go. Qed.
Hint Resolve parse_name_as_expr_s : term.
Lemma name_list_s n : forall acc p, len - p < n -> strict (name_list toks n acc) p.
Proof. induction n; intros acc p L; [lia|]. cbn [name_list]. go. Qed.
Hint Resolve name_list_s : term.
Lemma parse_name_list_s p : strict (parse_name_list toks) p.
Proof. unfold parse_name_list. go. Qed.
Hint Resolve parse_name_list_s : term.
Lemma parse_class_name_s p : strict (parse_class_name toks) p.
Proof. unfold parse_class_name. go. Qed.
Hint Resolve parse_class_name_s : term.
Lemma parse_identifier_s p : strict (parse_identifier toks) p.
Proof. unfold parse_identifier. go. Qed.
Hint Resolve parse_identifier_s : term.
Lemma parse_identifier_as_expr_s p : strict (parse_identifier_as_expr toks) p.
Proof. unfold parse_identifier_as_expr. go. Qed.
Hint Resolve parse_identifier_as_expr_s : term.
Lemma parse_constant_s p : strict (parse_constant toks) p.
Proof. unfold parse_constant. go. Qed.
Hint Resolve parse_constant_s : term.
Lemma member_mods_f n : forall acc p, len - p < n -> forw (member_mods toks n acc) p.
Proof. induction n; intros acc p L; [lia|]. cbn [member_mods]. go. Qed.
Hint Resolve member_mods_f : term.
Lemma parse_member_modifiers_f p : forw (parse_member_modifiers toks) p.
Proof. unfold parse_member_modifiers. go. Qed.
Hint Resolve parse_member_modifiers_f : term.
Lemma patmr_s p : strict (parse_absolute_trait_method_reference toks) p.
Proof. unfold parse_absolute_trait_method_reference. go. Qed.
Hint Resolve patmr_s : term.
Lemma class_mods_f n : forall acc p, len - p < n -> forw (class_mods toks n acc) p.
Proof. induction n; intros acc p L; [lia|]. cbn [class_mods]. go. Qed.
Hint Resolve class_mods_f : term.

Section Knot.
Variables (pe : nat -> P expr) (ps : P stmt) (p0 : nat).
Hypothesis Hpe : forall prec p, p0 < p -> p0 < len -> strict (pe prec) p.
Hypothesis Hps : forall p, p0 < p -> p0 < len -> strict ps p.
Hint Resolve Hpe Hps : term.

Lemma parse_opt_expression_f prec p : p0 < p -> p0 < len -> forw (parse_opt_expression pe prec) p.
Proof. intros. unfold parse_opt_expression. go. Qed.
Hint Resolve parse_opt_expression_f : term.
Lemma expression_list_s n : forall acc p, p0 < p -> p0 < len -> len - p < n -> strict (expression_list toks pe n acc) p.
Proof. induction n; intros acc p ? ? L; [lia|]. cbn [expression_list]. go. Qed.
Hint Resolve expression_list_s : term.
Lemma parse_expression_list_s p : p0 < p -> p0 < len -> strict (parse_expression_list toks pe) p.
Proof. intros. unfold parse_expression_list. go. Qed.
Hint Resolve parse_expression_list_s : term.
Lemma argument_list_s n : forall acc p, p0 < p -> p0 < len -> len - p < n -> strict (argument_list toks pe n acc) p.
Proof. induction n; intros acc p ? ? L; [lia|]. cbn [argument_list]. go. Qed.
Hint Resolve argument_list_s : term.
Lemma parse_argument_list_s p : p0 <= p -> strict (parse_argument_list toks pe) p.
Proof. intros. unfold parse_argument_list. go. Qed.
Hint Resolve parse_argument_list_s : term.
Lemma array_pairs_f n : forall acc p, p0 < p -> p0 < len -> len - p < n -> forw (array_pairs toks pe n acc) p.
Proof. induction n; intros acc p ? ? L; [lia|]. cbn [array_pairs]. go. Qed.
Hint Resolve array_pairs_f : term.
Lemma parse_array_pair_list_f p : p0 < p -> p0 < len -> forw (parse_array_pair_list toks pe) p.
Proof. intros. unfold parse_array_pair_list. go. Qed.
Hint Resolve parse_array_pair_list_f : term.
Lemma parse_dereferencable_scalar_s p : p0 <= p -> strict (parse_dereferencable_scalar toks pe) p.
Proof. intros. unfold parse_dereferencable_scalar. go. Qed.
Hint Resolve parse_dereferencable_scalar_s : term.
Lemma parse_property_name_s p : p0 <= p -> strict (parse_property_name toks pe) p.
Proof. intros. unfold parse_property_name. go. Qed.
Hint Resolve parse_property_name_s : term.
Lemma parse_base_variable_s b p : p0 <= p -> strict (parse_base_variable toks pe b) p.
Proof. intros. unfold parse_base_variable. go. Qed.
Hint Resolve parse_base_variable_s : term.
Lemma parse_const_scoped_s b p : strict (parse_const_scoped toks b) p.
Proof. intros. unfold parse_const_scoped. go. Qed.
Hint Resolve parse_const_scoped_s : term.
Lemma parse_fn_call_base_item_s b p : strict (parse_fn_call_base_item toks b) p.
Proof. intros. unfold parse_fn_call_base_item. go. Qed.
Hint Resolve parse_fn_call_base_item_s : term.
Lemma appendixes_f n : forall b v p, p0 <= p -> len - p < n -> forw (appendixes toks pe n b v) p.
Proof. induction n; intros b v p ? L; [lia|]. cbn [appendixes]. go. Qed.
Hint Resolve appendixes_f : term.
Lemma variable_base_s b p : p0 <= p -> strict (variable_base toks pe b) p.
Proof. intros. unfold variable_base. go. Qed.
Hint Resolve variable_base_s : term.
Lemma parse_variable_s b p : p0 <= p -> strict (parse_variable toks pe b None) p.
Proof. intros. unfold parse_variable. go. Qed.
Lemma parse_variable_f b i p : p0 <= p -> forw (parse_variable toks pe b (Some i)) p.
Proof. intros. unfold parse_variable. go. Qed.
Hint Resolve parse_variable_s parse_variable_f : term.
Lemma parse_class_name_reference_s p : p0 <= p -> strict (parse_class_name_reference toks pe) p.
Proof. intros. unfold parse_class_name_reference. go. Qed.
Hint Resolve parse_class_name_reference_s : term.
Lemma parse_binary_expression_f l prec p : p0 <= p ->
  wp (parse_binary_expression toks pe l prec) p
    (fun o p' => match o with Some _ => p < len /\ p < p' | None => p <= p' end) (fun _ p' => p <= p').
Proof. intros. unfold parse_binary_expression. go. Qed.
Lemma binary_loop_f n : forall prec l p, p0 <= p -> len - p < n -> forw (binary_loop toks pe n prec l) p.
Proof.
  induction n; intros prec l p ? L; [lia|]. cbn [binary_loop]. st. st.
  eapply wp_mono; [apply parse_binary_expression_f; lia| |]; cbv beta.
  - intros [e|] p' Q; go.
  - intros; go.
Qed.
Hint Resolve binary_loop_f : term.
Lemma pseb_s p : p0 < p -> p0 < len -> strict (parse_statement_extract_block ps) p.
Proof. intros. unfold parse_statement_extract_block. go. Qed.
Hint Resolve pseb_s : term.
Lemma inner_statements_f n : forall acc p, p0 < p -> p0 < len -> len - p < n -> forw (inner_statements toks ps n acc) p.
Proof. induction n; intros acc p ? ? L; [lia|]. cbn [inner_statements]. go. Qed.
Hint Resolve inner_statements_f : term.
Lemma pisl_f p : p0 < p -> p0 < len -> forw (parse_inner_statement_list toks ps) p.
Proof.
  intros. unfold parse_inner_statement_list.
  assert (H1 : forw (inner_statements toks ps (lf toks) []) p) by eauto with term.
  destruct toks; [apply wp_panic|exact H1].
Qed.
Hint Resolve pisl_f : term.
Lemma parse_param_type_f p : forw (parse_param_type toks) p.
Proof. unfold parse_param_type. go. Qed.
Hint Resolve parse_param_type_f : term.
Lemma parameter_list_f n : forall acc p, p0 <= p -> len - p < n -> forw (parameter_list toks pe n acc) p.
Proof. induction n; intros acc p ? L; [lia|]. cbn [parameter_list]. go. Qed.
Hint Resolve parameter_list_f : term.
Lemma parse_parameter_list_f p : p0 <= p -> forw (parse_parameter_list toks pe) p.
Proof. intros. unfold parse_parameter_list. go. Qed.
Hint Resolve parse_parameter_list_f : term.
Lemma use_vars_s n : forall acc p, len - p < n -> strict (use_vars toks n acc) p.
Proof. induction n; intros acc p L; [lia|]. cbn [use_vars]. go. Qed.
Hint Resolve use_vars_s : term.
Lemma parse_function_declaration_s sp b1 b2 p : p0 <= p -> strict (parse_function_declaration toks pe ps sp b1 b2) p.
Proof. intros. unfold parse_function_declaration. go. Qed.
Hint Resolve parse_function_declaration_s : term.
Lemma trait_uses_f n : forall b acc p, len - p < n -> forw (trait_uses toks n b acc) p.
Proof.
  induction n; intros b acc p L; [lia|]. cbn [trait_uses]. st. st.
  apply forw_use; [destruct b; go| |go]. intros [] p1 L1. st. st. st.
  eapply (wp_mono _ _ (fun r p' => match r with Some _ => p1 < len /\ p1 < p' | None => p1 <= p' end) _
    (fun _ p' => p1 <= p')); [go| |go].
  intros [[[pa|] m]|] p2 L2; go.
Qed.
Hint Resolve trait_uses_f : term.
Lemma class_consts_s n : forall m acc p, p0 <= p -> len - p < n -> strict (class_consts toks pe n m acc) p.
Proof. induction n; intros m acc p ? L; [lia|]. cbn [class_consts]. go. Qed.
Hint Resolve class_consts_s : term.
Lemma class_props_s n : forall m acc p, p0 <= p -> len - p < n -> strict (class_props toks pe n m acc) p.
Proof. induction n; intros m acc p ? L; [lia|]. cbn [class_props]. go. Qed.
Hint Resolve class_props_s : term.
Lemma parse_class_statement_s p : p0 <= p -> strict (parse_class_statement toks pe ps) p.
Proof. intros. unfold parse_class_statement. go. Qed.
Hint Resolve parse_class_statement_s : term.
Lemma class_statements_f n : forall acc p, p0 <= p -> len - p < n -> forw (class_statements toks pe ps n acc) p.
Proof. induction n; intros acc p ? L; [lia|]. cbn [class_statements]. go. Qed.
Hint Resolve class_statements_f : term.
Lemma pcsl_f p : p0 <= p -> forw (parse_class_statement_list toks pe ps) p.
Proof.
  intros. unfold parse_class_statement_list.
  assert (H1 : forw (class_statements toks pe ps (lf toks) []) p) by eauto with term.
  destruct toks; [apply wp_panic|exact H1].
Qed.
Hint Resolve pcsl_f : term.
Lemma parse_oo_declaration_s p : p0 <= p -> strict (parse_oo_declaration toks pe ps) p.
Proof.
  intros. unfold parse_oo_declaration. st. st.
  apply forw_use; [go| |go]. intros ot p1 L1. st.
  apply forw_use; [destruct ot; go| |go]. intros cm p2 L2. do 8 st.
  st. st. st. st. st.
  apply forw_use; [destruct ot; go| |go]. intros ex p3 L3. st.
  apply forw_use; [destruct ot; go| |go]. intros im p4 L4. go.
  all: go.
Qed.
Hint Resolve parse_oo_declaration_s : term.
Lemma encaps_flush_f st p : forw (encaps_flush st) p.
Proof. unfold encaps_flush. go. Qed.
Hint Resolve encaps_flush_f : term.
Lemma encaps_loop_f n : forall s p, p0 <= p -> len - p < n -> forw (encaps_loop toks pe n s) p.
Proof. induction n; intros s p ? L; [lia|]. cbn [encaps_loop]. go. Qed.
Hint Resolve encaps_loop_f : term.
Lemma parse_encaps_list_f p : p0 <= p -> forw (parse_encaps_list toks pe) p.
Proof. intros. unfold parse_encaps_list. go. Qed.
Hint Resolve parse_encaps_list_f : term.
Lemma parse_scalar_s p : p0 <= p -> strict (parse_scalar toks pe) p.
Proof. intros. unfold parse_scalar. go. Qed.
Hint Resolve parse_scalar_s : term.
Lemma isset_args_s n : forall b acc p, p0 < p -> p0 < len -> len - p < n -> strict (isset_args toks pe n b acc) p.
Proof. induction n; intros b acc p ? ? L; [lia|]. cbn [isset_args]. go. Qed.
Hint Resolve isset_args_s : term.
Lemma assign_of_lt p o : assign_of (nth_error toks p) = Some o -> p < len.
Proof. destruct (nth_error toks p) eqn:E; [intros _; eapply nth_lt; eauto|discriminate]. Qed.
Lemma parse_assign_f v p : p0 <= p -> forw (parse_assign toks pe v) p.
Proof.
  intros. unfold parse_assign. do 3 st. destruct (assign_of (nth_error toks p)) eqn:E; [apply assign_of_lt in E|]; go.
Qed.
Hint Resolve parse_assign_f : term.
Lemma parse_variable_expression_s p : p0 <= p -> strict (parse_variable_expression toks pe) p.
Proof. intros. unfold parse_variable_expression. go. Qed.
Hint Resolve parse_variable_expression_s : term.
Lemma parse_internal_s rest p : p0 <= p -> (forall p', p <= p' -> strict rest p') -> strict (parse_internal toks pe rest) p.
Proof. intros ? R. specialize (R p ltac:(lia)). unfold parse_internal. go. Qed.
Hint Resolve parse_internal_s : term.
Lemma parse_other_expression_s p : p0 <= p -> strict (parse_other_expression toks pe ps) p.
Proof.
  intros. assert (I : forall p, p0 <= p -> strict (parse_internal toks pe (parse_variable_expression toks pe)) p).
  { intros. apply parse_internal_s; auto. intros. apply parse_variable_expression_s. lia. }
  unfold parse_other_expression. go.
Qed.
Hint Resolve parse_other_expression_s : term.
Lemma parse_postfix_expression_s p : p0 <= p -> strict (parse_postfix_expression toks pe ps) p.
Proof. intros. unfold parse_postfix_expression. go. Qed.
Hint Resolve parse_postfix_expression_s : term.
Lemma parse_unary_expression_s prec p : p0 <= p -> strict (parse_unary_expression toks pe ps prec) p.
Proof. intros. unfold parse_unary_expression. go. Qed.
Lemma parse_foreach_variable_s p : p0 <= p -> strict (parse_foreach_variable toks pe) p.
Proof. intros. unfold parse_foreach_variable. go. Qed.
Hint Resolve parse_foreach_variable_s : term.
Lemma static_vars_s n : forall acc p, p0 <= p -> len - p < n -> strict (static_vars toks pe n acc) p.
Proof. induction n; intros acc p ? L; [lia|]. cbn [static_vars]. go. Qed.
Hint Resolve static_vars_s : term.
Lemma parse_static_var_decl_s sp p : p0 <= p -> strict (parse_static_var_decl toks pe sp) p.
Proof. intros. unfold parse_static_var_decl. go. Qed.
Hint Resolve parse_static_var_decl_s : term.
Lemma global_vars_s n : forall acc p, len - p < n -> strict (global_vars toks n acc) p.
Proof. induction n; intros acc p L; [lia|]. cbn [global_vars]. go. Qed.
Hint Resolve global_vars_s : term.
Lemma parse_global_var_decl_s sp p : strict (parse_global_var_decl toks sp) p.
Proof. intros. unfold parse_global_var_decl. go. Qed.
Hint Resolve parse_global_var_decl_s : term.
Lemma parse_braced_s p : p0 <= p -> strict (parse_braced toks ps) p.
Proof. intros. unfold parse_braced. go. Qed.
Hint Resolve parse_braced_s : term.
Lemma catch_clauses_f n : forall acc p, p0 <= p -> len - p < n -> forw (catch_clauses toks ps n acc) p.
Proof. induction n; intros acc p ? L; [lia|]. cbn [catch_clauses]. go. Qed.
Hint Resolve catch_clauses_f : term.
Lemma parse_try_s sp p : p0 <= p -> strict (parse_try toks ps sp) p.
Proof. intros. unfold parse_try. go. Qed.
Hint Resolve parse_try_s : term.
Lemma unset_vars_s n : forall acc p, p0 <= p -> len - p < n -> strict (unset_vars toks pe n acc) p.
Proof. induction n; intros acc p ? L; [lia|]. cbn [unset_vars]. go. Qed.
Hint Resolve unset_vars_s : term.
Lemma parse_unset_s sp p : p0 <= p -> strict (parse_unset toks pe sp) p.
Proof. intros. unfold parse_unset. go. Qed.
Lemma parse_foreach_s sp p : p0 <= p -> strict (parse_foreach toks pe ps sp) p.
Proof. intros. unfold parse_foreach. go. Qed.
Lemma parse_for_s sp p : p0 <= p -> strict (parse_for toks pe ps sp) p.
Proof. intros. unfold parse_for. go. Qed.
Hint Resolve parse_unset_s parse_foreach_s parse_for_s : term.
Lemma switch_cases_f n : forall cs cd p, p0 <= p -> len - p < n -> forw (switch_cases toks pe ps n cs cd) p.
Proof. induction n; intros cs cd p ? L; [lia|]. cbn [switch_cases]. go. Qed.
Hint Resolve switch_cases_f : term.
Lemma parse_switch_s sp p : p0 <= p -> strict (parse_switch toks pe ps sp) p.
Proof. intros. unfold parse_switch. go. Qed.
Lemma parse_condition_s p : p0 <= p -> strict (parse_condition toks pe) p.
Proof. intros. unfold parse_condition. go. Qed.
Hint Resolve parse_switch_s parse_condition_s : term.
Lemma parse_while_s sp p : p0 <= p -> strict (parse_while toks pe ps sp) p.
Proof. intros. unfold parse_while. go. Qed.
Lemma parse_do_s sp p : p0 < p -> p0 < len -> strict (parse_do toks pe ps sp) p.
Proof. intros. unfold parse_do. go. Qed.
Hint Resolve parse_while_s parse_do_s : term.
Lemma if_arms_f n : forall acc p, p0 <= p -> len - p < n -> forw (if_arms toks pe ps n acc) p.
Proof. induction n; intros acc p ? L; [lia|]. cbn [if_arms]. go. Qed.
Hint Resolve if_arms_f : term.
Lemma parse_if_s sp p : p0 <= p -> strict (parse_if toks pe ps sp) p.
Proof. intros. unfold parse_if. go. Qed.
Hint Resolve parse_if_s : term.

Hypothesis Hpe0 : forall prec, p0 < len -> strict (pe prec) p0.
Lemma parse_other_stmt_s d p : p0 <= p -> strict (parse_other_stmt toks pe d) p.
Proof.
  intros. assert (I : forall prec, p < len -> strict (pe prec) p).
  { intros. destruct (Nat.eq_dec p p0); [subst; apply Hpe0; auto|apply Hpe; lia]. }
  unfold parse_other_stmt, parse_expr_stmt. do 3 st. destruct (nth_error toks p) as [[x sp]|] eqn:N; [|go].
  apply nth_lt in N. destruct (simple_stmt toks pe x sp) as [m|] eqn:S; [|go].
  assert (forw m (Datatypes.S p)).
  { destruct x as [[]| | | | | | | |]; try discriminate; injection S as <-; go. }
  go.
Qed.
Hint Resolve parse_other_stmt_s : term.
Lemma look_restore_s k d m rest p : p0 <= p -> (forall sp p', p0 <= p' -> strict (m sp) p') ->
  (forall d', strict (rest d') p) -> strict (look_restore toks k d m rest) p.
Proof.
  intros ? M R. unfold look_restore. st. st. st. apply wp_look.
  - intros sp ? ?. apply wp_deepest. apply strict_use; [apply M; lia| |]; intros; [lia|].
    do 2 st. apply R.
  - apply R.
Qed.
Lemma parse_statement_body_s p : p0 <= p -> strict (parse_statement_body toks pe ps) p.
Proof.
  intros. unfold parse_statement_body. st.
  do 10 (apply wp_look; [intros ? ? ?; go|]).
  apply look_restore_s; [lia|intros; go|intros d'].
  apply look_restore_s; [lia|intros; go|intros d2].
  apply look_restore_s; [lia|intros; go|intros d3].
  go.
Qed.
End Knot.

Lemma knot f : forall p,
  (2 * (len - p) + 1 <= f -> forall prec, strict (parse_expression toks f prec) p) /\
  (2 * (len - p) + 2 <= f -> strict (parse_statement toks f) p).
Proof.
  induction f as [|f IH]; intros p; [split; lia|]. split; intros L; [intros prec|]; cbn [parse_expression parse_statement].
  - apply parse_unary_expression_s with (p0 := p); auto; intros; apply IH; lia.
  - apply parse_statement_body_s with (p0 := p); auto; intros; apply IH; lia.
Qed.
Lemma parse_statement_enough p : strict (parse_statement toks (2 * len + 3)) p.
Proof. apply knot. lia. Qed.

Section Top.
Variable ps : P stmt.
Hypothesis Hps : forall p, strict ps p.
Hint Resolve Hps : term.
Lemma use_clauses_s n : forall acc p, len - p < n -> strict (use_clauses toks n acc) p.
Proof. induction n; intros acc p L; [lia|]. cbn [use_clauses]. go. Qed.
Hint Resolve use_clauses_s : term.
Lemma parse_top_statement_s p : strict (parse_top_statement toks ps) p.
Proof. unfold parse_top_statement. go. Qed.
Hint Resolve parse_top_statement_s : term.
Lemma top_statements_f n : forall acc p, len - p < n -> forw (top_statements toks ps n acc) p.
Proof. induction n; intros acc p L; [lia|]. cbn [top_statements]. go. Qed.
Lemma ptsl_f p : forw (parse_top_statement_list toks ps) p.
Proof.
  unfold parse_top_statement_list.
  assert (H1 : forw (top_statements toks ps (lf toks) []) p) by (apply top_statements_f; unfold lf; lia).
  destruct toks; [apply wp_panic|exact H1].
Qed.
End Top.
End Term.
