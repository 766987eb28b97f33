(** * ParserMono: more fuel does not change an outcome

    The parser functions are monotone in [parse_expression] and [parse_statement]
    for the order in which "out of fuel" is below everything. *)
From Verif Require Import Base Tokens Ast Parser.

Definition ple {A} (m1 m2 : P A) : Prop := forall p, m1 p = PFuel \/ m1 p = m2 p.
Lemma ple_refl {A} (m : P A) : ple m m.
Proof. intros p; auto. Qed.
Lemma ple_fuel {A} (m : P A) : ple pfuel m.
Proof. intros p; auto. Qed.
Lemma ple_catch {A B} (m1 m2 : P A) (ok1 ok2 : A -> P B) er1 er2 :
  ple m1 m2 -> (forall a, ple (ok1 a) (ok2 a)) -> (forall e, ple (er1 e) (er2 e)) ->
  ple (pcatch m1 ok1 er1) (pcatch m2 ok2 er2).
Proof.
  intros H K1 K2 p. unfold pcatch. destruct (H p) as [->| ->]; auto.
  destruct (m2 p); auto; [apply K1|apply K2].
Qed.
Lemma ple_bind {A B} (m1 m2 : P A) (k1 k2 : A -> P B) :
  ple m1 m2 -> (forall a, ple (k1 a) (k2 a)) -> ple (pbind m1 k1) (pbind m2 k2).
Proof. intros. apply ple_catch; auto. intros. apply ple_refl. Qed.
Lemma ple_deepest {A} d (m1 m2 : P A) k1 k2 :
  ple m1 m2 -> (forall d, ple (k1 d) (k2 d)) -> ple (deepest d m1 k1) (deepest d m2 k2).
Proof. intros. apply ple_catch; auto. intros. apply ple_refl. Qed.

Section Mono.
Variable toks : list tokspan.
Lemma ple_look {A} k (y1 y2 : span -> P A) n1 n2 :
  (forall s, ple (y1 s) (y2 s)) -> ple n1 n2 -> ple (look toks k y1 n1) (look toks k y2 n2).
Proof.
  intros Y N. apply ple_bind; [apply ple_refl|]. intros [[[] ?]|]; auto.
  destruct (kind_eqb _ _); auto. apply ple_bind; auto using ple_refl.
Qed.
Lemma ple_look_var {A} (y1 y2 : str -> span -> P A) n1 n2 :
  (forall v s, ple (y1 v s) (y2 v s)) -> ple n1 n2 -> ple (look_var toks y1 n1) (look_var toks y2 n2).
Proof.
  intros Y N. apply ple_bind; [apply ple_refl|]. intros [[[] ?]|]; auto.
  apply ple_bind; auto using ple_refl.
Qed.
Lemma ple_look_string {A} (y1 y2 : str -> span -> P A) n1 n2 :
  (forall v s, ple (y1 v s) (y2 v s)) -> ple n1 n2 -> ple (look_string toks y1 n1) (look_string toks y2 n2).
Proof.
  intros Y N. apply ple_bind; [apply ple_refl|]. intros [[[] ?]|]; auto.
  apply ple_bind; auto using ple_refl.
Qed.
Lemma ple_look_ces {A} (y1 y2 : str -> span -> P A) n1 n2 :
  (forall v s, ple (y1 v s) (y2 v s)) -> ple n1 n2 -> ple (look_ces toks y1 n1) (look_ces toks y2 n2).
Proof.
  intros Y N. apply ple_bind; [apply ple_refl|]. intros [[[] ?]|]; auto.
  apply ple_bind; auto using ple_refl.
Qed.
Variables (pe1 pe2 : nat -> P expr) (ps1 ps2 : P stmt).
Hypothesis Hpe : forall n, ple (pe1 n) (pe2 n).
Hypothesis Hps : ple ps1 ps2.
Create HintDb mono.
Hint Resolve Hpe Hps : mono.

Ltac ms :=
  cbv beta zeta;
  first [ match goal with |- ple ?m ?m => apply ple_refl end
        | solve [eauto 2 with mono nocore]
        | match goal with
          | |- ple (pbind _ _) _ => apply ple_bind; [|intros ?]
          | |- ple (pcatch _ _ _) _ => apply ple_catch; [|intros ?|intros ?]
          | |- ple (deepest _ _ _) _ => apply ple_deepest; [|intros ?]
          | |- ple (look _ _ _ _) _ => apply ple_look; [intros ?|]
          | |- ple (look_var _ _ _) _ => apply ple_look_var; [intros ? ?|]
          | |- ple (look_string _ _ _) _ => apply ple_look_string; [intros ? ?|]
          | |- ple (look_ces _ _ _) _ => apply ple_look_ces; [intros ? ?|]
          | |- ple pfuel _ => apply ple_fuel
          | |- ple (match ?x with _ => _ end) (match ?x with _ => _ end) => destruct x
          end ].
Ltac mono := repeat ms.
Ltac loop n f := induction n; intros; cbn [f]; mono.

Lemma parse_opt_expression_m : forall prec, ple (parse_opt_expression pe1 prec) (parse_opt_expression pe2 prec).
Proof. intros. unfold parse_opt_expression. mono. Qed.
Hint Resolve parse_opt_expression_m : mono.
Lemma expression_list_m : forall n acc, ple (expression_list toks pe1 n acc) (expression_list toks pe2 n acc).
Proof. intros n. loop n expression_list. Qed.
Hint Resolve expression_list_m : mono.
Lemma parse_expression_list_m : ple (parse_expression_list toks pe1) (parse_expression_list toks pe2).
Proof. intros. unfold parse_expression_list. mono. Qed.
Hint Resolve parse_expression_list_m : mono.
Lemma argument_list_m : forall n acc, ple (argument_list toks pe1 n acc) (argument_list toks pe2 n acc).
Proof. intros n. loop n argument_list. Qed.
Hint Resolve argument_list_m : mono.
Lemma parse_argument_list_m : ple (parse_argument_list toks pe1) (parse_argument_list toks pe2).
Proof. intros. unfold parse_argument_list. mono. Qed.
Hint Resolve parse_argument_list_m : mono.
Lemma array_pairs_m : forall n acc, ple (array_pairs toks pe1 n acc) (array_pairs toks pe2 n acc).
Proof. intros n. loop n array_pairs. Qed.
Hint Resolve array_pairs_m : mono.
Lemma parse_array_pair_list_m : ple (parse_array_pair_list toks pe1) (parse_array_pair_list toks pe2).
Proof. intros. unfold parse_array_pair_list. mono. Qed.
Hint Resolve parse_array_pair_list_m : mono.
Lemma parse_dereferencable_scalar_m : ple (parse_dereferencable_scalar toks pe1) (parse_dereferencable_scalar toks pe2).
Proof. intros. unfold parse_dereferencable_scalar. mono. Qed.
Hint Resolve parse_dereferencable_scalar_m : mono.
Lemma parse_property_name_m : ple (parse_property_name toks pe1) (parse_property_name toks pe2).
Proof. intros. unfold parse_property_name. mono. Qed.
Hint Resolve parse_property_name_m : mono.
Lemma parse_base_variable_m : forall simple_only, ple (parse_base_variable toks pe1 simple_only) (parse_base_variable toks pe2 simple_only).
Proof. intros. unfold parse_base_variable. mono. Qed.
Hint Resolve parse_base_variable_m : mono.
Lemma appendixes_m : forall n simple_only v, ple (appendixes toks pe1 n simple_only v) (appendixes toks pe2 n simple_only v).
Proof. intros n. loop n appendixes. Qed.
Hint Resolve appendixes_m : mono.
Lemma variable_base_m : forall simple_only, ple (variable_base toks pe1 simple_only) (variable_base toks pe2 simple_only).
Proof. intros. unfold variable_base. mono. Qed.
Hint Resolve variable_base_m : mono.
Lemma parse_variable_m : forall simple_only base_item, ple (parse_variable toks pe1 simple_only base_item) (parse_variable toks pe2 simple_only base_item).
Proof. intros. unfold parse_variable. mono. Qed.
Hint Resolve parse_variable_m : mono.
Lemma parse_class_name_reference_m : ple (parse_class_name_reference toks pe1) (parse_class_name_reference toks pe2).
Proof. intros. unfold parse_class_name_reference. mono. Qed.
Hint Resolve parse_class_name_reference_m : mono.
Lemma parse_binary_expression_m : forall left prec, ple (parse_binary_expression toks pe1 left prec) (parse_binary_expression toks pe2 left prec).
Proof. intros. unfold parse_binary_expression. mono. Qed.
Hint Resolve parse_binary_expression_m : mono.
Lemma binary_loop_m : forall n prec left, ple (binary_loop toks pe1 n prec left) (binary_loop toks pe2 n prec left).
Proof. intros n. loop n binary_loop. Qed.
Hint Resolve binary_loop_m : mono.
Lemma parse_statement_extract_block_m : ple (parse_statement_extract_block ps1) (parse_statement_extract_block ps2).
Proof. intros. unfold parse_statement_extract_block. mono. Qed.
Hint Resolve parse_statement_extract_block_m : mono.
Lemma inner_statements_m : forall n acc, ple (inner_statements toks ps1 n acc) (inner_statements toks ps2 n acc).
Proof. intros n. loop n inner_statements. Qed.
Hint Resolve inner_statements_m : mono.
Lemma parse_inner_statement_list_m : ple (parse_inner_statement_list toks ps1) (parse_inner_statement_list toks ps2).
Proof. unfold parse_inner_statement_list. generalize (inner_statements_m (lf toks) []). destruct toks; intros; [apply ple_refl|auto]. Qed.
Hint Resolve parse_inner_statement_list_m : mono.
Lemma parameter_list_m : forall n acc, ple (parameter_list toks pe1 n acc) (parameter_list toks pe2 n acc).
Proof. intros n. loop n parameter_list. Qed.
Hint Resolve parameter_list_m : mono.
Lemma parse_parameter_list_m : ple (parse_parameter_list toks pe1) (parse_parameter_list toks pe2).
Proof. intros. unfold parse_parameter_list. mono. Qed.
Hint Resolve parse_parameter_list_m : mono.
Lemma parse_function_declaration_m : forall sp parse_closure allow_abstract, ple (parse_function_declaration toks pe1 ps1 sp parse_closure allow_abstract) (parse_function_declaration toks pe2 ps2 sp parse_closure allow_abstract).
Proof. intros. unfold parse_function_declaration. mono. Qed.
Hint Resolve parse_function_declaration_m : mono.
Lemma class_consts_m : forall n mods acc, ple (class_consts toks pe1 n mods acc) (class_consts toks pe2 n mods acc).
Proof. intros n. loop n class_consts. Qed.
Hint Resolve class_consts_m : mono.
Lemma class_props_m : forall n mods acc, ple (class_props toks pe1 n mods acc) (class_props toks pe2 n mods acc).
Proof. intros n. loop n class_props. Qed.
Hint Resolve class_props_m : mono.
Lemma parse_class_statement_m : ple (parse_class_statement toks pe1 ps1) (parse_class_statement toks pe2 ps2).
Proof. intros. unfold parse_class_statement. mono. Qed.
Hint Resolve parse_class_statement_m : mono.
Lemma class_statements_m : forall n acc, ple (class_statements toks pe1 ps1 n acc) (class_statements toks pe2 ps2 n acc).
Proof. intros n. loop n class_statements. Qed.
Hint Resolve class_statements_m : mono.
Lemma parse_class_statement_list_m : ple (parse_class_statement_list toks pe1 ps1) (parse_class_statement_list toks pe2 ps2).
Proof. unfold parse_class_statement_list. generalize (class_statements_m (lf toks) []). destruct toks; intros; [apply ple_refl|auto]. Qed.
Hint Resolve parse_class_statement_list_m : mono.
Lemma parse_oo_declaration_m : ple (parse_oo_declaration toks pe1 ps1) (parse_oo_declaration toks pe2 ps2).
Proof. intros. unfold parse_oo_declaration. mono. Qed.
Hint Resolve parse_oo_declaration_m : mono.
Lemma encaps_loop_m : forall n st, ple (encaps_loop toks pe1 n st) (encaps_loop toks pe2 n st).
Proof. intros n. loop n encaps_loop. Qed.
Hint Resolve encaps_loop_m : mono.
Lemma parse_encaps_list_m : ple (parse_encaps_list toks pe1) (parse_encaps_list toks pe2).
Proof. intros. unfold parse_encaps_list. mono. Qed.
Hint Resolve parse_encaps_list_m : mono.
Lemma parse_scalar_m : ple (parse_scalar toks pe1) (parse_scalar toks pe2).
Proof. intros. unfold parse_scalar. mono. Qed.
Hint Resolve parse_scalar_m : mono.
Lemma isset_args_m : forall n many acc, ple (isset_args toks pe1 n many acc) (isset_args toks pe2 n many acc).
Proof. intros n. loop n isset_args. Qed.
Hint Resolve isset_args_m : mono.
Lemma parse_assign_m : forall var, ple (parse_assign toks pe1 var) (parse_assign toks pe2 var).
Proof. intros. unfold parse_assign. mono. Qed.
Hint Resolve parse_assign_m : mono.
Lemma parse_variable_expression_m : ple (parse_variable_expression toks pe1) (parse_variable_expression toks pe2).
Proof. intros. unfold parse_variable_expression. mono. Qed.
Hint Resolve parse_variable_expression_m : mono.
Lemma parse_internal_m r1 r2 : ple r1 r2 -> ple (parse_internal toks pe1 r1) (parse_internal toks pe2 r2).
Proof. intros. unfold parse_internal. mono; auto. Qed.
Hint Resolve parse_internal_m : mono.
Lemma parse_other_expression_m : ple (parse_other_expression toks pe1 ps1) (parse_other_expression toks pe2 ps2).
Proof. intros. unfold parse_other_expression. mono. Qed.
Hint Resolve parse_other_expression_m : mono.
Lemma parse_postfix_expression_m : ple (parse_postfix_expression toks pe1 ps1) (parse_postfix_expression toks pe2 ps2).
Proof. intros. unfold parse_postfix_expression. mono. Qed.
Hint Resolve parse_postfix_expression_m : mono.
Lemma parse_unary_expression_m : forall prec, ple (parse_unary_expression toks pe1 ps1 prec) (parse_unary_expression toks pe2 ps2 prec).
Proof. intros. unfold parse_unary_expression. mono. Qed.
Hint Resolve parse_unary_expression_m : mono.
Lemma parse_foreach_variable_m : ple (parse_foreach_variable toks pe1) (parse_foreach_variable toks pe2).
Proof. intros. unfold parse_foreach_variable. mono. Qed.
Hint Resolve parse_foreach_variable_m : mono.
Lemma static_vars_m : forall n acc, ple (static_vars toks pe1 n acc) (static_vars toks pe2 n acc).
Proof. intros n. loop n static_vars. Qed.
Hint Resolve static_vars_m : mono.
Lemma parse_static_var_decl_m : forall sp, ple (parse_static_var_decl toks pe1 sp) (parse_static_var_decl toks pe2 sp).
Proof. intros. unfold parse_static_var_decl. mono. Qed.
Hint Resolve parse_static_var_decl_m : mono.
Lemma parse_braced_m : ple (parse_braced toks ps1) (parse_braced toks ps2).
Proof. intros. unfold parse_braced. mono. Qed.
Hint Resolve parse_braced_m : mono.
Lemma catch_clauses_m : forall n acc, ple (catch_clauses toks ps1 n acc) (catch_clauses toks ps2 n acc).
Proof. intros n. loop n catch_clauses. Qed.
Hint Resolve catch_clauses_m : mono.
Lemma parse_try_m : forall sp, ple (parse_try toks ps1 sp) (parse_try toks ps2 sp).
Proof. intros. unfold parse_try. mono. Qed.
Hint Resolve parse_try_m : mono.
Lemma unset_vars_m : forall n acc, ple (unset_vars toks pe1 n acc) (unset_vars toks pe2 n acc).
Proof. intros n. loop n unset_vars. Qed.
Hint Resolve unset_vars_m : mono.
Lemma parse_unset_m : forall sp, ple (parse_unset toks pe1 sp) (parse_unset toks pe2 sp).
Proof. intros. unfold parse_unset. mono. Qed.
Hint Resolve parse_unset_m : mono.
Lemma parse_foreach_m : forall sp, ple (parse_foreach toks pe1 ps1 sp) (parse_foreach toks pe2 ps2 sp).
Proof. intros. unfold parse_foreach. mono. Qed.
Hint Resolve parse_foreach_m : mono.
Lemma parse_for_m : forall sp, ple (parse_for toks pe1 ps1 sp) (parse_for toks pe2 ps2 sp).
Proof. intros. unfold parse_for. mono. Qed.
Hint Resolve parse_for_m : mono.
Lemma switch_cases_m : forall n cases conds, ple (switch_cases toks pe1 ps1 n cases conds) (switch_cases toks pe2 ps2 n cases conds).
Proof. intros n. loop n switch_cases. Qed.
Hint Resolve switch_cases_m : mono.
Lemma parse_switch_m : forall sp, ple (parse_switch toks pe1 ps1 sp) (parse_switch toks pe2 ps2 sp).
Proof. intros. unfold parse_switch. mono. Qed.
Hint Resolve parse_switch_m : mono.
Lemma parse_condition_m : ple (parse_condition toks pe1) (parse_condition toks pe2).
Proof. intros. unfold parse_condition. mono. Qed.
Hint Resolve parse_condition_m : mono.
Lemma parse_while_m : forall sp, ple (parse_while toks pe1 ps1 sp) (parse_while toks pe2 ps2 sp).
Proof. intros. unfold parse_while. mono. Qed.
Hint Resolve parse_while_m : mono.
Lemma parse_do_m : forall sp, ple (parse_do toks pe1 ps1 sp) (parse_do toks pe2 ps2 sp).
Proof. intros. unfold parse_do. mono. Qed.
Hint Resolve parse_do_m : mono.
Lemma if_arms_m : forall n acc, ple (if_arms toks pe1 ps1 n acc) (if_arms toks pe2 ps2 n acc).
Proof. intros n. loop n if_arms. Qed.
Hint Resolve if_arms_m : mono.
Lemma parse_if_m : forall sp, ple (parse_if toks pe1 ps1 sp) (parse_if toks pe2 ps2 sp).
Proof. intros. unfold parse_if. mono. Qed.
Hint Resolve parse_if_m : mono.
Lemma parse_expr_stmt_m : forall d, ple (parse_expr_stmt toks pe1 d) (parse_expr_stmt toks pe2 d).
Proof. intros. unfold parse_expr_stmt. mono. Qed.
Hint Resolve parse_expr_stmt_m : mono.
Lemma simple_stmt_m t sp :
  match simple_stmt toks pe1 t sp, simple_stmt toks pe2 t sp with
  | Some a, Some b => ple a b
  | None, None => True
  | _, _ => False
  end.
Proof. destruct t; cbn; auto using ple_refl. destruct k; cbn; auto; mono. Qed.
Lemma parse_other_stmt_m : forall d, ple (parse_other_stmt toks pe1 d) (parse_other_stmt toks pe2 d).
Proof.
  intros. unfold parse_other_stmt. ms; [ms|]. destruct a as [[t sp]|]; [|ms].
  pose proof (simple_stmt_m t sp). destruct (simple_stmt toks pe1 t sp), (simple_stmt toks pe2 t sp); try tauto; mono.
Qed.
Hint Resolve parse_other_stmt_m : mono.
Lemma look_restore_m k d m1 m2 r1 r2 : (forall sp, ple (m1 sp) (m2 sp)) -> (forall d, ple (r1 d) (r2 d)) ->
  ple (look_restore toks k d m1 r1) (look_restore toks k d m2 r2).
Proof. intros. unfold look_restore. mono; auto. Qed.
Lemma parse_statement_body_m : ple (parse_statement_body toks pe1 ps1) (parse_statement_body toks pe2 ps2).
Proof. unfold parse_statement_body. repeat first [ms | apply look_restore_m; intros]. Qed.
End Mono.

Lemma knot_m toks f : forall f', f <= f' ->
  (forall n, ple (parse_expression toks f n) (parse_expression toks f' n)) /\ ple (parse_statement toks f) (parse_statement toks f').
Proof.
  induction f as [|f IH]; intros f' L; [split; intros; apply ple_fuel|].
  destruct f' as [|f']; [lia|]. destruct (IH f') as [H1 H2]; [lia|]. split.
  - intros n. apply parse_unary_expression_m; auto.
  - apply parse_statement_body_m; auto.
Qed.
Section Top.
Variable toks : list tokspan.
Variables ps1 ps2 : P stmt.
Hypothesis H : ple ps1 ps2.
Lemma parse_top_statement_m : ple (parse_top_statement toks ps1) (parse_top_statement toks ps2).
Proof. unfold parse_top_statement. do 2 (apply ple_look; [intros; apply ple_refl|]). exact H. Qed.
Lemma top_statements_m n : forall acc, ple (top_statements toks ps1 n acc) (top_statements toks ps2 n acc).
Proof.
  induction n; intros; cbn [top_statements]; [apply ple_refl|]. apply ple_bind; [apply ple_refl|]. intros p.
  destruct (_ <? _); [|apply ple_refl]. apply ple_bind; [apply parse_top_statement_m|auto].
Qed.
Lemma ptsl_m : ple (parse_top_statement_list toks ps1) (parse_top_statement_list toks ps2).
Proof. unfold parse_top_statement_list. generalize (top_statements_m (lf toks) []). destruct toks; intros; [apply ple_refl|auto]. Qed.
End Top.

