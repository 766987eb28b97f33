(** * OrderPass: every parser function adds the words it reads (C37) *)
From Verif Require Import Base Tokens Ast Parser Wp SpecOrder Order.
From Coq Require Import String.
Local Open Scope string_scope. Local Open Scope list_scope.

Section Pass.
Variable toks : list tokspan.
Notation ord := (ord toks).
Notation cov := (cov toks).

Lemma expect_o k p : ord (expect toks k) p [] (fun _ => [IKw [k]]).
Proof. unfold expect. go. Qed.
Lemma expect_var_o p : ord (expect_var toks) p [] (fun s => [IVar s]).
Proof. unfold expect_var. go. Qed.
Lemma expect_string_o p : ord (expect_string toks) p [] (fun s => [IName s]).
Proof. unfold expect_string. go. Qed.
Lemma expect_or_o k e p : ord (expect_or toks k e) p [] (fun _ => [IKw [k]]).
Proof. unfold expect_or. destruct e; go. Qed.
Hint Resolve expect_o expect_var_o expect_string_o expect_or_o : ord.
Lemma parse_simple_variable_o p : ord (parse_simple_variable toks) p [] (fun v => items_variable (fst v)).
Proof. unfold parse_simple_variable. go. Qed.
Hint Resolve parse_simple_variable_o : ord.
Lemma parse_simple_variable_expr_o p : ord (parse_simple_variable_expr toks) p [] items_expr.
Proof. unfold parse_simple_variable_expr. go. Qed.
Hint Resolve parse_simple_variable_expr_o : ord.
Lemma parse_is_ref_o p : ord (parse_is_ref toks) p [] (fun b => flag b KAmpersand).
Proof. unfold parse_is_ref. go. Qed.
Lemma parse_is_variadic_o p : ord (parse_is_variadic toks) p [] (fun b => flag b KEllipsis).
Proof. unfold parse_is_variadic. go. Qed.
Hint Resolve parse_is_ref_o parse_is_variadic_o : ord.

(** names *)
Lemma joined_ns l : join_ns l = joined l.
Proof. reflexivity. Qed.
Lemma name_tokens_snoc l a : l <> [] -> name_tokens (l ++ [a]) = name_tokens l ++ [Kw KNsSeparator; TString a].
Proof.
  induction l as [|b [|c l] IH]; intros N; [congruence|reflexivity|].
  cbn [app name_tokens] in *. rewrite IH by discriminate. reflexivity.
Qed.
(** the fragments read are the tokens of a name *)
Lemma ns_fragments_w n : forall p0 acc p,
  (p0 <= p /\ slice toks p0 p = match acc with [] => [] | _ => name_tokens (map fst acc) ++ [Kw KNsSeparator] end) ->
  wo (ns_fragments toks n acc) p
    (fun l q => l <> [] /\ p <= q /\ slice toks p0 q = name_tokens (map fst l)) (fun _ q => p <= q).
Proof.
  induction n; intros p0 acc p (L & S0); cbn [ns_fragments]; [go|].
  apply wo_look_string; [intros s sp N _ _|go].
  assert (S1 : slice toks p0 (S p) = name_tokens (map fst (acc ++ [(s, sp)]))).
  { rewrite (slice_split toks p0 p (S p)), S0, (slice_one toks _ _ _ N) by lia. rewrite map_app. cbn [map fst].
    destruct acc as [|x acc]; [reflexivity|]. rewrite name_tokens_snoc by discriminate. rewrite <- app_assoc. reflexivity. }
  assert (NE : acc ++ [(s, sp)] <> []) by (destruct acc; discriminate).
  cbv zeta. apply wo_bind, wo_getpos, wo_look.
  - intros sp2 N2 _. apply wo_bind, wo_peek.
    assert (W : wo (ns_fragments toks n (acc ++ [(s, sp)])) (S (S p))
      (fun l q => l <> [] /\ S (S p) <= q /\ slice toks p0 q = name_tokens (map fst l)) (fun _ q => S (S p) <= q)).
    { apply IHn. split; [lia|]. rewrite (slice_split toks p0 (S p) (S (S p))), S1 by lia.
      rewrite (slice_one toks _ _ _ N2).
      destruct (acc ++ [(s, sp)]); [congruence|reflexivity]. }
    destruct (nth_error toks (S (S p))) as [[[| | | | | | | |] ?]|]; try (st; st; st; repeat split; auto; lia).
    eapply wo_mono; [exact W| |]; cbv beta; [intros l q (? & ? & ?); repeat split; auto; lia|intros; lia].
  - st. repeat split; auto.
Qed.
Lemma removelast_last {A} (l : list A) d : l <> [] -> removelast l ++ [last l d] = l.
Proof. intros N. symmetry. apply app_removelast_last. exact N. Qed.
Lemma path_of_fragments_means l (abs : bool) : l <> [] ->
  means (IPath (mkPath abs (namespace (path_of_fragments l)) (identifier (path_of_fragments l))))
    ((if abs then [Kw KNsSeparator] else []) ++ name_tokens (map fst l)).
Proof.
  intros N. destruct l as [|f [|g l]]; [congruence| |].
  - apply (means_path abs [] (fst f)).
  - set (l' := f :: g :: l) in *.
    pose proof (means_path abs (map fst (removelast l')) (fst (last l' ([], span_new)))) as M.
    replace (map fst l') with (map fst (removelast l') ++ [fst (last l' ([], span_new))]).
    2: { rewrite <- (removelast_last l' ([], span_new) N) at 3. rewrite map_app. reflexivity. }
    replace (namespace (path_of_fragments l')) with (match map fst (removelast l') with [] => None | x => Some (joined x) end).
    2: { unfold l' at 2. cbn [path_of_fragments path_ns_identifier namespace]. rewrite joined_ns. reflexivity. }
    exact M.
Qed.
(** a name with or without a leading separator at [p0] *)
Lemma namespace_name_w (abs : bool) p :
  (if abs then exists sp p', p = S p' /\ nth_error toks p' = Some (Kw KNsSeparator, sp) else True) ->
  wo (parse_namespace_name toks) p
    (fun r q => p <= q /\ is_absolute (fst r) = false /\ cov [IPath (mkPath abs (namespace (fst r)) (identifier (fst r)))] (if abs then pred p else p) q)
    (fun _ q => p <= q).
Proof.
  intros H. unfold parse_namespace_name. st.
  eapply wo_mono; [apply (ns_fragments_w _ p); split; [lia|]| |]; cbv beta.
  - unfold slice. rewrite Nat.sub_diag. reflexivity.
  - intros l q (N & L & S1). st. cbn [fst]. split; [exact L|]. split; [destruct l as [|f [|g l]]; reflexivity|]. pose proof (path_of_fragments_means l abs N) as M.
    destruct abs.
    + destruct H as (sp & p' & -> & N'). cbn [pred]. split; [lia|]. rewrite (slice_split toks p' (S p') q) by lia.
      rewrite (slice_one toks _ _ _ N'), S1. apply covers_one. exact M.
    + split; [lia|]. rewrite S1. apply covers_one. exact M.
  - auto.
Qed.
Lemma path_eta p : mkPath (is_absolute p) (namespace p) (identifier p) = p.
Proof. destruct p; reflexivity. Qed.
Lemma path_rel p : is_absolute p = false -> mkPath false (namespace p) (identifier p) = p.
Proof. intros <-. apply path_eta. Qed.
Lemma parse_namespace_name_o p : ord (parse_namespace_name toks) p [] (fun r => [IPath (fst r)]).
Proof.
  eapply wo_mono; [apply (namespace_name_w false p); exact Logic.I| |]; cbv beta; [|auto].
  intros r q (L & A & C). rewrite (path_rel _ A) in C. eexists. split; [reflexivity|exact C].
Qed.
Hint Resolve parse_namespace_name_o : ord.
Lemma parse_name_o p : ord (parse_name toks) p [] (fun r => [IPath (fst r)]).
Proof.
  unfold parse_name. st. st.
  apply wo_look.
  - intros sp N _. st. cbv beta iota. st.
    eapply wo_mono; [apply (namespace_name_w true (S p)); eauto| |]; cbv beta; [|intros; lia].
    intros r q (L & A & C). cbn [pred] in C. st. st. st. eexists. split; [reflexivity|exact C].
  - st. cbv beta iota. go.
Qed.
Hint Resolve parse_name_o : ord.
Lemma parse_name_as_expr_o p : ord (parse_name_as_expr toks) p [] items_expr.
Proof. unfold parse_name_as_expr. go. Qed.
Hint Resolve parse_name_as_expr_o : ord.
Lemma name_list_o n : forall acc p, ord (name_list toks n acc) p (map IPath acc) (map IPath).
Proof. induction n; intros acc p; cbn [name_list]; go. Qed.
Hint Resolve name_list_o : ord.
Lemma parse_name_list_o p : ord (parse_name_list toks) p [] (map IPath).
Proof. apply name_list_o. Qed.
Hint Resolve parse_name_list_o : ord.
Lemma parse_class_name_o p : ord (parse_class_name toks) p [] items_expr.
Proof.
  unfold parse_class_name. st. apply wo_look; [|go]. intros sp N _.
  assert (C : cov [IPath (mkPath false None (s2l "static"))] p (S p)).
  { eapply cov_tok; [exact N|]. apply means_word. apply word_keyword. reflexivity. }
  go.
Qed.
Hint Resolve parse_class_name_o : ord.
(** an identifier is one word *)
Lemma parse_identifier_w p :
  wo (parse_identifier toks) p (fun i q => exists t sp, nth_error toks p = Some (t, sp) /\ word t (fst i) /\ q = S p) (fun _ q => p <= q).
Proof.
  unfold parse_identifier. st. st. st.
  - destruct t as [t sp]. destruct t as [k|s| | | | | | |]; try (st; lia).
    + destruct (is_reserved_non_modifier k); [|st; lia]. st. st. destruct (repr k) as [s|] eqn:R; [|st].
      st. exists (Kw k), sp. split; [auto|]. split; [apply word_keyword; exact R|reflexivity].
    + st. st. st. exists (TString s), sp. repeat split; auto. constructor.
  - st. lia.
Qed.
Lemma parse_identifier_o p : ord (parse_identifier toks) p [] (fun i => [IName (fst i)]).
Proof.
  eapply wo_mono; [apply parse_identifier_w| |]; cbv beta; [|auto].
  intros i q (t & sp & N & W & ->). eexists. split; [reflexivity|]. eapply cov_tok; [exact N|]. apply means_name; auto.
Qed.
Hint Resolve parse_identifier_o : ord.
Lemma parse_identifier_as_expr_o p : ord (parse_identifier_as_expr toks) p [] items_expr.
Proof.
  unfold parse_identifier_as_expr. st. st. eapply wo_mono; [apply parse_identifier_w| |]; cbv beta; [|auto].
  intros i q (t & sp & N & W & ->). st. eexists. split; [reflexivity|]. eapply cov_tok; [exact N|]. apply means_word; auto.
Qed.
Hint Resolve parse_identifier_as_expr_o : ord.
Lemma resolve_items e p q : cov (items_expr e) p q -> cov (items_expr (resolve_constant e)) p q.
Proof.
  intros C. pose proof (cov_le _ _ _ _ C) as L. destruct e as [n sp]. unfold resolve_constant.
  destruct n; auto. destruct (namespace p0); auto. cbv zeta.
  repeat match goal with |- context [if ?b then _ else _] => destruct b end; auto; apply cov_none; auto.
Qed.
Lemma parse_constant_o p : ord (parse_constant toks) p [] items_expr.
Proof.
  unfold parse_constant. st. st. use; [|lia].
  match goal with C : cov (items_expr ?e) _ _ |- _ => apply resolve_items in C; generalize dependent (resolve_constant e) end.
  intros. go.
Qed.
Hint Resolve parse_constant_o : ord.
Lemma member_mods_o n : forall acc p, ord (member_mods toks n acc) p [] (fun _ => []).
Proof. induction n; intros acc p; cbn [member_mods]; go. Qed.
Hint Resolve member_mods_o : ord.
Lemma parse_member_modifiers_o p : ord (parse_member_modifiers toks) p [] (fun _ => []).
Proof. apply member_mods_o. Qed.
Hint Resolve parse_member_modifiers_o : ord.
Lemma patmr_o p : ord (parse_absolute_trait_method_reference toks) p [] (fun r => [IPath (fst r); IKw [KScopeOp]; IName (snd r)]).
Proof. unfold parse_absolute_trait_method_reference. go. Qed.
Hint Resolve patmr_o : ord.
Lemma class_mods_o n : forall acc p, ord (class_mods toks n acc) p [] (fun _ => []).
Proof. induction n; intros acc p; cbn [class_mods]; go. Qed.
Hint Resolve class_mods_o : ord.

Section Knot.
Variables (pe : nat -> P expr) (ps : P stmt).
Hypothesis Hpe : forall prec p, ord (pe prec) p [] items_expr.
Hypothesis Hps : forall p, ord ps p [] items_stmt.
Hint Resolve Hpe Hps : ord.

Notation opt := (opt_items items_expr).
Notation pair_items := (fun kv : option expr * expr => let (k, v) := kv in opt_items (fun k => items_expr k ++ [IKw [KDoubleArrow]]) k ++ items_expr v).
Lemma parse_opt_expression_o prec p : ord (parse_opt_expression pe prec) p [] opt.
Proof. unfold parse_opt_expression. go. Qed.
Hint Resolve parse_opt_expression_o : ord.
Lemma expression_list_o n : forall acc p, ord (expression_list toks pe n acc) p (flat_map items_expr acc) (flat_map items_expr).
Proof. induction n; intros acc p; cbn [expression_list]; go. Qed.
Hint Resolve expression_list_o : ord.
Lemma parse_expression_list_o p : ord (parse_expression_list toks pe) p [] (flat_map items_expr).
Proof. apply expression_list_o. Qed.
Hint Resolve parse_expression_list_o : ord.
Lemma argument_list_o n : forall acc p, ord (argument_list toks pe n acc) p (flat_map items_expr acc) (flat_map items_expr).
Proof. induction n; intros acc p; cbn [argument_list]; go. Qed.
Hint Resolve argument_list_o : ord.
Definition args_items (l : list expr) : list item := IKw [KParenthesesOpen] :: flat_map items_expr l ++ [IKw [KParenthesesClose]].
Lemma parse_argument_list_o p : ord (parse_argument_list toks pe) p [] args_items.
Proof. unfold parse_argument_list, args_items. go. Qed.
Hint Resolve parse_argument_list_o : ord.
Lemma array_pairs_o n : forall acc p, ord (array_pairs toks pe n acc) p (flat_map pair_items acc) (flat_map pair_items).
Proof. induction n; intros acc p; cbn [array_pairs]; go. Qed.
Hint Resolve array_pairs_o : ord.
Lemma parse_array_pair_list_o p : ord (parse_array_pair_list toks pe) p [] (flat_map pair_items).
Proof. apply array_pairs_o. Qed.
Hint Resolve parse_array_pair_list_o : ord.
Lemma parse_dereferencable_scalar_o p : ord (parse_dereferencable_scalar toks pe) p [] items_expr.
Proof. unfold parse_dereferencable_scalar. go. Qed.
Hint Resolve parse_dereferencable_scalar_o : ord.
Lemma parse_property_name_o p : ord (parse_property_name toks pe) p [] items_expr.
Proof. unfold parse_property_name. go. Qed.
Hint Resolve parse_property_name_o : ord.
Lemma parse_base_variable_o b p : ord (parse_base_variable toks pe b) p [] items_expr.
Proof. unfold parse_base_variable. go. Qed.
Hint Resolve parse_base_variable_o : ord.
Lemma parse_const_scoped_o b p : ord (parse_const_scoped toks b) p [] items_expr.
Proof. unfold parse_const_scoped. go. Qed.
Hint Resolve parse_const_scoped_o : ord.
Lemma parse_fn_call_base_item_o b p : ord (parse_fn_call_base_item toks b) p [] items_expr.
Proof. unfold parse_fn_call_base_item. go. Qed.
Hint Resolve parse_fn_call_base_item_o : ord.

Lemma push_idx_items v i e : items_expr (push_idx v i e) = items_expr v ++ IKw [KSquareBracketOpen] :: opt i ++ [IKw [KSquareBracketClose]].
Proof. destruct v as [[] ?]; nf; reflexivity. Qed.
Lemma push_prop_items v m e : items_expr (push_prop v m e) = items_expr v ++ IKw [KObjectOp] :: items_expr m.
Proof. destruct v as [[] ?]; nf; reflexivity. Qed.
Lemma push_static_items v m e : items_expr (push_static v m e) = items_expr v ++ IKw [KScopeOp] :: items_expr m.
Proof. destruct v as [[] ?]; nf; reflexivity. Qed.
Lemma appendixes_o n : forall b v p, ord (appendixes toks pe n b v) p (items_expr v) items_expr.
Proof.
  induction n; intros b v p; cbn [appendixes]; [go|].
  assert (Hi : forall i e p, ord (appendixes toks pe n b (push_idx v i e)) p
    (items_expr v ++ IKw [KSquareBracketOpen] :: opt i ++ [IKw [KSquareBracketClose]]) items_expr)
    by (intros i e p0; rewrite <- (push_idx_items v i e); apply IHn).
  assert (Hp : forall m e p, ord (appendixes toks pe n b (push_prop v m e)) p (items_expr v ++ IKw [KObjectOp] :: items_expr m) items_expr)
    by (intros m e p0; rewrite <- (push_prop_items v m e); apply IHn).
  assert (Hs : forall m e p, ord (appendixes toks pe n b (push_static v m e)) p (items_expr v ++ IKw [KScopeOp] :: items_expr m) items_expr)
    by (intros m e p0; rewrite <- (push_static_items v m e); apply IHn).
  assert (Hc : forall l sp p, ord (appendixes toks pe n b (Ex (ECall v l) sp)) p (items_expr v ++ args_items l) items_expr)
    by (intros; apply IHn).
  clear IHn. go.
Qed.
Hint Resolve appendixes_o : ord.
Lemma variable_base_o b p : ord (variable_base toks pe b) p [] items_expr.
Proof. unfold variable_base. go. Qed.
Hint Resolve variable_base_o : ord.
Lemma parse_variable_o b p : ord (parse_variable toks pe b None) p [] items_expr.
Proof. unfold parse_variable. go. Qed.
Lemma parse_variable_some_o b i p : ord (parse_variable toks pe b (Some i)) p (items_expr i) items_expr.
Proof. unfold parse_variable. go. Qed.
Hint Resolve parse_variable_o parse_variable_some_o : ord.
Lemma parse_class_name_reference_o p : ord (parse_class_name_reference toks pe) p [] items_expr.
Proof. unfold parse_class_name_reference. go. Qed.
Hint Resolve parse_class_name_reference_o : ord.
Lemma op_cov k o p : binop_of k = Some o -> cov [IKw [k]] p (S p) -> cov (op_items o) p (S p).
Proof.
  intros B C. destruct k; try discriminate B; injection B as <-; cbn [op_items op_kinds]; try (apply cov_none; lia);
    (eapply cov_kw; [exact C|in_list|lia|lia]).
Qed.
Definition opt_left (left : expr) (o : option expr) : list item := match o with Some l => items_expr l | None => items_expr left end.
Lemma parse_binary_expression_o l prec p :
  ord (parse_binary_expression toks pe l prec) p (items_expr l) (opt_left l).
Proof.
  intros. unfold parse_binary_expression. st. st. st.
  destruct (nth_error toks p) as [[[k| | | | | | | |] sp]|] eqn:N; try (st; unfold adds; cbn [opt_left]; fin).
  destruct (precedence k) as [np|] eqn:PR; [|st; unfold adds; cbn [opt_left]; fin].
  destruct (Nat.leb np prec); [st; unfold adds; cbn [opt_left]; fin|]. st. st.
  assert (C : cov [IKw [k]] p (S p)) by (eapply cov_tok; [exact N|constructor; left; reflexivity]).
  assert (O : wo (o <~ unwrap_p (binop_of k) ;;
          np' <~ match assoc_right k with
                 | Some true => psub np 1
                 | Some false => pret np
                 | None => ppanic PUnimplemented
                 end ;;
          right <~ pe np' ;;
          pret (Some (Ex (EBinary o l right) (mk_span (estart l) (eend right))))) (S p)
     (fun a q => adds toks (items_expr l) (opt_left l) a p q) (fun _ q => p <= q)).
  { st. st. match goal with H : binop_of k = Some ?o |- _ => pose proof (op_cov k o p H C) end. st.
    destruct (assoc_right k) as [[]|]; repeat st; try lia; unfold adds; cbn [opt_left]; fin. }
  destruct k; try exact O; clear O.
  - go. unfold adds; cbn [opt_left]; fin.
  - assert (G : wo (right <~ parse_class_name_reference toks pe ;;
            pret (Some (Ex (EInstanceOf l right) (mk_span (estart l) (eend right))))) (S p)
      (fun a q => adds toks (items_expr l) (opt_left l) a p q) (fun _ q => p <= q)).
    { repeat st; try lia. unfold adds; cbn [opt_left]; fin. }
    destruct l as [[] ?]; try exact G. st.
Qed.
Lemma binary_loop_o n : forall prec l p, ord (binary_loop toks pe n prec l) p (items_expr l) items_expr.
Proof.
  induction n; intros prec l p; cbn [binary_loop]; [go|]. st. st.
  eapply ord_use; [apply parse_binary_expression_o| |go].
  intros [e|] q X EX C L; cbn [opt_left] in EX; [|go]. go.
Qed.
Hint Resolve binary_loop_o : ord.
Notation sts := (flat_map items_stmt).
Lemma pseb_o p : ord (parse_statement_extract_block ps) p [] (fun r => sts (fst r)).
Proof.
  unfold parse_statement_extract_block. st. st. use; [|lia].
  destruct a as [[] sp]; (st; unfold adds; cbn [fst flat_map app]; rewrite ?app_nil_r; eexists; split; [reflexivity|eassumption]).
Qed.
Hint Resolve pseb_o : ord.
Lemma inner_statements_o n : forall acc p, ord (inner_statements toks ps n acc) p (sts acc) (fun r => sts (fst r)).
Proof. induction n; intros acc p; cbn [inner_statements]; go. Qed.
Hint Resolve inner_statements_o : ord.
Lemma pisl_o p : ord (parse_inner_statement_list toks ps) p [] (fun r => sts (fst r)).
Proof.
  unfold parse_inner_statement_list.
  assert (H1 : ord (inner_statements toks ps (lf toks) []) p [] (fun r => sts (fst r))) by (apply inner_statements_o).
  destruct toks; [apply wo_panic|exact H1].
Qed.
Hint Resolve pisl_o : ord.
Lemma parse_param_type_o p : ord (parse_param_type toks) p [] (fun t => match t with inl t => opt_items items_ty t | inr _ => [] end).
Proof. unfold parse_param_type. go. Qed.
Hint Resolve parse_param_type_o : ord.
Lemma parameter_list_o n : forall acc p,
  ord (parameter_list toks pe n acc) p (flat_map items_param acc) (fun r => flat_map items_param (fst r)).
Proof. induction n; intros acc p; cbn [parameter_list]; [go|]. st. st. use; [|lia]. destruct a; go. Qed.
Hint Resolve parameter_list_o : ord.
Lemma parse_parameter_list_o p : ord (parse_parameter_list toks pe) p [] (fun r => flat_map items_param (fst r)).
Proof. apply parameter_list_o. Qed.
Hint Resolve parse_parameter_list_o : ord.
Notation use_items := (flat_map (fun u : bool * str => let (ref, v) := u in flag ref KAmpersand ++ [IVar v])).
Lemma use_vars_o n : forall acc p, ord (use_vars toks n acc) p (use_items acc) use_items.
Proof. induction n; intros acc p; cbn [use_vars]; go. Qed.
Hint Resolve use_vars_o : ord.

(** a function read behind [function] *)
Definition is_fun (closure : bool) (s : stmt) (l : list item) : Prop :=
  if closure then exists d sp sp', s = St (SExpr (Ex (EFunction d) sp)) sp' /\ l = items_fundecl [] d
  else exists n d sp, s = St (SDecl (DFunction n d)) sp /\ l = items_fundecl [IName n] d.
Definition name_items (o : option str) : list item := opt_items (fun s => [IName s]) o.
Lemma fun_name_o (cl : bool) p :
  wo (if cl then pret None else (s <~ expect_string toks ;; pret (Some s))) p
    (fun o q => cov (name_items o) p q /\ p <= q /\ (if cl then o = None else exists s, o = Some s)) (fun _ q => p <= q).
Proof.
  destruct cl; repeat st; try lia.
  - repeat split; auto. apply covers_none.
  - split; [assumption|]. split; [assumption|eauto].
Qed.
Lemma fun_close_o e p : ord (look toks KParenthesesClose (fun _ => pret tt) (match e with Some e => pthrow e | None => ppanic PUnwrap end)) p []
  (fun _ => [IKw [KParenthesesClose]]).
Proof. destruct e; go. Qed.
Lemma fun_use_o (cl : bool) p : ord (if cl then look toks KUse (fun _ =>
     expect toks KParenthesesOpen ;~ l <~ use_vars toks (lf toks) [] ;; expect toks KParenthesesClose ;~ pret l) (pret []) else pret []) p [] use_items.
Proof. destruct cl; go. Qed.
Lemma fun_nobody_o (ab : bool) p :
  ord (if ab then look toks KSemiColon (fun _ => pret true) (pret false) else pret false) p [] (fun _ => []).
Proof. destruct ab; go. Qed.
Notation body_items := (opt_items (fun b => IKw [KCurlyBracesOpen] :: sts b ++ [IKw [KCurlyBracesClose]])).
Lemma fun_body_o (nb : bool) p :
  ord (if nb then pret None
       else expect toks KCurlyBracesOpen ;~ b <~ parse_inner_statement_list toks ps ;;
         expect_or toks KCurlyBracesClose (snd b) ;~ pret (Some (fst b))) p [] body_items.
Proof. destruct nb; go. Qed.
Hint Resolve fun_close_o fun_use_o fun_nobody_o fun_body_o : ord.
Lemma parse_function_declaration_w sp cl ab p :
  wo (parse_function_declaration toks pe ps sp cl ab) p
    (fun s q => exists l, is_fun cl s l /\ cov l p q) (fun _ q => p <= q).
Proof.
  unfold parse_function_declaration. st. use; [|lia]. st.
  eapply wo_mono; [apply fun_name_o| |]; cbv beta; [|intros; lia]. intros nm q1 (Cn & L1 & Hn).
  st. use; [|lia]. st. use; [|lia]. st. use; [|lia]. st. use; [|lia]. st. use; [|lia]. st. use; [|lia]. st. st.
  cbv zeta. st. unfold is_fun. destruct cl.
  - subst nm. eexists. split; [do 3 eexists; split; reflexivity|]. cbn [items_fundecl app]. cvr.
  - destruct Hn as (s & ->). eexists. split; [do 3 eexists; split; reflexivity|]. cbn [items_fundecl app].
    cbn [name_items opt_items] in Cn. cvr.
Qed.

Notation tu := (flat_map items_trait_use).
Lemma trait_ref_w p1 :
  wo (pcatch (parse_absolute_trait_method_reference toks)
           (fun r => pret (Some (Some (fst r), snd r)))
           (fun _ =>
              setpos p1 ;~
              pcatch (parse_identifier toks) (fun i => pret (Some (None, fst i))) (fun _ => pret None))) p1
    (fun r p2 => p1 <= p2 /\ match r with
      | Some (Some pa, m) => exists x y, cov [IPath pa] p1 x /\ cov [IKw [KScopeOp]] x y /\ cov [IName m] y p2 /\ p1 <= x /\ x <= y /\ y <= p2
      | Some (None, m) => cov [IName m] p1 p2
      | None => True
      end) (fun _ q => p1 <= q).
Proof.
  unfold parse_absolute_trait_method_reference. repeat st; try lia; cbn [fst snd]; (split; [lia|]); auto.
  do 2 eexists. repeat (split; [eassumption|]). assumption.
Qed.
Lemma trait_uses_o n : forall b acc p, ord (trait_uses toks n b acc) p (tu acc) tu.
Proof.
  induction n; intros b acc p; cbn [trait_uses]; [go|]. st. st.
  eapply (ord_use toks _ _ [] (fun _ : unit => [])); [destruct b; go| |go].
  intros [] p1 X EX C1 L1. st. st. st.
  eapply wo_mono; [apply trait_ref_w| |]; cbv beta; [|intros; lia].
  intros [[[pa|] m]|] p2 (L2 & H); [destruct H as (x & y & ? & ? & ? & ? & ? & ?)| |]; clear EX; go.
Qed.
Hint Resolve trait_uses_o : ord.
Notation mem := (flat_map items_member).
Lemma class_consts_o n : forall m acc p, ord (class_consts toks pe n m acc) p (mem acc) mem.
Proof. induction n; intros m acc p; cbn [class_consts]; go. Qed.
Hint Resolve class_consts_o : ord.
Lemma class_props_o n : forall m acc p, ord (class_props toks pe n m acc) p (mem acc) mem.
Proof. induction n; intros m acc p; cbn [class_props]; go. Qed.
Hint Resolve class_props_o : ord.
Lemma parse_class_statement_o p : ord (parse_class_statement toks pe ps) p [] mem.
Proof.
  unfold parse_class_statement. st. cbv zeta.
  apply wo_look; [intros sp N C; go|]. st. use; [|lia].
  apply wo_look; [intros sp N C; go|].
  apply wo_look; [|go]. intros sp N C. st.
  eapply wo_mono; [apply parse_function_declaration_w| |]; cbv beta; [|intros; lia].
  intros s q2 (l & (n & d & sp' & -> & ->) & C2). pose proof (cov_le _ _ _ _ C2). st. unfold adds. cbn [items_member flat_map app].
  rewrite app_nil_r. eexists. split; [reflexivity|]. cvr.
Qed.
Hint Resolve parse_class_statement_o : ord.
Lemma class_statements_o n : forall acc p, ord (class_statements toks pe ps n acc) p (mem acc) (fun r => mem (fst r)).
Proof. induction n; intros acc p; cbn [class_statements]; go. Qed.
Hint Resolve class_statements_o : ord.
Lemma pcsl_o p : ord (parse_class_statement_list toks pe ps) p [] (fun r => mem (fst r)).
Proof.
  unfold parse_class_statement_list.
  assert (H1 : ord (class_statements toks pe ps (lf toks) []) p [] (fun r => mem (fst r))) by (apply class_statements_o).
  destruct toks; [apply wo_panic|exact H1].
Qed.
Hint Resolve pcsl_o : ord.

Lemma parse_oo_declaration_o p : ord (parse_oo_declaration toks pe ps) p [] items_stmt.
Proof.
  unfold parse_oo_declaration. st. st.
  eapply (wo_mono _ _ (fun ot q => p <= q /\ match ot with OoTrait => cov [IKw [KTrait]] p q | OoInterface => cov [IKw [KInterface]] p q | OoClass => True end)
    _ (fun _ q => p <= q)); cbv beta; [| |auto].
  { repeat st; (split; [lia|auto]). }
  intros ot p1 (L1 & C1). st.
  eapply (wo_mono _ _ (fun _ q => p1 <= q /\ exists C, cov C p q /\ C = match ot with OoTrait => [IKw [KTrait]] | OoInterface => [IKw [KInterface]] | OoClass => [IKw [KClass]] end)
    _ (fun _ q => p <= q)); cbv beta; [| |auto].
  { destruct ot; repeat st; try lia; (split; [lia|]); eexists; (split; [|reflexivity]); cvr. }
  intros cm p2 (L2 & C2 & HC & EC). clear C1. st. st. st. st. st. st. st. st. st. use; [|lia]. st.
  eapply (ord_use toks _ _ [] (fun o => opt_items (fun p => [IKw [KExtends]; IPath p]) o)); [destruct ot; go| |intros; lia].
  intros ex p3 X EX C3 L3. cbn [app] in EX. subst X. st.
  eapply (ord_use toks _ _ [] (map IPath)); [destruct ot; go| |intros; lia].
  intros im p4 X EX C4 L4. cbn [app] in EX. subst X.
  destruct ot; subst C2; go.
Qed.
Hint Resolve parse_oo_declaration_o : ord.

(** the text not yet flushed: consecutive literal tokens from [a] on *)
Definition pending (s : str) (a p : nat) : Prop := exists ss, s = List.concat ss /\ slice toks a p = map TCes ss.
Definition encaps_inv (p0 p : nat) (st : encaps) : Prop :=
  exists a, p0 <= a /\ a <= p /\ cov (flat_map items_expr (ec_parts st)) p0 a /\ pending (ec_str st) a p.
Lemma slice_empty p : slice toks p p = [].
Proof. unfold slice. rewrite Nat.sub_diag. reflexivity. Qed.
Lemma pending_cov s a p : a <= p -> pending s a p -> cov (text_items s) a p.
Proof.
  intros L (ss & -> & E). destruct (List.concat ss) as [|c s] eqn:C; [apply cov_none; auto|].
  split; [exact L|]. rewrite E. cbn [text_items]. rewrite <- C. apply covers_one. constructor. intros ->. discriminate C.
Qed.
Lemma encaps_flush_w p0 p q st : encaps_inv p0 p st ->
  wo (encaps_flush st) q (fun parts q' => q' = q /\ cov (flat_map items_expr parts) p0 p) (fun _ _ => False).
Proof.
  intros (a & L0 & L & C & PN). pose proof (pending_cov _ _ _ L PN) as T. unfold encaps_flush.
  destruct (ec_str st) as [|c s]; repeat st; (split; [reflexivity|]).
  - cvr.
  - nf. cbn [text_items]. cbn [text_items] in T. cvr.
Qed.
Lemma encaps_loop_w n : forall p0 s p, p0 <= p -> encaps_inv p0 p s ->
  wo (encaps_loop toks pe n s) p (fun s' q => p <= q /\ exists q', q' <= q /\ encaps_inv p0 q' s') (fun _ q => p <= q).
Proof.
  induction n; intros p0 s p L0 INV; cbn [encaps_loop]; [st|].
  assert (Next : forall parts r1 r2 q, p <= q -> cov (flat_map items_expr parts) p0 q ->
    wo (encaps_loop toks pe n (mkEncaps [] parts r1 r2)) q (fun s' q => p <= q /\ exists q', q' <= q /\ encaps_inv p0 q' s') (fun _ q => p <= q)).
  { intros parts r1 r2 q L C. eapply wo_mono; [apply (IHn p0 _ q); [lia|]| |]; cbv beta; [| |intros; lia].
    - exists q. cbn [ec_parts ec_str]. split; [lia|]. split; [lia|]. split; [exact C|]. exists []. split; [reflexivity|]. apply slice_empty.
    - intros s' q2 (A & B). split; [lia|exact B]. }
  apply wo_look_ces.
  { intros x sp N _. eapply wo_mono; [apply (IHn p0 _ (S p)); [lia|]| |]; cbv beta; [| |intros; lia].
    - destruct INV as (a & A & B & C & (ss & E1 & E2)). exists a. cbn [ec_parts ec_str]. split; [lia|]. split; [lia|]. split; [exact C|].
      exists (ss ++ [x]). rewrite concat_app, map_app, (slice_split toks a p (S p)), E2, (slice_one toks _ _ _ N), E1 by lia.
      cbn [List.concat]. rewrite app_nil_r. split; reflexivity.
    - intros s' q2 (A & B). split; [lia|exact B]. }
  apply wo_look.
  { intros sp N CD. st. eapply wo_mono; [apply (encaps_flush_w p0 p); exact INV| |]; cbv beta; [|contradiction].
    intros parts q (-> & C). st.
    eapply (wo_mono _ _ (fun e q => cov (items_expr e) p q /\ p <= q) _ (fun _ q => p <= q)); cbv beta; [| |intros; lia].
    - st. eapply wo_mono; [apply parse_identifier_w| |]; cbv beta.
      + intros i q (t & sp' & N' & W & ->).
        assert (CV : cov [IVar (fst i)] p (S (S p))).
        { split; [lia|]. rewrite (slice_split toks p (S p)), (slice_one toks _ _ _ N), (slice_one toks _ _ _ N') by lia.
          apply covers_one. apply means_braced. exact W. }
        st. use; [|lia]. st. use; [|lia]. st. nf. rew. nf. split; [cvr|lia].
      + intros e q L. repeat st; try lia. nf. split; [cvr|lia].
    - intros e q (Ce & Lq). apply Next; [lia|]. nf. cvr. }
  apply wo_look.
  { intros sp N CD. st. eapply wo_mono; [apply (encaps_flush_w p0 p); exact INV| |]; cbv beta; [|contradiction].
    intros parts q (-> & C). st. use; [|lia]. st. use; [|lia]. apply Next; [lia|]. nf. cvr. }
  st. use.
  - st. eapply wo_mono; [apply (encaps_flush_w p0 p); exact INV| |]; cbv beta; [|contradiction].
    intros parts q' (-> & C). apply Next; [lia|]. nf. cvr.
  - st. split; [lia|]. exists p. split; [lia|exact INV].
Qed.
Lemma concat_parts_items l e : items_expr (concat_parts l e) = flat_map items_expr l ++ items_expr e.
Proof. induction l; cbn [concat_parts fold_right flat_map]; [reflexivity|]. nf. fold (concat_parts l e). rewrite IHl. reflexivity. Qed.
Lemma parse_encaps_list_o p : ord (parse_encaps_list toks pe) p [] items_expr.
Proof.
  unfold parse_encaps_list. st. st. eapply wo_mono; [apply (encaps_loop_w _ p); [lia|]| |]; cbv beta; [| |auto].
  { exists p. cbn [ec_parts ec_str flat_map]. split; [lia|]. split; [lia|]. split; [apply cov_none; lia|]. exists []. split; [reflexivity|]. apply slice_empty. }
  intros s q (L & q' & L' & (a & A & B & C & PN)). apply pending_cov in PN; [|lia].
  st. eapply (wo_mono _ _ (fun o q2 => q2 = q /\ match o with Some e => items_expr e = text_items (ec_str s) | None => ec_str s = [] end) _ (fun _ _ => False));
    cbv beta; [destruct (ec_str s); repeat st; split; reflexivity| |contradiction].
  intros o q2 (-> & Ho). destruct (ec_parts s) as [|x l] eqn:EP.
  - destruct o as [e|]; [|repeat st; lia]. st. exists (text_items (ec_str s)). split; [exact Ho|]. cbn [flat_map] in C. cvr.
  - destruct o as [e|]; st; unfold adds; rewrite concat_parts_items.
    + rewrite Ho. exists (flat_map items_expr (x :: l) ++ text_items (ec_str s)). split; [reflexivity|]. cvr.
    + assert (E : flat_map items_expr (x :: l) = flat_map items_expr (removelast (x :: l)) ++ items_expr (last (x :: l) (Ex (EInt 0) span_new))).
      { rewrite <- (removelast_last (x :: l) (Ex (EInt 0) span_new)) at 1 by discriminate. rewrite flat_map_app.
        cbn [flat_map]. rewrite app_nil_r. reflexivity. }
      rewrite <- E. exists (flat_map items_expr (x :: l)). split; [reflexivity|]. cvr.
Qed.
Hint Resolve parse_encaps_list_o : ord.

Lemma scalar_cov t e sp p : scalar_of t = Some e -> nth_error toks p = Some (t, sp) -> cov (items_expr_ e) p (S p).
Proof.
  intros S N. destruct t as [k| | | | | | | |]; try discriminate S; [destruct k; try discriminate S| |];
    injection S as <-; (eapply cov_tok; [exact N|constructor]; left; reflexivity).
Qed.
Lemma parse_scalar_o p : ord (parse_scalar toks pe) p [] items_expr.
Proof.
  unfold parse_scalar, respan. st. st. st. destruct (nth_error toks p) as [[x sp]|] eqn:N; [|go].
  destruct (scalar_of x) as [e|] eqn:S.
  { pose proof (scalar_cov _ _ _ _ S N). go. }
  assert (D : wo (pcatch (parse_dereferencable_scalar toks pe) pret (fun _ => parse_constant toks)) p
    (fun a q => adds toks [] items_expr a p q) (fun _ q => p <= q)) by go.
  destruct x as [k| | | | | | | |]; try exact D. destruct k; try exact D; clear D S.
  - go.
  - go.
Qed.
Hint Resolve parse_scalar_o : ord.
Lemma isset_args_o n : forall b acc p, ord (isset_args toks pe n b acc) p (flat_map items_expr acc) (flat_map items_expr).
Proof. induction n; intros b acc p; cbn [isset_args]; go. Qed.
Hint Resolve isset_args_o : ord.
Lemma assign_cov p o : assign_of (nth_error toks p) = Some o ->
  match o with OEq => cov [IKw [KEqual]] p (S p) | _ => cov [IKw (assign_kinds o)] p (S p) end.
Proof.
  destruct (nth_error toks p) as [[[k| | | | | | | |] sp]|] eqn:N; try discriminate. cbn [assign_of].
  destruct k; try discriminate; intros E; injection E as <-; (eapply cov_tok; [exact N|constructor; left; reflexivity]).
Qed.
Lemma parse_assign_o v p : ord (parse_assign toks pe v) p (items_expr v) items_expr.
Proof.
  unfold parse_assign. st. st. st. destruct (assign_of (nth_error toks p)) as [o|] eqn:E; [apply assign_cov in E|go].
  st. st. destruct o; go.
Qed.
Hint Resolve parse_assign_o : ord.
Lemma parse_variable_expression_o p : ord (parse_variable_expression toks pe) p [] items_expr.
Proof. unfold parse_variable_expression. go. Qed.
Hint Resolve parse_variable_expression_o : ord.

Lemma cast_cov k t p : cast_ty k = Some t -> cov [IKw [k]] p (S p) -> cov [IKw (cast_kinds t)] p (S p).
Proof. intros E C. destruct k; try discriminate E; injection E as <-; exact C. Qed.
Lemma include_cov k t p : include_of k = Some t -> cov [IKw [k]] p (S p) -> cov [IKw [include_kind t]] p (S p).
Proof. intros E C. destruct k; try discriminate E; injection E as <-; exact C. Qed.
Lemma parse_internal_o rest p : ord rest p [] items_expr -> ord (parse_internal toks pe rest) p [] items_expr.
Proof.
  intros R. unfold parse_internal. st. st. st.
  destruct (nth_error toks p) as [[[k| | | | | | | |] sp]|] eqn:N; try exact R.
  assert (C : cov [IKw [k]] p (S p)) by (eapply cov_tok; [exact N|constructor; left; reflexivity]).
  destruct (cast_ty k) as [ct|] eqn:CT; [pose proof (cast_cov _ _ _ CT C); go|].
  destruct (include_of k) as [it|] eqn:IT; [pose proof (include_cov _ _ _ IT C); go|].
  destruct k; try exact R; try solve [go].
  st. st. st. use; [|lia]. st. use; [|lia]. st. use; [|lia].
  destruct a0 as [|e [|e2 l]]; try (repeat st; lia). cbn [flat_map] in *. rewrite app_nil_r in *. go.
Qed.
Lemma parse_other_expression_o p : ord (parse_other_expression toks pe ps) p [] items_expr.
Proof.
  assert (I : forall p, ord (parse_internal toks pe (parse_variable_expression toks pe)) p [] items_expr).
  { intros. apply parse_internal_o. apply parse_variable_expression_o. }
  unfold parse_other_expression. st.
  apply wo_look; [intros sp N C|].
  { st. use; [|lia]. st. st. st.
    eapply (ord_use toks _ _ [] (fun l => flat_map items_expr l)); [|intros l q2 X EX C2 L2; cbn [app] in EX; subst X; go|intros; lia].
    destruct b; [|go].
    eapply wo_mono; [apply parse_argument_list_o| |]; cbv beta; [|auto]. intros l q2 (X & E & C2). cbn [app] in E. subst X.
    eexists. split; [reflexivity|]. eapply cov_mid. exact C2. }
  do 3 (apply wo_look; [intros sp N C; go|]).
  apply wo_look; [intros sp N C|apply I].
  st. eapply wo_mono; [apply parse_function_declaration_w| |]; cbv beta; [|intros; lia].
  intros s q (l & (d & sp1 & sp2 & -> & ->) & C2). st. pose proof (cov_le _ _ _ _ C2). unfold adds. names. eexists. split; [reflexivity|]. cvr.
Qed.
Hint Resolve parse_other_expression_o : ord.
Lemma parse_postfix_expression_o p : ord (parse_postfix_expression toks pe ps) p [] items_expr.
Proof. unfold parse_postfix_expression. repeat st; try lia; unfold adds; names; cbn [unary_items]; fin. Qed.
Hint Resolve parse_postfix_expression_o : ord.
Lemma unop_cov x o sp p l q : unop_of x = Some o -> nth_error toks p = Some (x, sp) -> cov l (S p) q -> cov (unary_items o l) p q.
Proof.
  intros U N C. assert (S p <= q) by (eapply cov_le; eauto). destruct x as [k| | | | | | | |]; try discriminate U.
  assert (D : cov [IKw [k]] p (S p)) by (eapply cov_tok; [exact N|constructor; left; reflexivity]).
  destruct k; try discriminate U; injection U as <-; cbn [unary_items]; cvr.
Qed.
Lemma parse_unary_expression_o prec p : ord (parse_unary_expression toks pe ps prec) p [] items_expr.
Proof.
  unfold parse_unary_expression. st. st. st. destruct (nth_error toks p) as [[x sp]|] eqn:N; [|go].
  st. eapply (ord_use toks _ _ [] items_expr); [|intros l q X EX C L; cbn [app] in EX; subst X; go|intros; lia].
  destruct (unop_of x) as [o|] eqn:U; [|go]. repeat st; try lia.
  match goal with C : cov _ _ _ |- _ => pose proof (unop_cov _ _ _ _ _ _ U N C) end. eexists. split; [reflexivity|assumption].
Qed.
Lemma parse_foreach_variable_o p : ord (parse_foreach_variable toks pe) p [] items_expr.
Proof. unfold parse_foreach_variable. st. st. use; [|lia]. destruct a; cbn [flag] in *; go. Qed.
Hint Resolve parse_foreach_variable_o : ord.
Notation var_items := (flat_map (fun x : str * option expr => let (v, e) := x in IVar v :: opt_items (fun e => IKw [KEqual] :: items_expr e) e)).
Lemma static_vars_o n : forall acc p, ord (static_vars toks pe n acc) p (var_items acc) var_items.
Proof. induction n; intros acc p; cbn [static_vars]; go. Qed.
Hint Resolve static_vars_o : ord.
Lemma parse_static_var_decl_o sp p : ord (parse_static_var_decl toks pe sp) p [IKw [KStatic]] items_stmt.
Proof. unfold parse_static_var_decl. go. Qed.
Lemma global_vars_o n : forall acc p, ord (global_vars toks n acc) p (flat_map items_variable acc) (flat_map items_variable).
Proof. induction n; intros acc p; cbn [global_vars]; go. Qed.
Hint Resolve global_vars_o : ord.
Lemma parse_global_var_decl_o sp p : ord (parse_global_var_decl toks sp) p [IKw [KGlobal]] items_stmt.
Proof. unfold parse_global_var_decl. go. Qed.
Lemma parse_braced_o p : ord (parse_braced toks ps) p [] (fun r => sts (fst r)).
Proof. unfold parse_braced. go. Qed.
Hint Resolve parse_braced_o : ord.
Notation cat := (flat_map items_catch).
Lemma catch_clauses_o n : forall acc p, ord (catch_clauses toks ps n acc) p (cat acc) cat.
Proof. induction n; intros acc p; cbn [catch_clauses]; go. Qed.
Hint Resolve catch_clauses_o : ord.
Lemma parse_try_o sp p : ord (parse_try toks ps sp) p [IKw [KTry]] items_stmt.
Proof. unfold parse_try. go. Qed.
Lemma unset_vars_o n : forall acc p, ord (unset_vars toks pe n acc) p (flat_map items_expr acc) (flat_map items_expr).
Proof. induction n; intros acc p; cbn [unset_vars]; go. Qed.
Hint Resolve unset_vars_o : ord.
Lemma parse_unset_o sp p : ord (parse_unset toks pe sp) p [IKw [KUnset]] items_stmt.
Proof. unfold parse_unset. go. Qed.
Lemma parse_foreach_o sp p : ord (parse_foreach toks pe ps sp) p [IKw [KForeach]] items_stmt.
Proof. unfold parse_foreach. go. Qed.
Lemma parse_for_o sp p : ord (parse_for toks pe ps sp) p [IKw [KFor]] items_stmt.
Proof. unfold parse_for. go. Qed.

Notation case_conds := (flat_map (fun e => IKw [KCase] :: items_expr e)).
Notation sw := (fun r : list swcase * list expr => flat_map items_swcase (fst r) ++ case_conds (snd r)).
Lemma switch_cases_o n : forall cs cd p, ord (switch_cases toks pe ps n cs cd) p (flat_map items_swcase cs ++ case_conds cd) sw.
Proof.
  induction n; intros cs cd p; cbn [switch_cases]; [go|]. st. cbv zeta.
  apply wo_look; [intros sp N C|apply wo_look; [intros sp N C|]].
  - st. use; [|lia]. st.
    eapply (ord_use toks _ _ [] (fun _ : unit => [])); [go| |intros; lia].
    intros [] q1 X EX C1 L1. clear X EX C1. st. use; [|lia].
    destruct (fst a0) as [|b l] eqn:EB; cbv beta iota.
    + use; [|lia]. fin.
    + clear EB. revert H1. generalize (b :: l) as bl. intros bl H1. use; [|lia]. fin.
  - st.
    eapply (ord_use toks _ _ [] (fun _ : unit => [])); [go| |intros; lia].
    intros [] q1 X EX C1 L1. clear X EX C1. st. use; [|lia].
    destruct (fst a) as [|b l] eqn:EB; cbv beta iota.
    + use; [|lia]. fin.
    + clear EB. match goal with H : cov (sts (b :: l)) _ _ |- _ => revert H end. generalize (b :: l) as bl. intros bl H1. use; [|lia]. fin.
  - go.
Qed.
Hint Resolve switch_cases_o : ord.

Lemma leftover_items l : flat_map items_swcase (map (fun c => mkCase [c] false []) l) = case_conds l.
Proof. induction l as [|c l IH]; cbn [map flat_map items_swcase flag app]; [reflexivity|]. rewrite !app_nil_r, IH. reflexivity. Qed.
Lemma parse_switch_o sp p : ord (parse_switch toks pe ps sp) p [IKw [KSwitch]] items_stmt.
Proof.
  unfold parse_switch. repeat st; try lia. unfold adds. nf. rewrite leftover_items.
  match goal with H : cov (?x ++ ?y) _ _ |- _ => generalize dependent (x ++ y); intros end. fin.
Qed.
Lemma parse_condition_o p : ord (parse_condition toks pe) p [] items_expr.
Proof. unfold parse_condition. go. Qed.
Hint Resolve parse_condition_o : ord.
Lemma parse_while_o sp p : ord (parse_while toks pe ps sp) p [IKw [KWhile]] items_stmt.
Proof. unfold parse_while. go. Qed.
Lemma parse_do_o sp p : ord (parse_do toks pe ps sp) p [IKw [KDo]] items_stmt.
Proof. unfold parse_do. go. Qed.
Lemma if_arms_o n : forall acc p, ord (if_arms toks pe ps n acc) p (sts acc) sts.
Proof. induction n; intros acc p; cbn [if_arms]; go. Qed.
Hint Resolve if_arms_o : ord.
Lemma fold_none r : fold_left if_fold_step r None = None.
Proof. induction r; auto. Qed.
Lemma fold_step_items a el s : if_fold_step (Some a) el = Some s -> items_stmt s = items_stmt el ++ items_stmt a.
Proof.
  destruct a as [[] ?]; cbn [if_fold_step]; try discriminate; destruct el as [[] ?]; try discriminate;
    (match goal with |- context [match ?e with [] => _ | _ :: _ => _ end] => destruct e end; try discriminate);
    intros E; injection E as <-; nf; reflexivity.
Qed.
Lemma fold_left_items r : forall x s, fold_left if_fold_step r (Some x) = Some s -> items_stmt s = sts (rev r) ++ items_stmt x.
Proof.
  induction r as [|el r IH]; intros x s E; cbn [fold_left] in E.
  - injection E as ->. reflexivity.
  - destruct (if_fold_step (Some x) el) as [y|] eqn:F; [|rewrite fold_none in E; discriminate].
    rewrite (IH _ _ E), (fold_step_items _ _ _ F). cbn [rev]. rewrite flat_map_app. cbn [flat_map]. rewrite app_nil_r, <- app_assoc. reflexivity.
Qed.
Lemma fold_ifs_items l s : fold_ifs l = Some s -> items_stmt s = sts l.
Proof.
  unfold fold_ifs. destruct (rev l) as [|x r] eqn:R; [discriminate|]. intros E. rewrite (fold_left_items _ _ _ E).
  rewrite <- (rev_involutive l), R. cbn [rev]. rewrite flat_map_app. cbn [flat_map]. rewrite app_nil_r. reflexivity.
Qed.
Lemma parse_if_o sp p : ord (parse_if toks pe ps sp) p [IKw [KIf; KElseIf]] items_stmt.
Proof.
  unfold parse_if. st. st. use; [|lia]. st. use; [|lia]. st. use; [|lia].
  destruct (fold_ifs a1) as [s|] eqn:F; [|st]. apply fold_ifs_items in F. st. unfold adds. rewrite F, EX.
  nf. eexists. split; [reflexivity|]. cvr.
Qed.
Lemma parse_other_stmt_o d p : ord (parse_other_stmt toks pe d) p [] items_stmt.
Proof.
  unfold parse_other_stmt, parse_expr_stmt. st. st. st. destruct (nth_error toks p) as [[x sp]|] eqn:N; [|go].
  assert (D : wo (p1 <~ getpos ;; pcatch (pe PrNone)
    (fun e => sp2 <~ expect toks KSemiColon ;; pret (St (SExpr e) (mk_span (estart e) (sp_end sp2))))
    (fun x => deepest_unpack (deep_upd (deep_upd d (mkErr [] p1)) x))) p (fun a q => adds toks [] items_stmt a p q) (fun _ q => p <= q)) by go.
  destruct x as [k| | | | | | | |]; try exact D.
  - assert (C : cov [IKw [k]] p (S p)) by (eapply cov_tok; [exact N|constructor; left; reflexivity]).
    destruct k; try exact D; cbn [simple_stmt]; go.
  - cbn [simple_stmt]. assert (C : cov (text_items s) p (S p)).
    { destruct s; [apply cov_none; lia|]. eapply cov_tok; [exact N|constructor]. }
    go.
Qed.
Hint Resolve parse_other_stmt_o : ord.
Lemma look_restore_o k d m rest p base :
  (forall sp p', cov [IKw [k]] p' (S p') -> ord (m sp) (S p') base items_stmt) -> (base = [IKw [k]]) ->
  (forall d', ord (rest d') p [] items_stmt) -> ord (look_restore toks k d m rest) p [] items_stmt.
Proof.
  intros M -> R. unfold look_restore. st. st. st. apply wo_look.
  - intros sp N C. apply wo_deepest. eapply ord_use; [apply M; exact C| |].
    + intros a q X EX C2 L. unfold adds. rewrite EX. eexists. split; [reflexivity|]. cbn [app]. cvr.
    + intros. do 2 st. apply R.
  - apply R.
Qed.
Lemma parse_statement_body_o p : ord (parse_statement_body toks pe ps) p [] items_stmt.
Proof.
  pose proof parse_try_o. pose proof parse_unset_o. pose proof parse_foreach_o. pose proof parse_for_o.
  pose proof parse_switch_o. pose proof parse_if_o. pose proof parse_while_o. pose proof parse_do_o.
  unfold parse_statement_body. st.
  do 10 (apply wo_look; [intros ? ? ?; go|]).
  eapply look_restore_o; [intros; apply parse_static_var_decl_o|reflexivity|intros d'].
  eapply look_restore_o; [intros; apply parse_global_var_decl_o|reflexivity|intros d2].
  apply (look_restore_o _ _ _ _ _ [IKw [KFunction]]); [|reflexivity|intros d3].
  { intros sp p' C. st. eapply wo_mono; [apply parse_function_declaration_w| |]; cbv beta; [|auto].
    intros s q (l & (n & d & sp' & -> & ->) & C2). unfold adds. names. eexists. split; [reflexivity|exact C2]. }
  go.
Qed.
End Knot.

Lemma knot_o f : (forall prec p, ord (parse_expression toks f prec) p [] items_expr) /\ (forall p, ord (parse_statement toks f) p [] items_stmt).
Proof.
  induction f as [|f [IHe IHs]]; [split; intros; exact Logic.I|]. split; intros; cbn [parse_expression parse_statement].
  - apply parse_unary_expression_o; auto.
  - apply parse_statement_body_o; auto.
Qed.

Section Top.
Variable ps : P stmt.
Hypothesis Hps : forall p, ord ps p [] items_stmt.
Hint Resolve Hps : ord.
Lemma use_clauses_o n : forall acc p, ord (use_clauses toks n acc) p (flat_map items_use acc) (flat_map items_use).
Proof.
  induction n; intros acc p; cbn [use_clauses]; [go|]. st. st.
  assert (K : forall (r : path * span) (b : bool) q, cov [IPath (mkPath b (namespace (fst r)) (identifier (fst r)))] p q -> p <= q ->
    wo (alias <~ look toks KAs (fun _ => s <~ expect_string toks ;; pret (Some s)) (pret None) ;;
       look toks KComma (fun _ => use_clauses toks n (acc ++ [QualifiedName (mkPath b (namespace (fst r)) (identifier (fst r))) alias]))
         (pret (acc ++ [QualifiedName (mkPath b (namespace (fst r)) (identifier (fst r))) alias]))) q
      (fun a q => adds toks (flat_map items_use acc) (flat_map items_use) a p q) (fun _ q => p <= q)) by (intros; go).
  apply wo_look.
  - intros sp N C. st. st.
    eapply wo_mono; [apply (namespace_name_w true (S p)); eauto| |]; cbv beta; [|intros; lia].
    intros r q (L & A & C2). cbn [pred] in C2. apply K; [exact C2|lia].
  - st. st.
    eapply wo_mono; [apply (namespace_name_w false p); exact Logic.I| |]; cbv beta; [|intros; lia].
    intros r q (L & A & C2). apply K; [exact C2|lia].
Qed.
Hint Resolve use_clauses_o : ord.
Lemma parse_top_statement_o p : ord (parse_top_statement toks ps) p [] items_stmt.
Proof. unfold parse_top_statement. go. Qed.
Hint Resolve parse_top_statement_o : ord.
Lemma top_statements_o n : forall acc p, ord (top_statements toks ps n acc) p (flat_map items_stmt acc) (flat_map items_stmt).
Proof. induction n; intros acc p; cbn [top_statements]; go. Qed.
Lemma ptsl_o p : ord (parse_top_statement_list toks ps) p [] (flat_map items_stmt).
Proof.
  unfold parse_top_statement_list.
  assert (H1 : ord (top_statements toks ps (lf toks) []) p [] (flat_map items_stmt)) by (apply top_statements_o).
  destruct toks; [apply wo_panic|exact H1].
Qed.
End Top.
End Pass.
