(** * SpanPass: the spans of what every parser function builds (C45) *)
From Verif Require Import Base Tokens Ast Parser Wp Order SpecSpan Span.
From Coq Require Import String.
Local Open Scope list_scope.

Section Pass.
Variable toks : list tokspan.
Variable V : nat -> nat.
Hypothesis Line : aligned 0 toks V.
Hypothesis NoClone : forall p sp, nth_error toks p <> Some (Kw KClone, sp).
Hypothesis NoDollar : forall p sp, nth_error toks p <> Some (Kw KDollarCurlyBracesOpen, sp).
Notation E := (E toks).
Notation ex := (ex toks V).
Notation on := (on toks V).
Notation grows := (grows toks V).
Notation sx := (sx toks V).
(** a span read behind [p] *)
Definition spot {A} (m : P A) (f : A -> span) : Prop := forall p, V p = 0 ->
  wo m p (fun a q => E p <= sp_start (f a) /\ sp_start (f a) <= sp_end (f a) /\ sp_end (f a) = E q /\ V q = 0) (fun _ q => E p <= E q /\ V q = 0).

Lemma spot_use {A} (m : P A) f p (Q : A -> nat -> Prop) (X : perror -> nat -> Prop) : spot m f -> V p = 0 ->
  (forall a q, E p <= sp_start (f a) -> sp_start (f a) <= sp_end (f a) -> sp_end (f a) = E q -> V q = 0 -> Q a q) -> (forall e q, E p <= E q -> V q = 0 -> X e q) -> wo m p Q X.
Proof. intros H V0 HQ HX. eapply wo_mono; [apply H, V0| |]; cbv beta; [|intros ? ? []; auto]. intros a q (? & ? & ? & ?). auto. Qed.
(** nothing but the position *)
Definition moves {A} (m : P A) : Prop := forall p, V p = 0 -> wo m p (fun _ q => E p <= E q /\ V q = 0) (fun _ q => E p <= E q /\ V q = 0).
Lemma moves_use {A} (m : P A) p (Q : A -> nat -> Prop) (X : perror -> nat -> Prop) : moves m -> V p = 0 ->
  (forall a q, E p <= E q -> V q = 0 -> Q a q) -> (forall e q, E p <= E q -> V q = 0 -> X e q) -> wo m p Q X.
Proof. intros H V0 HQ HX. eapply wo_mono; [apply H, V0| |]; cbv beta; intros ? ? []; auto. Qed.
(** a statement whose first token starts at [lo] *)
Definition tail (m : P stmt) (p lo : nat) : Prop := V p = 0 -> wo m p (fun s q => sfits s lo (E q) /\ E p <= E q /\ V q = 0) (fun _ q => E p <= E q /\ V q = 0).
Lemma tail_use m p lo (Q : stmt -> nat -> Prop) (X : perror -> nat -> Prop) :
  tail m p lo -> V p = 0 -> (forall e q, sfits e lo (E q) -> E p <= E q -> V q = 0 -> Q e q) -> (forall e q, E p <= E q -> V q = 0 -> X e q) -> wo m p Q X.
Proof. intros H V0 HQ HX. eapply wo_mono; [apply H, V0| |]; cbv beta; [|intros ? ? []; auto]. intros a q (? & ? & ?). auto. Qed.
Ltac use2 := first [use | eapply spot_use; [solve [eauto 4 with span] | assumption | intros ? ? ? ? ? ? | intros ? ? ? ?]
  | eapply moves_use; [solve [eauto 4 with span] | assumption | intros ? ? ? ? | intros ? ? ? ?]
  | eapply tail_use; [solve [eauto 4 with span] | assumption | intros ? ? ? ? ? | intros ? ? ? ?] ].
Ltac st := lazymatch goal with |- tail _ _ _ => unfold tail; intros ? | _ => first [Span.st | use2] end.
Ltac go := repeat st; try solve [facts; ln | fin].

Lemma expect_s k : opening (Kw k) = false -> spot (expect toks k) (fun sp => sp).
Proof. intros O p V0. unfold expect. eapply wo_look'; [eassumption|exact O|assumption|intros ? ? (? & ? & ? & ?)|]; go. Qed.
Lemma expect_var_s : moves (expect_var toks).
Proof. intros p V0. unfold expect_var. go. Qed.
Lemma expect_string_s : moves (expect_string toks).
Proof. intros p V0. unfold expect_string. go. Qed.
Lemma expect_or_s k e : opening (Kw k) = false -> spot (expect_or toks k e) (fun sp => sp).
Proof. intros O p V0. unfold expect_or. eapply wo_look'; [eassumption|exact O|assumption|intros ? ? (? & ? & ? & ?)|]; destruct e; go. Qed.
Hint Extern 0 (opening _ = false) => reflexivity : span.
Hint Resolve expect_s expect_or_s expect_var_s expect_string_s : span.
Lemma parse_simple_variable_s : spot (parse_simple_variable toks) snd.
Proof. intros p V0. unfold parse_simple_variable. go. Qed.
Hint Resolve parse_simple_variable_s : span.
Lemma parse_simple_variable_expr_s p : ex (parse_simple_variable_expr toks) p.
Proof. unfold parse_simple_variable_expr. unfold parse_simple_variable. go. Qed.
Hint Resolve parse_simple_variable_expr_s : span.
Lemma parse_is_ref_s : moves (parse_is_ref toks).
Proof. intros p V0. unfold parse_is_ref. go. Qed.
Lemma parse_is_variadic_s : moves (parse_is_variadic toks).
Proof. intros p V0. unfold parse_is_variadic. go. Qed.
Hint Resolve parse_is_ref_s parse_is_variadic_s : span.

(** names *)
Definition frags_in (l : list (str * span)) (lo hi : nat) : Prop :=
  l <> [] /\ lo <= sp_start (span_of_fragments l) /\ sp_start (span_of_fragments l) <= sp_end (span_of_fragments l) /\ sp_end (span_of_fragments l) <= hi.
Lemma frags_snoc acc s sp lo m hi : acc = [] \/ frags_in acc lo m -> lo <= m -> m <= sp_start sp -> sp_start sp <= sp_end sp -> sp_end sp <= hi -> frags_in (acc ++ [(s, sp)]) lo hi.
Proof.
  intros H L A B C. unfold frags_in, span_of_fragments in *. rewrite last_last. cbn [snd mk_span sp_start sp_end] in *. split; [destruct acc; discriminate|].
  destruct H as [->|(N & P & Q & R)]; cbn [app hd snd]; [lia|]. destruct acc as [|x acc]; [congruence|]. cbn [app hd] in *. lia.
Qed.
Lemma ns_fragments_s n : forall acc lo p, V p = 0 -> (acc = [] \/ frags_in acc lo (E p)) -> lo <= E p ->
  wo (ns_fragments toks n acc) p (fun l q => frags_in l lo (E q) /\ E p <= E q /\ V q = 0) (fun _ q => E p <= E q /\ V q = 0).
Proof.
  induction n; intros acc lo p V0 H L; cbn [ns_fragments]; [go|].
  st; [|go]. assert (F : frags_in (acc ++ [(s, sp)]) lo (E (S p))) by (eapply frags_snoc; eauto; lia).
  cbv zeta. st. st. st; [|st; split; [exact F|lia]].
  st. st. destruct (nth_error toks (S (S p))) as [[[| | | | | | | |] ?]|]; try (st; st; st; split; [exact F|lia]).
  eapply wo_mono; [apply (IHn _ lo (S (S p))); [assumption|right|lia]| |]; cbv beta; [|intros ? ? []; split; auto; lia|intros; lia].
  destruct F as (N & P & Q & R). repeat split; auto. lia.
Qed.
Lemma parse_namespace_name_w p : V p = 0 -> wo (parse_namespace_name toks) p
  (fun r q => E p <= sp_start (snd r) /\ sp_start (snd r) <= sp_end (snd r) /\ sp_end (snd r) <= E q /\ V q = 0) (fun _ q => E p <= E q /\ V q = 0).
Proof.
  intros V0. unfold parse_namespace_name. st. eapply wo_mono; [apply (ns_fragments_s _ [] (E p) p); auto| |]; cbv beta; [|auto].
  intros l q ((N & A & B & C) & L). st. cbn [snd]. lia.
Qed.
Lemma parse_namespace_name_s : moves (parse_namespace_name toks).
Proof. intros p V0. eapply wo_mono; [apply parse_namespace_name_w, V0| |]; cbv beta; [intros; lia|auto]. Qed.
Hint Resolve parse_namespace_name_s : span.
Lemma parse_name_w p : V p = 0 -> wo (parse_name toks) p
  (fun r q => E p <= sp_start (snd r) /\ sp_start (snd r) <= sp_end (snd r) /\ sp_end (snd r) <= E q /\ V q = 0) (fun _ q => E p <= E q /\ V q = 0).
Proof.
  intros V0. unfold parse_name. st. st.
  - pose proof (E_wide toks V Line _ _ _ V0 H (or_introl eq_refl)). st. st. eapply wo_mono; [apply parse_namespace_name_w; assumption| |]; cbv beta; [|intros; lia].
    intros r q (A & B & C). cbv iota. st. unfold psub. destruct (Nat.leb_spec 1 (sp_start (snd r))); [|st]. st. st. cbn [snd set_start sp_start sp_end]. lia.
  - st. st. eapply wo_mono; [apply parse_namespace_name_w; assumption| |]; cbv beta; [|intros; lia]. intros r q H. cbv iota. st. exact H.
Qed.
Lemma parse_name_s : moves (parse_name toks).
Proof. intros p V0. eapply wo_mono; [apply parse_name_w, V0| |]; cbv beta; [intros; lia|auto]. Qed.
Hint Resolve parse_name_s : span.
Lemma parse_name_as_expr_s p : ex (parse_name_as_expr toks) p.
Proof.
  unfold parse_name_as_expr. st. st. eapply wo_mono; [apply parse_name_w; assumption| |]; cbv beta; [|auto]. intros r q (A & B & C & D). go.
Qed.
Hint Resolve parse_name_as_expr_s : span.
Lemma name_list_s n : forall acc, moves (name_list toks n acc).
Proof. induction n; intros acc p; try intros ?; cbn [name_list]; go. Qed.
Hint Resolve name_list_s : span.
Lemma parse_name_list_s : moves (parse_name_list toks).
Proof. apply name_list_s. Qed.
Hint Resolve parse_name_list_s : span.
Lemma parse_class_name_s p : ex (parse_class_name toks) p.
Proof. unfold parse_class_name. go. Qed.
Hint Resolve parse_class_name_s : span.
Lemma parse_identifier_s : spot (parse_identifier toks) snd.
Proof.
  intros p V0. unfold parse_identifier. st. st. destruct (nth_error toks p) as [[t sp]|] eqn:N; [|go].
  assert (O : match t with Kw k => is_reserved_non_modifier k | _ => true end = true -> opening t = false) by (destruct t as [[]| | | | | | | |]; reflexivity || discriminate).
  destruct t as [k| | | | | | | |]; try solve [go].
  - destruct (is_reserved_non_modifier k); [|go]. destruct (E_token toks V Line _ _ _ V0 N (O eq_refl)) as (? & ? & ? & ?). go.
  - destruct (E_token toks V Line _ _ _ V0 N (O eq_refl)) as (? & ? & ? & ?). go.
Qed.
Hint Resolve parse_identifier_s : span.
Lemma parse_identifier_as_expr_s p : ex (parse_identifier_as_expr toks) p.
Proof. unfold parse_identifier_as_expr. st. st. eapply wo_mono; [apply parse_identifier_s; assumption| |]; cbv beta; [|auto]. intros r q (A & B & C & D). go. Qed.
Hint Resolve parse_identifier_as_expr_s : span.
Lemma resolve_fits e a b : fits e a b -> fits (resolve_constant e) a b.
Proof.
  intros F. unfold resolve_constant. destruct e as [[] sp]; auto. destruct (namespace p); auto. cbv zeta.
  repeat match goal with |- context [if ?b then _ else _] => destruct b; auto end.
Qed.
Lemma parse_constant_s p : ex (parse_constant toks) p.
Proof.
  unfold parse_constant. st. st. use; [|auto]. match goal with H : fits ?e _ _ |- _ => apply resolve_fits in H; generalize dependent (resolve_constant e) end.
  intros c F. go.
Qed.
Hint Resolve parse_constant_s : span.
Lemma member_mods_s n : forall acc, moves (member_mods toks n acc).
Proof. induction n; intros acc p; try intros ?; cbn [member_mods]; go. Qed.
Hint Resolve member_mods_s : span.
Lemma parse_member_modifiers_s : moves (parse_member_modifiers toks).
Proof. apply member_mods_s. Qed.
Hint Resolve parse_member_modifiers_s : span.
Lemma patmr_s : moves (parse_absolute_trait_method_reference toks).
Proof. intros p V0. unfold parse_absolute_trait_method_reference. go.
Qed.
Hint Resolve patmr_s : span.
(** every modifier is one token *)
Lemma class_mods_s n : forall acc p, V p = 0 ->
  wo (class_mods toks n acc) p (fun l q => (E p <= E q /\ V q = 0) /\ List.length l + p = q + List.length acc) (fun _ q => E p <= E q /\ V q = 0).
Proof.
  induction n; intros acc p V0; cbn [class_mods]; [go|].
  repeat (st; [eapply wo_mono; [apply IHn; assumption| |]; cbv beta; [intros l q [A B]; rewrite app_length in B; cbn [List.length] in B; split; lia|intros; lia]|]). st. split; lia.
Qed.

Section Knot.
Variables (pe : nat -> P expr) (ps : P stmt).
Hypothesis Hpe : forall prec p, ex (pe prec) p.
Hypothesis Hps : forall p, sx ps p.
Hint Resolve Hpe Hps : span.
Notation opt := (opt_regions regions).
Notation pairs := (flat_map (fun kv : option expr * expr => let (k, v) := kv in opt_regions regions k ++ regions v)).

Lemma parse_opt_expression_s prec p : grows (parse_opt_expression pe prec) p [] opt.
Proof. unfold parse_opt_expression. go. Qed.
Hint Resolve parse_opt_expression_s : span.
Lemma expression_list_s n : forall acc p, grows (expression_list toks pe n acc) p (flat_map regions acc) (flat_map regions).
Proof. induction n; intros acc p; try intros ?; cbn [expression_list]; go. Qed.
Hint Resolve expression_list_s : span.
Lemma parse_expression_list_s p : grows (parse_expression_list toks pe) p [] (flat_map regions).
Proof. apply expression_list_s. Qed.
Hint Resolve parse_expression_list_s : span.
Lemma argument_list_s n : forall acc p, grows (argument_list toks pe n acc) p (flat_map regions acc) (flat_map regions).
Proof. induction n; intros acc p; try intros ?; cbn [argument_list]; go. Qed.
Hint Resolve argument_list_s : span.
Lemma parse_argument_list_s p : grows (parse_argument_list toks pe) p [] (flat_map regions).
Proof. unfold parse_argument_list. go. Qed.
Hint Resolve parse_argument_list_s : span.
Lemma array_pairs_s n : forall acc p, grows (array_pairs toks pe n acc) p (pairs acc) pairs.
Proof. induction n; intros acc p; try intros ?; cbn [array_pairs]; go. Qed.
Hint Resolve array_pairs_s : span.
Lemma parse_array_pair_list_s p : grows (parse_array_pair_list toks pe) p [] pairs.
Proof. apply array_pairs_s. Qed.
Hint Resolve parse_array_pair_list_s : span.
Lemma parse_dereferencable_scalar_s p : ex (parse_dereferencable_scalar toks pe) p.
Proof. unfold parse_dereferencable_scalar. go. Qed.
Hint Resolve parse_dereferencable_scalar_s : span.
Lemma parse_property_name_s p : ex (parse_property_name toks pe) p.
Proof. unfold parse_property_name. go. Qed.
Hint Resolve parse_property_name_s : span.
Lemma parse_base_variable_s b p : ex (parse_base_variable toks pe b) p.
Proof. unfold parse_base_variable. go. Qed.
Hint Resolve parse_base_variable_s : span.
Lemma parse_const_scoped_s b p : ex (parse_const_scoped toks b) p.
Proof. unfold parse_const_scoped. go. Qed.
Hint Resolve parse_const_scoped_s : span.
Lemma parse_fn_call_base_item_s b p : ex (parse_fn_call_base_item toks b) p.
Proof. unfold parse_fn_call_base_item. go. Qed.
Hint Resolve parse_fn_call_base_item_s : span.

Lemma wrap_fits v n R e lo m : fits v lo m -> nested m e R -> inside n = regions v ++ R -> behind n = [] -> fits (Ex n (mk_span (estart v) e)) lo e.
Proof. intros F N I B. facts. unfold fits. cbn [enode espan estart eend mk_span]. rewrite I, B. unfold estart, eend in *. cbn [espan mk_span sp_start sp_end] in *. repeat split; try ln. ns. Qed.
Lemma extend_fits n n' sp R e lo m : fits (Ex n sp) lo m -> nested m e R -> inside n' = inside n ++ R -> behind n' = [] -> fits (Ex n' (set_end e sp)) lo e.
Proof.
  intros (A & C & B & D) N I BE. pose proof (nested_le _ _ _ N). pose proof (nested_le _ _ _ C). unfold fits, estart, eend in *.
  cbn [enode espan set_end sp_start sp_end mk_span] in *. rewrite I, BE. repeat split; try ln. eapply nested_cat; [exact C| |]; [ln|ns].
Qed.
Lemma push_idx_fits v i e lo m : fits v lo m -> nested m e (opt i) -> fits (push_idx v i e) lo e.
Proof.
  intros F N. destruct v as [n sp]. destruct n; try (eapply wrap_fits with (R := opt i); [exact F|exact N|cbn; rewrite ?app_nil_r; reflexivity|reflexivity]).
  eapply extend_fits with (R := opt i); [exact F|exact N|nf; reflexivity|reflexivity].
Qed.
Lemma push_prop_fits v i e lo m : fits v lo m -> nested m e (regions i) -> fits (push_prop v i e) lo e.
Proof.
  intros F N. destruct v as [n sp]. destruct n; try (eapply wrap_fits with (R := regions i); [exact F|exact N|cbn; rewrite ?app_nil_r; reflexivity|reflexivity]).
  eapply extend_fits with (R := regions i); [exact F|exact N|nf; reflexivity|reflexivity].
Qed.
Lemma push_static_fits v i e lo m : fits v lo m -> nested m e (regions i) -> fits (push_static v i e) lo e.
Proof.
  intros F N. destruct v as [n sp]. destruct n; try (eapply wrap_fits with (R := regions i); [exact F|exact N|cbn; rewrite ?app_nil_r; reflexivity|reflexivity]).
  eapply extend_fits with (R := regions i); [exact F|exact N|nf; reflexivity|reflexivity].
Qed.
Lemma appendixes_s n : forall b v p lo, fits v lo (E p) -> on (appendixes toks pe n b v) p lo.
Proof.
  induction n; intros b v p lo F; cbn [appendixes]; [go|]. intros V0.
  assert (K : forall w q p', V q = 0 -> E p' <= E q -> fits w lo (E q) -> wo (appendixes toks pe n b w) q (fun e q => fits e lo (E q) /\ E p' <= E q /\ V q = 0) (fun _ q => E p' <= E q /\ V q = 0)).
  { intros w q p' Vq L Fw. eapply on_use; [apply (IHn b w q lo Fw)|exact Vq| |]; intros; [split; [assumption|lia]|lia]. }
  cbv zeta.
  assert (C : forall q, V q = 0 -> E p <= E q -> wo (if b then pret v else
        b0 <~ sees toks KParenthesesOpen ;;
        if (b0 : bool) then
          args <~ parse_argument_list toks pe ;;
          e <~ prev_end toks ;;
          appendixes toks pe n b (Ex (ECall v args) (mk_span (estart v) e))
        else pret v) q (fun e q => fits e lo (E q) /\ E p <= E q /\ V q = 0) (fun _ q => E p <= E q /\ V q = 0)).
  { intros q Vq L. destruct b; [go|]. st. st. destruct b; [|go]. st. use; [|lia]. st. st. apply K; [assumption|lia|]. fin. }
  assert (S : forall q, V q = 0 -> E p <= E q -> wo (look toks KScopeOp (fun _ =>
        pcatch (parse_simple_variable_expr toks)
          (fun p => e <~ prev_end toks ;; appendixes toks pe n b (push_static v p e))
          (fun _ => (if b then pret v else
        b0 <~ sees toks KParenthesesOpen ;;
        if (b0 : bool) then
          args <~ parse_argument_list toks pe ;;
          e <~ prev_end toks ;;
          appendixes toks pe n b (Ex (ECall v args) (mk_span (estart v) e))
        else pret v)))
        (if b then pret v else
        b0 <~ sees toks KParenthesesOpen ;;
        if (b0 : bool) then
          args <~ parse_argument_list toks pe ;;
          e <~ prev_end toks ;;
          appendixes toks pe n b (Ex (ECall v args) (mk_span (estart v) e))
        else pret v)) q (fun e q => fits e lo (E q) /\ E p <= E q /\ V q = 0) (fun _ q => E p <= E q /\ V q = 0)).
  { intros q Vq L. st; [|apply C; [assumption|lia]]. st. use; [|apply C; [assumption|lia]]. st. st. apply K; [assumption|lia|]. eapply push_static_fits; [eapply fits_weak; [exact F|lia|exact L]|facts; ns]. }
  assert (O : forall q, V q = 0 -> E p <= E q -> wo (look toks KObjectOp (fun _ =>
        pcatch (parse_property_name toks pe)
          (fun p => e <~ prev_end toks ;; appendixes toks pe n b (push_prop v p e))
          (fun _ => (look toks KScopeOp (fun _ =>
        pcatch (parse_simple_variable_expr toks)
          (fun p => e <~ prev_end toks ;; appendixes toks pe n b (push_static v p e))
          (fun _ => (if b then pret v else
        b0 <~ sees toks KParenthesesOpen ;;
        if (b0 : bool) then
          args <~ parse_argument_list toks pe ;;
          e <~ prev_end toks ;;
          appendixes toks pe n b (Ex (ECall v args) (mk_span (estart v) e))
        else pret v)))
        (if b then pret v else
        b0 <~ sees toks KParenthesesOpen ;;
        if (b0 : bool) then
          args <~ parse_argument_list toks pe ;;
          e <~ prev_end toks ;;
          appendixes toks pe n b (Ex (ECall v args) (mk_span (estart v) e))
        else pret v))))
        (look toks KScopeOp (fun _ =>
        pcatch (parse_simple_variable_expr toks)
          (fun p => e <~ prev_end toks ;; appendixes toks pe n b (push_static v p e))
          (fun _ => (if b then pret v else
        b0 <~ sees toks KParenthesesOpen ;;
        if (b0 : bool) then
          args <~ parse_argument_list toks pe ;;
          e <~ prev_end toks ;;
          appendixes toks pe n b (Ex (ECall v args) (mk_span (estart v) e))
        else pret v)))
        (if b then pret v else
        b0 <~ sees toks KParenthesesOpen ;;
        if (b0 : bool) then
          args <~ parse_argument_list toks pe ;;
          e <~ prev_end toks ;;
          appendixes toks pe n b (Ex (ECall v args) (mk_span (estart v) e))
        else pret v))) q (fun e q => fits e lo (E q) /\ E p <= E q /\ V q = 0) (fun _ q => E p <= E q /\ V q = 0)).
  { intros q Vq L. st; [|apply S; [assumption|lia]]. st. use; [|apply S; [assumption|lia]]. st. st. apply K; [assumption|lia|]. eapply push_prop_fits; [eapply fits_weak; [exact F|lia|exact L]|facts; ns]. }
  st; [|apply O; [assumption|lia]]. st. use; [|lia]. st; [|apply O; [assumption|lia]]. st. st. apply K; [assumption|lia|].
  eapply push_idx_fits; [exact F|]. rew. ns.
Qed.
Hint Resolve appendixes_s : span.
Lemma variable_base_s b p : ex (variable_base toks pe b) p.
Proof. unfold variable_base. go. Qed.
Hint Resolve variable_base_s : span.
Lemma parse_variable_s b p : ex (parse_variable toks pe b None) p.
Proof. unfold parse_variable. st. st. use; [|lia]. eapply on_use; [apply appendixes_s; eassumption|assumption| |]; cbv beta; intros; [split; assumption|lia]. Qed.
Hint Resolve parse_variable_s : span.
Lemma parse_class_name_reference_s p : ex (parse_class_name_reference toks pe) p.
Proof. unfold parse_class_name_reference. go. Qed.
Hint Resolve parse_class_name_reference_s : span.
Lemma parse_binary_expression_s l prec p lo : V p = 0 -> fits l lo (E p) ->
  wo (parse_binary_expression toks pe l prec) p (fun o q => (E p <= E q /\ V q = 0) /\ match o with Some e => fits e lo (E q) | None => True end) (fun _ q => E p <= E q /\ V q = 0).
Proof.
  intros V0 F. unfold parse_binary_expression. st. st. destruct (nth_error toks p) as [[[k| | | | | | | |] sp]|] eqn:N; try (st; auto; fail).
  destruct (precedence k) as [np|] eqn:PR; [|st; auto]. destruct (Nat.leb np prec); [st; auto|].
  assert (O : opening (Kw k) = false) by (destruct k; reflexivity || discriminate PR). destruct (E_token toks V Line _ _ _ V0 N O) as (? & ? & ? & ?). clear O. st. st.
  assert (O : wo (o <~ unwrap_p (binop_of k) ;;
          np' <~ match assoc_right k with
                 | Some true => psub np 1
                 | Some false => pret np
                 | None => ppanic PUnimplemented
                 end ;;
          right <~ pe np' ;;
          pret (Some (Ex (EBinary o l right) (mk_span (estart l) (eend right))))) (S p)
     (fun o q => (E p <= E q /\ V q = 0) /\ match o with Some e => fits e lo (E q) | None => True end) (fun _ q => E p <= E q /\ V q = 0)).
  { st. st. st. destruct (assoc_right k) as [[]|]; go; split; try lia; fit. }
  destruct k; try exact O; clear O.
  - go. split; [lia|]. fit.
  - assert (G : wo (right <~ parse_class_name_reference toks pe ;;
            pret (Some (Ex (EInstanceOf l right) (mk_span (estart l) (eend right))))) (S p)
     (fun o q => (E p <= E q /\ V q = 0) /\ match o with Some e => fits e lo (E q) | None => True end) (fun _ q => E p <= E q /\ V q = 0)).
    { go. split; [lia|]. fit. }
    destruct l as [[] ?]; try exact G. st.
Qed.
Lemma binary_loop_s n : forall prec l p lo, fits l lo (E p) -> on (binary_loop toks pe n prec l) p lo.
Proof.
  induction n; intros prec l p lo F; cbn [binary_loop]; [go|]. intros V0. st.
  eapply wo_mono; [apply parse_binary_expression_s; [exact V0|exact F]| |]; cbv beta; [|intros ? ? []; st; split; [eapply fits_weak; [exact F|lia|lia]|lia]].
  intros [e|] q [[L Vq] Fe]; [|st; split; [eapply fits_weak; [exact F|lia|lia]|lia]]. eapply on_use; [apply IHn; exact Fe|exact Vq| |]; intros; [split; [assumption|lia]|lia].
Qed.
Hint Resolve binary_loop_s : span.
Notation sts := (flat_map statement_regions).
Lemma pseb_s p : V p = 0 -> wo (parse_statement_extract_block ps) p
  (fun r q => E p <= sp_start (snd r) /\ nested (sp_start (snd r)) (sp_end (snd r)) (sts (fst r)) /\ sp_end (snd r) <= E q /\ V q = 0) (fun _ q => E p <= E q /\ V q = 0).
Proof.
  intros V0. unfold parse_statement_extract_block. st. use; [|lia].
  destruct e as [[] sp]; (st; facts; cbn [fst snd flat_map app sspan snode statement_inside statement_regions] in *; rewrite ?app_nil_r; repeat split; auto; ns).
Qed.
Lemma inner_statements_s n : forall acc p, grows (inner_statements toks ps n acc) p (sts acc) (fun r => sts (fst r)).
Proof. induction n; intros acc p; try intros ?; cbn [inner_statements]; go. Qed.
Hint Resolve inner_statements_s : span.
Lemma pisl_s p : grows (parse_inner_statement_list toks ps) p [] (fun r => sts (fst r)).
Proof.
  unfold parse_inner_statement_list.
  assert (H1 : grows (inner_statements toks ps (lf toks) []) p [] (fun r => sts (fst r))) by (apply inner_statements_s).
  unfold grows in *. destruct toks; [intros _; apply wo_panic|exact H1].
Qed.
Hint Resolve pisl_s : span.
Lemma parse_param_type_s : moves (parse_param_type toks).
Proof. intros p V0. unfold parse_param_type. go. Qed.
Hint Resolve parse_param_type_s : span.
Lemma parameter_list_s n : forall acc p, grows (parameter_list toks pe n acc) p (flat_map parameter_regions acc) (fun r => flat_map parameter_regions (fst r)).
Proof. induction n; intros acc p; try intros ?; cbn [parameter_list]; go. Qed.
Hint Resolve parameter_list_s : span.
Lemma parse_parameter_list_s p : grows (parse_parameter_list toks pe) p [] (fun r => flat_map parameter_regions (fst r)).
Proof. apply parameter_list_s. Qed.
Hint Resolve parse_parameter_list_s : span.
Lemma use_vars_s n : forall acc, moves (use_vars toks n acc).
Proof. induction n; intros acc p; try intros ?; cbn [use_vars]; go. Qed.
Hint Resolve use_vars_s : span.

Hint Extern 1 (_ <= _) => ln : span.

Lemma parse_function_declaration_s sp c a p : sp_start sp <= E p -> tail (parse_function_declaration toks pe ps sp c a) p (sp_start sp).
Proof. intros L. unfold parse_function_declaration. destruct c, a; go. Qed.
Hint Resolve parse_function_declaration_s : span.
Lemma trait_uses_s n : forall b acc, moves (trait_uses toks n b acc).
Proof. induction n; intros b acc p; try intros ?; cbn [trait_uses]; go. Qed.
Hint Resolve trait_uses_s : span.
Lemma class_consts_s n m : forall acc p, grows (class_consts toks pe n m acc) p (flat_map member_regions acc) (flat_map member_regions).
Proof. induction n; intros acc p; try intros ?; cbn [class_consts]; go. Qed.
Lemma class_props_s n m : forall acc p, grows (class_props toks pe n m acc) p (flat_map member_regions acc) (flat_map member_regions).
Proof. induction n; intros acc p; try intros ?; cbn [class_props]; go. Qed.
Hint Resolve class_consts_s class_props_s : span.
Lemma parse_class_statement_s p : grows (parse_class_statement toks pe ps) p [] (flat_map member_regions).
Proof. unfold parse_class_statement. go. match goal with H : sfits _ _ _ |- _ => destruct H as (A & B & C) end. nfin A. nfin B. nfin C. fin. Qed.
Hint Resolve parse_class_statement_s : span.
Lemma class_statements_s n : forall acc p, grows (class_statements toks pe ps n acc) p (flat_map member_regions acc) (fun r => flat_map member_regions (fst r)).
Proof. induction n; intros acc p; try intros ?; cbn [class_statements]; go. Qed.
Hint Resolve class_statements_s : span.

Lemma parse_class_statement_list_s p : grows (parse_class_statement_list toks pe ps) p [] (fun r => flat_map member_regions (fst r)).
Proof.
  unfold parse_class_statement_list. pose proof (class_statements_s (lf toks) [] p) as H. unfold grows in *. cbn [flat_map] in H.
  destruct toks; [intros _; apply wo_panic|exact H].
Qed.
Hint Resolve parse_class_statement_list_s : span.
Lemma span_at_s i p (Q : span -> nat -> Prop) (X : perror -> nat -> Prop) : V i = 0 ->
  (forall sp, E i <= sp_start sp -> sp_start sp <= sp_end sp -> sp_end sp = E (S i) -> Q sp p) -> wo (span_at toks i) p Q X.
Proof.
  intros V0 H. unfold span_at. destruct (nth_error toks i) as [[t sp]|] eqn:N; [|apply wo_panic]. apply wo_ret. destruct (E_open toks V Line _ _ _ V0 N) as (? & ? & ?). apply H; cbn; tauto.
Qed.
Lemma parse_oo_declaration_s p : sx (parse_oo_declaration toks pe ps) p.
Proof.
  unfold parse_oo_declaration. intros V0. st.
  (* the modifiers and the keyword *)
  apply wo_mono with (Q := fun ot q => V q = 0 /\ match ot with OoClass => q = p | _ => q = S p end) (E := fun _ q => E p <= E q /\ V q = 0).
  { go. }
  2:{ auto. }
  intros ot q (Vq & Hq). st.
  apply wo_mono with (Q := fun l q => (E p <= E q /\ V q = 0) /\ List.length l + S p = q) (E := fun _ q => E p <= E q /\ V q = 0).
  { pose proof (E_S toks V Line p). destruct ot; subst q.
    - st. eapply wo_mono; [apply class_mods_s; exact V0| |]; cbv beta; [|auto]. intros l q (A & B). cbn [List.length] in B. destruct A. unfold expect. st. st; [st; st; split; lia|st; lia].
    - st. cbn [List.length]. split; lia.
    - st. cbn [List.length]. split; lia. }
  2:{ auto. }
  intros l q1 ((L & Vq1) & Len). st. st. st. st. st. st. st. replace (q1 - 1 - List.length l) with p in * by lia. apply span_at_s; [exact V0|]. intros sp A B C.
  assert (L' : E (S p) <= E q1) by (eapply E_mono; [exact Line|lia]).
  destruct ot; go.
Qed.
Hint Resolve parse_oo_declaration_s : span.

(** parts of a string *)
Inductive chain : nat -> nat -> list expr -> Prop :=
| chain_nil lo hi : lo <= hi -> chain lo hi []
| chain_cons lo m hi e l : fits e lo m -> chain m hi l -> chain lo hi (e :: l).
Lemma chain_snoc l : forall lo m hi e, chain lo m l -> fits e m hi -> chain lo hi (l ++ [e]).
Proof.
  induction l as [|x l IH]; intros lo m hi e C F; inversion C; subst; cbn [app].
  - econstructor; [eapply fits_weak; [exact F|lia|apply le_n]|constructor; lia].
  - econstructor; [eassumption|]. eapply IH; eassumption.
Qed.
Lemma chain_le l : forall lo hi, chain lo hi l -> lo <= hi.
Proof. induction l as [|x l IH]; intros lo hi C; inversion C as [|? m ? ? ? F C']; subst; [auto|]. apply fits_le in F. apply IH in C'. lia. Qed.
Lemma chain_weak l : forall lo hi hi', chain lo hi l -> hi <= hi' -> chain lo hi' l.
Proof. induction l as [|x l IH]; intros lo hi hi' C L; inversion C; subst; econstructor; eauto; lia. Qed.
Lemma chain_last l : forall lo hi d, l <> [] -> chain lo hi l -> exists m, chain lo m (removelast l) /\ fits (last l d) m hi.
Proof.
  induction l as [|x l IH]; intros lo hi d N C; [congruence|]. inversion C as [|? m ? ? ? F C']; subst. destruct l as [|y l].
  - exists lo. cbn. split; [constructor; lia|]. apply chain_le in C'. eapply fits_weak; [eassumption|lia|lia].
  - destruct (IH m hi d) as (m' & A & B); [discriminate|assumption|]. exists m'. split; [|exact B].
    change (removelast (x :: y :: l)) with (x :: removelast (y :: l)). econstructor; eassumption.
Qed.
Lemma concat_fits l : forall lo m hi e, chain lo m l -> fits e m hi -> fits (concat_parts l e) lo hi.
Proof.
  induction l as [|x l IH]; intros lo m hi e C F; inversion C as [|? m0 ? ? ? F0 C']; subst; cbn [concat_parts fold_right].
  - eapply fits_weak; [exact F|lia|apply le_n].
  - assert (F' : fits (concat_parts l e) m0 hi) by (eapply IH; eassumption). fold (concat_parts l e) in *.
    generalize dependent (concat_parts l e). intros. fit.
Qed.
Definition text_in (st : encaps) (a : nat) : Prop := match ec_start st with Some s => a <= s /\ s <= ec_end st | None => ec_str st = [] end.
Lemma encaps_flush_s h st p lo a : chain lo a (ec_parts st) -> text_in st a -> a <= h -> ec_end st <= h ->
  wo (encaps_flush st) p (fun l q => q = p /\ chain lo h l) (fun _ _ => False).
Proof.
  intros C T L1 L2. unfold encaps_flush. destruct (ec_str st) eqn:S; [st; split; [reflexivity|eapply chain_weak; eassumption]|]. st. st. st. split; [reflexivity|].
  unfold text_in in T. rewrite H in T. eapply chain_snoc; [exact C|]. destruct T. fit.
Qed.
Lemma encaps_loop_s n : forall st p lo a, V p = 0 -> chain lo a (ec_parts st) -> text_in st a -> a <= E p -> ec_end st <= E p ->
  wo (encaps_loop toks pe n st) p (fun st' q => (E p <= E q /\ V q = 0) /\ exists b, chain lo b (ec_parts st') /\ text_in st' b /\ b <= E q /\ ec_end st' <= E q) (fun _ q => E p <= E q /\ V q = 0).
Proof.
  induction n; intros st p lo a V0 C T L1 L2; cbn [encaps_loop]; [go|].
  assert (K : forall st' q b, V q = 0 -> E p <= E q -> chain lo b (ec_parts st') -> text_in st' b -> b <= E q -> ec_end st' <= E q ->
    wo (encaps_loop toks pe n st') q (fun st' q => (E p <= E q /\ V q = 0) /\ exists b, chain lo b (ec_parts st') /\ text_in st' b /\ b <= E q /\ ec_end st' <= E q) (fun _ q => E p <= E q /\ V q = 0)).
  { intros st' q b Vq L C' T' B1 B2. eapply wo_mono; [eapply IHn; eassumption| |]; cbv beta; [|intros; lia]. intros st2 q2 (? & ?). split; [lia|assumption]. }
  eapply wo_look_ces'; [exact Line|exact V0| |].
  { intros s sp (A1 & A2 & A3 & A4). eapply K with (b := a); cbn [ec_parts ec_str ec_start ec_end]; [exact A4|lia|exact C| |lia|].
    - unfold text_in in *. cbn [ec_str ec_start ec_end]. destruct (Nat.ltb_spec (ec_end st) (sp_end sp)); destruct (ec_start st); lia.
    - destruct (Nat.ltb_spec (ec_end st) (sp_end sp)); lia. }
  eapply wo_look'; [exact Line|reflexivity|exact V0| |].
  { intros sp N _. exfalso. eapply NoDollar; exact N. }
  eapply wo_look'; [exact Line|reflexivity|exact V0| |].
  { intros sp _ (A1 & A2 & A3 & A4). apply wo_bind. eapply wo_mono; [eapply encaps_flush_s with (h := E p); [exact C|exact T|lia|lia]| |]; cbv beta; [|intros ? ? []].
    intros l q (-> & CB). do 2 (Span.st || use2). 2: lia. Span.st. use2; [|lia].
    eapply K with (b := sp_end a0); cbn [ec_parts ec_str ec_start ec_end]; try lia.
    - eapply chain_snoc; [exact CB|]. eapply fits_weak; [eassumption|lia|]. lia.
    - unfold text_in. cbn [ec_start ec_end]. lia. }
  apply wo_catch. use2.
  2:{ apply wo_ret. split; [lia|]. exists a. repeat split; auto; lia. }
  apply wo_bind. eapply wo_mono; [eapply encaps_flush_s with (h := E p); [exact C|exact T|lia|lia]| |]; cbv beta; [|intros ? ? []].
  intros l q' (-> & CB). facts. eapply K with (b := eend e); cbn [ec_parts ec_str ec_start ec_end]; try ln.
  - eapply chain_snoc; [exact CB|]. fit.
  - unfold text_in. cbn [ec_start ec_end]. lia.
Qed.

Lemma parse_encaps_list_s p : ex (parse_encaps_list toks pe) p.
Proof.
  intros V0. unfold parse_encaps_list. st.
  eapply wo_mono; [apply encaps_loop_s with (lo := E p) (a := E p); cbn [ec_parts ec_end]; [exact V0|constructor; lia|reflexivity|lia|lia]| |]; cbv beta; [|intros; lia].
  intros w q ((L & Vq) & b & C & T & LB & LE). st.
  apply wo_mono with (Q := fun o q' => q' = q /\ match o with Some e => fits e b (E q) | None => True end) (E := fun _ _ => False).
  { destruct (ec_str w) eqn:S; [st; auto|]. st. st. st. split; [reflexivity|]. unfold text_in in T. rewrite H in T. destruct T. fit. }
  2:{ intros ? ? []. }
  intros o q' (-> & F). destruct (ec_parts w) as [|x l] eqn:P.
  - inversion C; subst. destruct o as [e|]; go.
  - rewrite <- P in *. destruct o as [e|]; st; (split; [|exact Vq]).
    + eapply concat_fits; [exact C|exact F].
    + rewrite P in C. apply chain_last with (d := Ex (EInt 0) span_new) in C; [|discriminate]. destruct C as (m & C & FL). rewrite P.
      eapply concat_fits; [exact C|]. eapply fits_weak; [exact FL|lia|lia].
Qed.
Hint Resolve parse_encaps_list_s : span.
(** a string that is one text *)
Ltac dumb := repeat match goal with
  | |- wo (pbind _ _) _ _ _ => apply wo_bind
  | |- wo (pcatch _ _ _) _ _ _ => apply wo_catch
  | |- wo (deepest _ _ _) _ _ _ => apply wo_deepest
  | |- wo (deepest_unpack _) _ _ _ => apply wo_deepest_unpack; intros
  | |- wo (pret _) _ _ _ => apply wo_ret
  | |- wo (perr _) _ _ _ => apply wo_err
  | |- wo (pthrow _) _ _ _ => apply wo_throw
  | |- wo getpos _ _ _ => apply wo_getpos
  | |- wo (setpos _) _ _ _ => apply wo_setpos
  | |- wo (look _ _ _ _) _ _ _ => apply wo_look; [intros; exfalso; congruence|]
  | |- wo (look_var _ _ _) _ _ _ => apply wo_look_var; [intros; exfalso; congruence|]
  | |- wo (look_string _ _ _) _ _ _ => apply wo_look_string; [intros; exfalso; congruence|]
  | |- wo (look_ces _ _ _) _ _ _ => apply wo_look_ces; [intros; exfalso; congruence|]
  end.
Lemma closing_s k sp p : nth_error toks p = Some (Kw k, sp) -> k = KDoubleQuote \/ k = KHereDocEnd ->
  wo (parse_variable toks pe false None) p (fun _ _ => False) (fun _ q => q = p).
Proof.
  intros N K. unfold parse_variable, variable_base, parse_const_scoped, parse_class_name, parse_name_as_expr, parse_name, parse_namespace_name, parse_fn_call_base_item,
    parse_name_as_expr, parse_name, parse_namespace_name, parse_base_variable, parse_simple_variable_expr, parse_simple_variable, parse_dereferencable_scalar, lf.
  destruct K as [-> | ->]; cbn [ns_fragments]; dumb; reflexivity.
Qed.
Lemma wo_ces_at {A} w sp (yes : str -> span -> P A) no p Q X : nth_error toks p = Some (TCes w, sp) -> wo (yes w sp) (S p) Q X -> wo (look_ces toks yes no) p Q X.
Proof. intros N H. unfold look_ces. apply wo_bind, wo_peek. rewrite N. apply wo_bind, wo_adv. exact H. Qed.
Lemma wo_expect_at k sp p (Q : span -> nat -> Prop) X : nth_error toks p = Some (Kw k, sp) -> Q sp (S p) -> wo (expect toks k) p Q X.
Proof. intros N H. unfold expect, look. apply wo_bind, wo_peek. rewrite N. replace (kind_eqb k k) with true by (destruct k; reflexivity). apply wo_bind, wo_adv, wo_ret. exact H. Qed.
Lemma one_text_s w tx cl k p : w <> [] -> nth_error toks p = Some (TCes w, tx) -> nth_error toks (S p) = Some (Kw k, cl) -> k = KDoubleQuote \/ k = KHereDocEnd ->
  wo (parse_encaps_list toks pe) p (fun e q => q = S p /\ exists sp, e = Ex (EString w) sp) (fun _ _ => False).
Proof.
  intros W N1 N2 K. unfold parse_encaps_list, lf. apply wo_bind.
  apply wo_mono with (Q := fun st q => q = S p /\ ec_str st = w /\ ec_parts st = []) (E := fun _ _ => False); [|intros st q (-> & A & B)|intros ? ? []].
  - cbn [encaps_loop]. eapply wo_ces_at; [exact N1|]. cbn [ec_str ec_parts ec_start ec_end app]. destruct (S (List.length toks)) eqn:LT; [discriminate|]. clear LT. cbn [encaps_loop].
    apply wo_look_ces; [intros; exfalso; congruence|]. apply wo_look; [intros sp X; exfalso; rewrite N2 in X; injection X as ->; destruct K; discriminate|]. apply wo_look; [intros sp X; exfalso; rewrite N2 in X; injection X as ->; destruct K; discriminate|].
    apply wo_catch. eapply wo_mono; [eapply closing_s; eassumption|intros ? ? []|]. cbv beta. intros e q ->. apply wo_ret. cbn [ec_str ec_parts]. auto.
  - rewrite A, B. destruct w as [|c w]; [congruence|]. apply wo_bind, wo_bind, wo_unwrap. intros a _. apply wo_ret, wo_ret. split; [reflexivity|]. eexists. reflexivity.
Qed.
Lemma one_string_s w tx cl k sp p (Q : expr -> nat -> Prop) X : w <> [] -> nth_error toks p = Some (TCes w, tx) -> nth_error toks (S p) = Some (Kw k, cl) -> k = KDoubleQuote \/ k = KHereDocEnd ->
  sp_start sp <= E (S (S p)) -> (forall e, fits e (sp_start sp) (E (S (S p))) -> Q e (S (S p))) ->
  wo (ret <~ parse_encaps_list toks pe ;; sp2 <~ expect toks k ;; pret (respan (sp_start sp) (sp_end sp2) ret)) p Q X.
Proof.
  intros W N1 N2 K L H. apply wo_bind. eapply wo_mono; [eapply one_text_s; eassumption| |intros ? ? []]. cbv beta. intros e q (-> & sp' & ->).
  apply wo_bind. eapply wo_expect_at; [exact N2|]. apply wo_ret, H. pose proof (E_next toks _ _ _ N2) as X2.
  unfold fits, respan, estart, eend, set_start, set_end. cbn [enode espan inside behind sp_start sp_end]. repeat split; try apply nested_none; lia.
Qed.
Lemma parse_scalar_s p : ex (parse_scalar toks pe) p.
Proof.
  unfold parse_scalar. intros V0. st. st. destruct (nth_error toks p) as [[x sp]|] eqn:N.
  2:{ pose proof (al_end _ _ _ Line p V0 N). go. }
  destruct (E_open toks V Line _ _ _ V0 N) as (A1 & A2 & A3).
  assert (A4 : opening x = false -> V (S p) = 0) by (intros O; apply (E_token toks V Line _ _ _ V0 N O)).
  destruct (scalar_of x) eqn:SC.
  { assert (V (S p) = 0) by (apply A4; destruct x as [[]| | | | | | | |]; reflexivity || discriminate SC).
    st. st. st. assert (inside e = [] /\ behind e = []) as [I B].
    { destruct x as [k| | | | | | | |]; try discriminate; [destruct k; try discriminate|..]; injection SC as <-; split; reflexivity. }
    split; [|assumption]. unfold fits. cbn [enode espan estart eend]. rewrite I, B. repeat split; try ln. apply nested_none. ln. }
  clear SC.
  assert (D : wo (pcatch (parse_dereferencable_scalar toks pe) pret (fun _ => parse_constant toks)) p (fun e q => fits e (E p) (E q) /\ V q = 0) (fun _ q => E p <= E q /\ V q = 0)).
  { go. }
  pose proof (E_S toks V Line p) as M1. pose proof (E_S toks V Line (S p)) as M2. pose proof (E_S toks V Line (S (S p))) as M3.
  destruct (al_strings _ _ _ Line) as [R|R].
  - assert (A5 : V (S p) = 0) by (eapply R; eassumption).
    assert (O : forall q t sp, V q = 0 -> nth_error toks q = Some (t, sp) -> Span.E toks q <= sp_start sp /\ sp_start sp <= sp_end sp /\ sp_end sp = Span.E toks (S q) /\ V (S q) = 0).
    { intros q t sq Vq Nq. destruct (E_open toks V Line _ _ _ Vq Nq) as (? & ? & ?). repeat split; auto. eapply R; eassumption. }
    destruct x as [k| | | | | | | |]; try exact D. destruct k; try exact D; clear D A4.
    + st. st. apply wo_look.
      * intros sp2 N2 _. destruct (O _ _ _ A5 N2) as (? & ? & ? & ?). go.
      * st. use2; [|go]. st. unfold expect. apply wo_look; [|go]. intros sp2 N2 _. destruct (O q _ _ ltac:(assumption) N2) as (? & ? & ? & ?). go.
    + go.
  - specialize (R p x sp V0 N). clear A4.
    destruct x as [k| | | | | | | |]; try exact D. destruct k; try exact D; clear D; destruct (R eq_refl) as [(V2 & cl & K & N1)|(V3 & k & k' & w & tx & cl & I & W & K & N1 & N2)]; try discriminate K; clear R.
    + apply wo_bind, wo_adv. unfold look. apply wo_bind, wo_peek. rewrite N1. cbn [kind_eqb]. pose proof (E_next toks _ _ _ N1). 
      apply wo_bind, wo_adv, wo_ret. split; [|exact V2]. fit.
    + injection K as <-. assert (k' = KDoubleQuote) by (cbn in I; intuition congruence). subst k'.
      apply wo_bind, wo_adv. apply wo_look; [intros; exfalso; congruence|]. eapply one_string_s; try eassumption; auto; [lia|].
      intros e F. split; [eapply fits_weak; [exact F|lia|auto]|exact V3].
    + injection K as <-. assert (k' = KHereDocEnd) by (cbn in I; intuition congruence). subst k'.
      apply wo_bind, wo_adv. eapply one_string_s; try eassumption; auto; [lia|].
      intros e F. split; [eapply fits_weak; [exact F|lia|auto]|exact V3].
Qed.
Hint Resolve parse_scalar_s : span.
Lemma isset_args_s n b : forall acc p, grows (isset_args toks pe n b acc) p (flat_map regions acc) (flat_map regions).
Proof. induction n; intros acc p; try intros ?; cbn [isset_args]; go. Qed.
Hint Resolve isset_args_s : span.
Lemma parse_assign_s v p lo : fits v lo (E p) -> on (parse_assign toks pe v) p lo.
Proof.
  intros F V0. unfold parse_assign. st. st. destruct (assign_of _) as [o|] eqn:AO; [|go].
  assert (V (S p) = 0).
  { destruct (nth_error toks p) as [[x sp]|] eqn:N; [|discriminate AO]. apply (E_token toks V Line _ _ _ V0 N). destruct x as [[]| | | | | | | |]; reflexivity || discriminate AO. }
  clear AO. destruct o; go.
Qed.
Hint Resolve parse_assign_s : span.
Lemma parse_variable_expression_s p : ex (parse_variable_expression toks pe) p.
Proof. unfold parse_variable_expression. go. eapply on_use; [apply parse_assign_s with (lo := Pass.E p); fit|assumption| |]; cbv beta; intros; [split; assumption|ln]. Qed.
Hint Resolve parse_variable_expression_s : span.
Lemma parse_internal_s m p : (forall p, ex m p) -> ex (parse_internal toks pe m) p.
Proof.
  intros M V0. unfold parse_internal. st. st. destruct (nth_error toks p) as [[x sp]|] eqn:N; [|go].
  pose proof (M p V0) as M'. pose proof (E_open toks V Line _ _ _ V0 N) as (A1 & A2 & A3). pose proof (E_token toks V Line _ _ _ V0 N) as A4.
  destruct x as [k| | | | | | | |]; try exact M'. destruct (cast_ty k) eqn:C1; [assert (V (S p) = 0) by (apply A4; destruct k; reflexivity || discriminate C1); go|]. destruct (include_of k) eqn:C2; [assert (V (S p) = 0) by (apply A4; destruct k; reflexivity || discriminate C2); go|].
  destruct k; try exact M'; assert (V (S p) = 0) by (apply A4; reflexivity); clear A4; go. nfin H6. fin.
Qed.
Hint Resolve parse_internal_s : span.
Lemma closure_s sp p : V p = 0 -> sp_start sp <= E p -> wo (parse_function_declaration toks pe ps sp true false) p
  (fun s q => match s with St (SExpr e) _ => fits e (sp_start sp) (E q) /\ E p <= E q /\ V q = 0 | _ => False end) (fun _ q => E p <= E q /\ V q = 0).
Proof. intros V0 L. unfold parse_function_declaration. go. Qed.
Lemma parse_other_expression_s p : ex (parse_other_expression toks pe ps) p.
Proof.
  unfold parse_other_expression. st. st; [go|]. st; [exfalso; eapply NoClone; eassumption|]. st; [go|]. st; [go|]. st; [|go].
  st. eapply wo_mono; [apply closure_s; [assumption|ln]| |]; cbv beta; [|intros; ln].
  intros [n' sp'] q F. destruct n'; try contradiction. destruct F as (? & ? & ?). st. fin.
Qed.
Hint Resolve parse_other_expression_s : span.
Lemma parse_postfix_expression_s p : ex (parse_postfix_expression toks pe ps) p.
Proof. unfold parse_postfix_expression. go. Qed.
Hint Resolve parse_postfix_expression_s : span.
Lemma parse_unary_expression_s prec p : ex (parse_unary_expression toks pe ps prec) p.
Proof.
  intros V0. unfold parse_unary_expression. st. st. destruct (nth_error toks p) as [[x sp]|] eqn:N; [|go].
  pose proof (E_open toks V Line _ _ _ V0 N) as (A1 & A2 & A3). st.
  assert (D : ex (match unop_of x with
            | Some o =>
              adv ;~
              e <~ pe PrUnary ;;
              pret (Ex (EUnary o e) (mk_span (sp_start sp) (eend e)))
            | None => parse_postfix_expression toks pe ps
            end) p).
  { intros _. destruct (unop_of x) eqn:U; [|go]. assert (V (S p) = 0) by (apply (E_token toks V Line _ _ _ V0 N); destruct x as [[]| | | | | | | |]; reflexivity || discriminate U). go. }
  use; [|lia]. eapply on_use; [apply binary_loop_s; eassumption|assumption| |]; cbv beta; intros; [split; assumption|lia].
Qed.
Hint Resolve parse_unary_expression_s : span.

(** ** Statements *)
Lemma parse_foreach_variable_s p : grows (parse_foreach_variable toks pe) p [] regions.
Proof.
  intros V0. unfold parse_foreach_variable, parse_is_ref. st. st.
  - pose proof (E_wide toks V Line _ _ _ V0 H (or_intror eq_refl)). st. st. use; [|lia]. st. st. st. facts.
    split; [assumption|]. exists (Region (mk_span (estart e - 1) (estart e)) [] :: regions e). split; [reflexivity|]. ns.
  - go.
Qed.
Hint Resolve parse_foreach_variable_s : span.
Lemma static_vars_s n : forall acc p, grows (static_vars toks pe n acc) p (declaration_regions (DStaticVars acc)) (fun l => declaration_regions (DStaticVars l)).
Proof. induction n; intros acc p; try intros ?; cbn [static_vars]; go. Qed.
Hint Resolve static_vars_s : span.
Lemma parse_static_var_decl_s sp p : sp_start sp <= E p -> tail (parse_static_var_decl toks pe sp) p (sp_start sp).
Proof. intros L. unfold parse_static_var_decl. go. Qed.
Lemma global_vars_s n : forall acc p, grows (global_vars toks n acc) p (declaration_regions (DGlobalVars acc)) (fun l => declaration_regions (DGlobalVars l)).
Proof. induction n; intros acc p; try intros ?; cbn [global_vars]; unfold parse_simple_variable; go. Qed.
Hint Resolve global_vars_s : span.
Lemma parse_global_var_decl_s sp p : sp_start sp <= E p -> tail (parse_global_var_decl toks sp) p (sp_start sp).
Proof. intros L. unfold parse_global_var_decl. go. Qed.
Hint Resolve parse_static_var_decl_s parse_global_var_decl_s : span.
Lemma pseb_use p (Q : list stmt * span -> nat -> Prop) (X : perror -> nat -> Prop) : V p = 0 ->
  (forall r q, E p <= sp_start (snd r) -> nested (sp_start (snd r)) (sp_end (snd r)) (sts (fst r)) -> sp_end (snd r) <= E q -> V q = 0 -> Q r q) ->
  (forall e q, E p <= E q -> V q = 0 -> X e q) -> wo (parse_statement_extract_block ps) p Q X.
Proof. intros V0 HQ HX. eapply wo_mono; [apply pseb_s, V0| |]; cbv beta; [|intros ? ? []; auto]. intros r q (? & ? & ? & ?). auto. Qed.
Ltac blk := repeat first [ eapply pseb_use; [assumption|intros ? ? ? ? ? ?|intros ? ? ? ?] | st ]; try solve [facts; ln | fin].
Lemma parse_braced_s p : grows (parse_braced toks ps) p [] (fun r => sts (fst r)).
Proof. unfold parse_braced. go. Qed.
Hint Resolve parse_braced_s : span.
Lemma catch_clauses_s n : forall acc p, grows (catch_clauses toks ps n acc) p (flat_map catch_regions acc) (flat_map catch_regions).
Proof. induction n; intros acc p; try intros ?; cbn [catch_clauses]; go. Qed.
Hint Resolve catch_clauses_s : span.
Lemma parse_try_s sp p : sp_start sp <= E p -> tail (parse_try toks ps sp) p (sp_start sp).
Proof. intros L. unfold parse_try. go. Qed.
Lemma unset_vars_s n : forall acc p, grows (unset_vars toks pe n acc) p (flat_map regions acc) (flat_map regions).
Proof. induction n; intros acc p; try intros ?; cbn [unset_vars]; go. Qed.
Hint Resolve unset_vars_s : span.
Lemma parse_unset_s sp p : sp_start sp <= E p -> tail (parse_unset toks pe sp) p (sp_start sp).
Proof. intros L. unfold parse_unset. go. Qed.
Lemma parse_foreach_s sp p : sp_start sp <= E p -> tail (parse_foreach toks pe ps sp) p (sp_start sp).
Proof. intros L. unfold parse_foreach. blk. Qed.
Lemma parse_for_s sp p : sp_start sp <= E p -> tail (parse_for toks pe ps sp) p (sp_start sp).
Proof. intros L. unfold parse_for. blk. Qed.
Lemma switch_cases_s n : forall cases conds p, grows (switch_cases toks pe ps n cases conds) p (flat_map case_regions cases ++ flat_map regions conds)
  (fun r => flat_map case_regions (fst r) ++ flat_map regions (snd r)).
Proof.
  induction n; intros cases conds p; cbn [switch_cases]; go.
  all: split; [assumption|].
  1, 2: exists (regions e ++ sts (s :: l) ++ Y); rewrite flat_map_app in EX; split; [rewrite EX; nf; reflexivity|facts; ns].
  all: exists (sts (s :: l) ++ Y); split; [rewrite EX; nf; reflexivity|facts; ns].
Qed.
Hint Resolve switch_cases_s : span.
Lemma leftovers l : flat_map case_regions (map (fun c => mkCase [c] false []) l) = flat_map regions l.
Proof. induction l as [|e l IH]; [reflexivity|]. cbn [map flat_map]. rewrite IH. names. rewrite !app_nil_r. reflexivity. Qed.
Lemma parse_switch_s sp p : sp_start sp <= E p -> tail (parse_switch toks pe ps sp) p (sp_start sp).
Proof.
  intros L. unfold parse_switch. go. facts. unfold sfits. names. rewrite flat_map_app, leftovers.
  repeat split; try ln. eapply nested_cat; [exact K|ln|eapply nested_weak; [eassumption|ln|ln]].
Qed.
Lemma parse_condition_s p : ex (parse_condition toks pe) p.
Proof. unfold parse_condition. go. Qed.
Hint Resolve parse_condition_s : span.
Lemma parse_while_s sp p : sp_start sp <= E p -> tail (parse_while toks pe ps sp) p (sp_start sp).
Proof. intros L. unfold parse_while. blk. Qed.
Lemma parse_do_s sp p : sp_start sp <= E p -> tail (parse_do toks pe ps sp) p (sp_start sp).
Proof. intros L. unfold parse_do. blk. Qed.
Hint Resolve parse_try_s parse_unset_s parse_foreach_s parse_for_s parse_switch_s parse_while_s parse_do_s : span.
Lemma if_arms_s n : forall acc p, grows (if_arms toks pe ps n acc) p (sts acc) sts.
Proof. induction n; intros acc p; try intros ?; cbn [if_arms]; blk. Qed.
Lemma nested_split l1 : forall lo hi l2, nested lo hi (l1 ++ l2) -> exists m, nested lo m l1 /\ nested m hi l2.
Proof.
  induction l1 as [|[sp parts] l IH]; intros lo hi l2 N; cbn [app] in N.
  - exists lo. split; [constructor; lia|exact N].
  - inversion N as [|? ? ? ? ? N1 N2 N3]; subst. destruct (IH _ _ _ N3) as (m & A & B). exists m. split; [constructor; assumption|exact B].
Qed.
Lemma one_nested s lo hi : nested lo hi (statement_regions s) -> sfits s lo hi.
Proof. destruct s as [n sp]. cbn [statement_regions]. intros N. inversion N as [|? ? ? ? ? N1 N2 N3]; subst. unfold sfits. cbn [sspan snode]. inversion N3; subst. auto. Qed.
Lemma nested_two s t lo hi : nested lo hi (sts [s; t]) -> exists m, sfits s lo m /\ sfits t m hi.
Proof.
  cbn [flat_map]. rewrite app_nil_r. intros N. apply nested_split in N. destruct N as (m & A & B). exists m. split; apply one_nested; assumption.
Qed.
Lemma fold_step_fits x el y lo hi : nested lo hi (sts [el; x]) -> if_fold_step (Some x) el = Some y -> sfits y lo hi.
Proof.
  intros N S. apply nested_two in N. destruct N as (m & A & B).
  destruct x as [[] bsp]; try discriminate; destruct el as [[] sp]; try discriminate; cbn [if_fold_step] in S;
  (match type of S with match ?l with _ => _ end = _ => destruct l; [|discriminate] end); injection S as <-;
  destruct A as (A1 & A2 & A3); destruct B as (B1 & B2 & B3); pose proof (nested_le _ _ _ A2); pose proof (nested_le _ _ _ B2);
  nfin A1; nfin A2; nfin A3; nfin B1; nfin B2; nfin B3.
  all: unfold sfits; names; repeat split; try ln.
  - rewrite app_assoc. eapply nested_cat; [exact A2|ln|ns].
  - rewrite app_assoc. eapply nested_cat; [exact A2|ln|]. apply nested_some; [ln|exact B2|ns].
Qed.
Lemma fold_ifs_fits l s lo hi : nested lo hi (sts l) -> fold_ifs l = Some s -> sfits s lo hi.
Proof.
  unfold fold_ifs. rewrite <- (rev_involutive l) at 1. destruct (rev l) as [|x r]; [discriminate|]. cbn [rev]. revert x.
  induction r as [|el r IH]; intros x N F; cbn [fold_left rev app] in *.
  - injection F as <-. apply one_nested. cbn [flat_map] in N. rewrite app_nil_r in N. exact N.
  - destruct (if_fold_step (Some x) el) as [y|] eqn:S.
    + apply (IH y); [|exact F]. rewrite <- app_assoc in N. cbn [app] in N. rewrite flat_map_app in *. apply nested_split in N. destruct N as (m & A & B).
      eapply nested_app; [exact A|]. pose proof (fold_step_fits _ _ _ _ _ B S) as Y. cbn [flat_map]. rewrite app_nil_r.
      eapply nested_weak; [eapply sfits_tight; exact Y| |]; destruct Y as (? & ? & ?); lia.
    + exfalso. clear -F. induction r; cbn in F; [discriminate|auto].
Qed.
Lemma parse_if_s sp p : sp_start sp <= E p -> tail (parse_if toks pe ps sp) p (sp_start sp).
Proof.
  intros L. unfold parse_if. st. st. use; [|lia]. st. eapply pseb_use; [assumption|intros r q1 A B C V1|intros; lia]. st.
  eapply grows_use; [apply if_arms_s|assumption| |intros; facts; ln]. intros l q2 Y EX NY LE V2. destruct (fold_ifs l) as [s|] eqn:F; [|st]. st.
  split; [|facts; ln]. eapply fold_ifs_fits; [|exact F]. rewrite EX. facts. names. ns.
Qed.
Hint Resolve parse_if_s : span.
Lemma parse_expr_stmt_s d p : sx (parse_expr_stmt toks pe d) p.
Proof. unfold parse_expr_stmt. go. Qed.
Hint Resolve parse_expr_stmt_s : span.
Lemma parse_other_stmt_s d p : sx (parse_other_stmt toks pe d) p.
Proof.
  intros V0. unfold parse_other_stmt. st. st. destruct (nth_error toks p) as [[x sp]|] eqn:N; [|go].
  pose proof (E_open toks V Line _ _ _ V0 N) as (A1 & A2 & A3).
  destruct (simple_stmt toks pe x sp) as [m|] eqn:SI; [|go].
  assert (V (S p) = 0) by (apply (E_token toks V Line _ _ _ V0 N); destruct x as [[]| | | | | | | |]; reflexivity || discriminate SI). st. st.
  assert (M : wo m (S p) (fun s q => (E (S p) <= E q /\ V q = 0) /\ nested (sp_start sp) (E q) (statement_inside s)) (fun _ q => E (S p) <= E q /\ V q = 0)).
  { destruct x as [k| | | | | | | |]; try discriminate; [destruct k; try discriminate|..]; injection SI as <-; go; split; try (facts; ln); facts; nf; rew; nf; ns. }
  st. eapply wo_mono; [exact M| |]; cbv beta; [|intros; lia]. intros s q ((L & Vq) & NS). go.
Qed.
Hint Resolve parse_other_stmt_s : span.
Lemma look_restore_s k d m rest p : opening (Kw k) = false -> (forall sp p, sp_start sp <= E p -> tail (m sp) p (sp_start sp)) -> (forall d, sx (rest d) p) -> sx (look_restore toks k d m rest) p.
Proof.
  intros O M R V0. unfold look_restore. st. st. eapply wo_look'; [exact Line|exact O|exact V0|intros sp N (? & ? & ? & ?)|apply R, V0]. st. use2; [|].
  - fin.
  - st. st. apply R, V0.
Qed.
Lemma parse_statement_body_s p : sx (parse_statement_body toks pe ps) p.
Proof.
  intros V0. unfold parse_statement_body. do 10 (st; [go|]).
  apply look_restore_s; [reflexivity|intros; apply parse_static_var_decl_s; assumption| |exact V0]. intros.
  apply look_restore_s; [reflexivity|intros; apply parse_global_var_decl_s; assumption|]. intros.
  apply look_restore_s; [reflexivity|intros; apply parse_function_declaration_s; assumption|]. intros. go.
Qed.
End Knot.

Lemma knot_s f : (forall prec p, ex (parse_expression toks f prec) p) /\ (forall p, sx (parse_statement toks f) p).
Proof.
  induction f as [|f [IHe IHs]]; split; intros; cbn [parse_expression parse_statement]; try (intros V0; apply wo_fuel).
  - apply parse_unary_expression_s; assumption.
  - apply parse_statement_body_s; assumption.
Qed.
Lemma parse_statement_s f p : sx (parse_statement toks f) p.
Proof. apply knot_s. Qed.
Hint Resolve parse_statement_s : span.
Lemma use_clauses_s n : forall acc, moves (use_clauses toks n acc).
Proof. induction n; intros acc p; try intros ?; cbn [use_clauses]; go. Qed.
Hint Resolve use_clauses_s : span.
Lemma parse_top_statement_s f p : sx (parse_top_statement toks (parse_statement toks f)) p.
Proof. unfold parse_top_statement. go. Qed.
Hint Resolve parse_top_statement_s : span.
Lemma top_statements_s f n : forall acc p, grows (top_statements toks (parse_statement toks f) n acc) p (flat_map statement_regions acc) (flat_map statement_regions).
Proof. induction n; intros acc p; try intros ?; cbn [top_statements]; go. Qed.
End Pass.
