(** * Dies: token sequences on which the parser panics, by grammar rules *)
From Verif Require Import Base Tokens Ast AstMap AstInd Lexer Parser Driver Wp ParserTermination ParserMono ParserRel ParseRun ParseTac ParseExpr ParseStmt ParseDecl ParseCrash.
From Coq Require Import String.

Definition never {A} : A -> nat -> Prop := fun _ _ => False.
(** an expression that starts with the tokens [ts], whatever follows *)
Definition DiesE (ts : list token) : Prop := forall toks, late2 toks -> forall p l, here toks p (ts ++ l) -> wp (PE toks 0) p never never.
(** an operand *)
Definition DiesH (ts : list token) : Prop := forall toks, late2 toks -> forall p l, here toks p (ts ++ l) -> wp (head_expr toks) p never never.
Lemma wp_never {A} (m : P A) p Q E : wp m p never never -> wp m p Q E.
Proof. intros H. eapply wp_mono; [exact H|intros ? ? []|intros ? ? []]. Qed.
Lemma head_dies ts : DiesH ts -> forall toks, late2 toks -> forall prec p l, here toks p (ts ++ l) -> wp (PE toks prec) p never never.
Proof. intros D toks L prec p l H. apply wq_PE. apply wp_never. exact (D toks L p l H). Qed.
Lemma head_e ts : DiesH ts -> DiesE ts.
Proof. intros D toks L p l H. eapply head_dies; eauto. Qed.
(** from the alternatives of an operand *)
Lemma head_other toks p t l : late2 toks -> here toks p (t :: l) -> unop_of t = None ->
  wp (parse_other_expression toks (PE toks) (PS toks)) p never never -> wp (head_expr toks) p never never.
Proof.
  intros L H U K. unfold head_expr. qx1 L. qx1 L. cbv beta iota. rewrite U. unfold parse_postfix_expression. qx1 L. apply wp_never. exact K.
Qed.
Lemma other_variable toks p l Q E : late2 toks -> here toks p l -> hd_ok plain_tok l ->
  wp (parse_variable_expression toks (PE toks)) p Q E -> wp (parse_other_expression toks (PE toks) (PS toks)) p Q E.
Proof.
  intros L H C K. unfold parse_other_expression. qx L. unfold parse_internal. qx1 L.
  eapply (wq_peek toks L); [exact H|]. cbv beta. destruct l as [|t l]; [exact K|].
  destruct t as [k| | | | | | | |]; try exact K. destruct k; try exact K; discriminate C.
Qed.
Lemma head_variable toks p t l : late2 toks -> here toks p (t :: l) -> unop_of t = None -> plain_tok t = true ->
  wp (parse_variable toks (PE toks) false None) p (fun a q => wp (parse_assign toks (PE toks) a) q never never) never -> wp (head_expr toks) p never never.
Proof.
  intros L H U C K. eapply head_other; eauto. eapply other_variable; eauto. unfold parse_variable_expression. qx1 L.
  eapply wp_mono; [exact K|auto|intros ? ? []].
Qed.
Lemma base_dies toks p t l : late2 toks -> here toks p (t :: l) -> tok_in [KNsSeparator; KStatic] t = false -> match t with TString _ => False | _ => True end ->
  wp (parse_base_variable toks (PE toks) false) p never never -> forall Q E, wp (parse_variable toks (PE toks) false None) p Q E.
Proof.
  intros L H C1 C2 K Q E. unfold parse_variable, variable_base. qx1 L. qx1 L. qx1 L. cbv beta.
  destruct (scoped_fail toks p _ L H) as [F1 F2].
  { destruct t as [k| | | | | | | |]; try reflexivity; try contradiction. destruct k; try reflexivity; discriminate C1. }
  qx1 L. apply (wp_fails _ _ _ _ F1). intros e. cbv beta. qx1 L. apply (wp_fails _ _ _ _ F2). intros e'. cbv beta. qx1 L. apply wp_never. exact K.
Qed.

(** ** The two expressions *)
(** [$$a], [${a}] *)
Lemma dollar_dies r : DiesH (Kw KDollar :: r).
Proof.
  intros toks L p l H. cbn [app] in H. eapply head_variable; [exact L|exact H|reflexivity|reflexivity|].
  eapply base_dies; [exact L|exact H|reflexivity|exact I|]. unfold parse_base_variable, parse_simple_variable_expr, parse_simple_variable. qx L.
Qed.
(** [(unset) $a] *)
Lemma unset_dies r : DiesH (Kw KCastUnset :: r).
Proof.
  intros toks L p l H. cbn [app] in H. eapply head_other; [exact L|exact H|reflexivity|].
  unfold parse_other_expression. qx L. unfold parse_internal. qx L. cbn [cast_ty include_of]. qx L.
Qed.

(** ** What may stand before it *)
Lemma paren_dies ts : DiesE ts -> DiesH (Kw KParenthesesOpen :: ts).
Proof.
  intros D toks L p l H. cbn [app] in H. eapply head_variable; [exact L|exact H|reflexivity|reflexivity|].
  eapply base_dies; [exact L|exact H|reflexivity|exact I|]. unfold parse_base_variable. qx L. apply wp_never. exact (D toks L _ _ HS).
Qed.
Lemma unary_dies t o ts : unop_of t = Some o -> DiesH ts -> DiesH (t :: ts).
Proof.
  intros U D toks L p l H. cbn [app] in H. unfold head_expr. qx L. rewrite U. qx L. eapply head_dies in D; [|exact L|exact HS]. apply wp_never. exact D.
Qed.
Lemma assign_dies v k o ts : assign_of (Some (Kw k, span_new)) = Some o -> no_amp ts -> DiesE ts -> DiesH (TVariable v :: Kw k :: ts).
Proof.
  intros A [N1 N2] D toks L p l H. cbn [app] in H. eapply head_variable; [exact L|exact H|reflexivity|reflexivity|].
  eapply wp_use; [apply (var_whole [TVariable v] _ (var_simple false v) toks L p _ H)|].
  { destruct k; try discriminate A; reflexivity. }
  intros a q (A1 & A2 & A3). unfold parse_assign. qx L.
  replace (assign_of (Some (Kw k, sp_at toks q))) with (Some o) by (rewrite <- A; reflexivity). qx L.
  assert (HA' : hd_ok (fun t => negb (tok_in [KAmpersand] t)) (ts ++ l)) by (destruct ts; [congruence|exact N2]).
  assert (X : wpx (match o with OEq => look toks KAmpersand (fun _ => pret true) (pret false) | _ => pret false end) (S q) (fun b q' => b = false /\ q' = S q) nofail).
  { destruct o; px L; auto. }
  eapply wp_use; [exact X|]. intros b q' [-> ->]. qx L. apply wp_never. exact (D toks L _ _ HS).
Qed.
(** an operator behind an operand *)
Lemma binary_dies ta e k x o r tb : Operand oplike ta e -> precedence k = Some x -> binop_of k = Some o -> assoc_right k = Some r -> 1 <= x ->
  DiesH tb -> DiesE (ta ++ Kw k :: tb).
Proof.
  intros OA PK B A X1 D toks L p l H. rewrite app_cons_assoc in H. apply wq_PE.
  eapply wp_use; [apply (OA toks L p _ H); eapply prec_oplike; eauto|]. intros a q (A1 & A2 & A3). next_here L.
  unfold lf. cbn [binary_loop]. unfold parse_binary_expression. qx1 L. qx1 L. qx1 L. cbv beta iota. rewrite PK.
  destruct (Nat.leb_spec x 0); [lia|]. destruct (binop_kind _ _ B) as [B1 B2].
  rewrite (binary_match k _ _ _ B1 B2). rewrite B, A. qx L.
  assert (S1 : wpx (match r with true => psub x 1 | false => pret x end) (S q) (fun y q' => q' = S q) nofail).
  { destruct r; px L; auto. }
  eapply wp_use; [exact S1|]. intros y q' ->. qx L. eapply head_dies in D; [|exact L|exact HS]. apply wp_never. exact D.
Qed.
(** a function's argument *)
Lemma call_dies f ts : ts <> [] -> hd_ok (fun t => negb (tok_in [KParenthesesClose; KEllipsis] t)) ts -> DiesE ts -> DiesH (TString f :: Kw KParenthesesOpen :: ts).
Proof.
  intros NE C D toks L p l H. cbn [app] in H. eapply head_variable; [exact L|exact H|reflexivity|reflexivity|].
  unfold parse_variable, variable_base. qx1 L. qx1 L. qx1 L. cbv beta. qx1 L.
  assert (CL : Cls (path_toks false [f]) (path_of false [f])) by (left; exists false, [f]; repeat split; discriminate).
  apply (wp_fails _ _ _ _ (scoped_name_fail false (path_toks false [f]) _ toks p _ CL L H eq_refl)). intros e. cbv beta. qx1 L.
  unfold parse_fn_call_base_item. qx1 L. qx1 L. qx1 L. cbv beta zeta.
  eapply wp_use; [apply (path_expr_run false [f] toks p (Kw KParenthesesOpen :: ts ++ l) ltac:(discriminate) L H); reflexivity|]. intros a q (A1 & A2 & A3). cbv beta.
  assert (C' : hd_ok (fun t => negb (tok_in [KParenthesesClose; KEllipsis] t)) (ts ++ l)) by (destruct ts; [congruence|exact C]).
  qx L. unfold lf at 1. cbn [appendixes]. qx L. unfold parse_argument_list. qx L. unfold lf at 1. cbn [argument_list]. qx L.
  apply wp_never. exact (D toks L _ _ HS).
Qed.
(** an index *)
Lemma index_dies v ts : DiesE ts -> DiesH (TVariable v :: Kw KSquareBracketOpen :: ts).
Proof.
  intros D toks L p l H. cbn [app] in H. eapply head_variable; [exact L|exact H|reflexivity|reflexivity|].
  unfold parse_variable, variable_base. qx1 L. qx1 L. qx1 L. cbv beta. qx1 L. destruct (scoped_fail toks p _ L H eq_refl) as [F1 F2].
  apply (wp_fails _ _ _ _ F1). intros e. cbv beta. qx1 L. apply (wp_fails _ _ _ _ F2). intros e'. cbv beta. qx1 L.
  unfold parse_base_variable, parse_simple_variable_expr, parse_simple_variable. qx L. unfold lf at 1. cbn [appendixes]. qx L. unfold parse_opt_expression. qx L.
  apply wp_never. exact (D toks L _ _ HS0).
Qed.
(** an element of an array *)
Lemma array_dies ts : DiesE ts -> DiesH (Kw KSquareBracketOpen :: ts).
Proof.
  intros D toks L p l H. cbn [app] in H. eapply head_variable; [exact L|exact H|reflexivity|reflexivity|].
  eapply base_dies; [exact L|exact H|reflexivity|exact I|]. unfold parse_base_variable. qx L.
  apply (wp_fails _ _ _ _ (simple_fail toks p _ L H eq_refl)). intros e. cbv beta. qx L. unfold parse_dereferencable_scalar. qx L.
  unfold parse_array_pair_list, lf. cbn [array_pairs]. qx L. apply wp_never. exact (D toks L _ _ HS).
Qed.
(** ** Two [instanceof] in a row *)
Lemma instanceof_dies ta e tc1 c1 tc2 : Operand oplike ta e -> Cls tc1 c1 -> DiesE (ta ++ Kw KInstanceOf :: tc1 ++ Kw KInstanceOf :: tc2).
Proof.
  intros OA C toks L p l H. rewrite app_cons_assoc, app_cons_assoc in H. apply wq_PE.
  eapply wp_use; [apply (OA toks L p _ H); reflexivity|]. intros a q (A1 & A2 & A3). next_here L.
  unfold lf. cbn [binary_loop]. unfold parse_binary_expression at 1. qx1 L. qx1 L. qx1 L. cbv beta iota. cbn [precedence]. cbn [Nat.leb].
  qx1 L. qx1 L. cbv beta. 
  assert (X : wp (right <~ parse_class_name_reference toks (PE toks) ;; pret (Some (Ex (EInstanceOf a right) (mk_span (estart a) (eend right))))) (S q)
    (fun (o : option expr) q' => wp (match o with Some l => binary_loop toks (PE toks) (S (List.length toks)) 0 l | None => pret a end) q' never never)
    (fun _ q' => wp (pret a) q' never never)).
  { qx1 L. eapply wp_use; [apply (clsref_run tc1 (Ex (EPath c1) span_new) toks _ _ (or_introl (ex_intro _ c1 (conj C eq_refl))) L HS); reflexivity|].
    intros c q' (B1 & B2 & B3). next_here L. qx1 L. cbn [binary_loop]. unfold parse_binary_expression at 1. qx1 L. qx1 L. qx1 L. cbv beta iota. cbn [precedence Nat.leb]. qx L. }
  destruct a as [n sp]. destruct n; try exact X. apply wp_panic.
Qed.
