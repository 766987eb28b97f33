(** * StopsExpr: the parser stops inside of expressions, too (proofs for C39 and C40) *)
From Verif Require Import SpecGrammar SpecErr.
From Verif Require Import Base Tokens Ast AstMap AstInd Lexer Parser Driver Wp Spec SpecProg ParserTermination ParserMono ParserRel ParserFacts ParseRun ParseTac ParseExpr ParseStmt ParseDecl Interp Grammar GrammarAll ErrAt Stops.
From Coq Require Import String.
Local Open Scope list_scope.

(** ** What the relations mean for the parser *)
Definition StopE (n : option token) (ts : list token) : Prop := forall toks, late2 toks -> forall prec p l, ahead n l -> here toks p (ts ++ l) ->
  wpx (PE toks prec) p no (stop true toks l).
Definition expr_head (ts : list token) : Prop := SH ts /\ exists t r, ts = t :: r /\ start_tok t = true.
Definition BadE (n : option token) (ts : list token) : Prop := StopE n ts /\ lacks_expression n /\ expr_head ts.
Definition UnfE (n : option token) (ts : list token) : Prop := StopE n ts /\ lacks_expression n /\ (ts = [] \/ expr_head ts).
(** the expression ends, but not with one of [ks] *)
Definition ended (ks : list kind) (toks : list tokspan) (p : nat) (l : list token) {A} : A -> nat -> Prop := fun _ q =>
  here toks q l /\ p < q /\ hd_ok (fun t => negb (tok_in ks t)) l.
Definition UncE (n : option token) (ks : list kind) (ts : list token) : Prop :=
  (lacks_expression n /\ (ts = [] \/ expr_head ts)) /\
  forall toks, late2 toks -> forall p l, ahead n l -> here toks p (ts ++ l) -> wpx (PE toks 0) p (ended ks toks p l) (stop true toks l).
Definition DngE (n : option token) (m : nat) (ts : list token) (e : expr) : Prop :=
  (among enders n /\ expr_head ts) /\
  forall toks, late2 toks -> forall prec p l, prec < m -> ahead n l -> here toks p (ts ++ l) -> wpx (PE toks prec) p (okq toks e p l) nofail.
Definition WhsE (n : option token) (ks : list kind) (ts : list token) : Prop := lacks_expression n /\
  forall toks, late2 toks -> forall f acc p l, ahead n l -> here toks p (ts ++ l) -> List.length ts < f ->
  (In KComma ks -> wpx (expression_list toks (PE toks) f acc) p (ended ks toks p l) (stop true toks l) /\ wpx (isset_args toks (PE toks) f true acc) p (ended ks toks p l) (stop true toks l)).
Definition ArgE (n : option token) (first : bool) (ts : list token) : Prop := lacks_expression n /\
  (first = true -> forall l, ahead n l -> hd_ok (fun t => negb (tok_in [KParenthesesClose] t)) (ts ++ l)) /\
  forall toks, late2 toks -> forall f acc p l, ahead n l -> here toks p (ts ++ l) -> List.length ts < f ->
  wpx (argument_list toks (PE toks) f acc) p (ended [KComma; KParenthesesClose] toks p l) (stop true toks l).
Definition PrsE (n : option token) (ks : list kind) (ts : list token) : Prop := lacks_expression n /\
  forall toks, late2 toks -> forall f acc p l, ahead n l -> here toks p (ts ++ l) -> List.length ts < f ->
  wpx (array_pairs toks (PE toks) f acc) p (fun _ q => here toks q l /\ hd_ok (fun t => negb (tok_in ks t)) l) (stop true toks l).

(** ** Basics *)
Lemma enders_lack n : among enders n -> lacks_expression n.
Proof.
  unfold lacks_expression, among. destruct n as [[k| | | | | | | |]|]; auto. intros I. apply (existsb_exists (kind_eqb k) no_expression) || idtac.
  assert (X : forallb (fun k => existsb (kind_eqb k) no_expression) enders = true) by reflexivity. rewrite forallb_forall in X. specialize (X k I).
  apply existsb_exists in X as (k' & J & E). apply kind_eqb_eq in E. subst. exact J.
Qed.
Lemma closing_ended ks toks p l {A} (a : A) q n : ends_without n ks -> ahead n l -> here toks q l -> p < q -> ended ks toks p l a q.
Proof. intros X N H P. destruct (ends_hd n ks l X N) as [C1 C2]. split; [exact H|]. split; [exact P|assumption]. Qed.
Lemma enders_closing n l : among enders n -> ahead n l -> closing l.
Proof. intros A N. apply (tok_weak enders); [reflexivity|]. eapply among_hd; eauto. Qed.
Lemma pe_stop {A} (Q : A -> Prop) toks prec p l : wpx (head_expr toks) p no (stop true toks l) -> wpx (PE toks prec) p no (stop true toks l).
Proof. intros H. apply wpx_head. use_no H. auto. Qed.
Lemma head_one t ts : start_tok t = true -> plain_head t = true -> expr_head (t :: ts).
Proof. intros S P. split; [apply sh_plain, P|]. exists t, ts. auto. Qed.
Lemma expr_head_app ts l : expr_head ts -> expr_head (ts ++ l).
Proof. intros (S & t & r & -> & H). split; [apply sh_app, S|]. exists t, (r ++ l). auto. Qed.
Lemma unf_none n : lacks_expression n -> UnfE n [].
Proof. intros X. split; [|auto]. intros toks L prec p l N H. assert (C := lacks_hd n l X N). cbn [app] in H. halt (pe_halts toks L prec p l H C). fin. Qed.
Lemma unf_some n ts : BadE n ts -> UnfE n ts.
Proof. intros (A & B & C). split; [exact A|]. split; auto. Qed.
Lemma unc_unf n ks ts : UnfE n ts -> UncE n ks ts.
Proof. intros (A & B & C). split; [auto|]. intros toks L p l N H. use_no (A toks L 0 p l N H). auto. Qed.
Lemma full_eh ts e : Full ts e -> SH ts -> expr_head ts.
Proof. intros F S. split; [exact S|]. exact (full_head ts e F). Qed.
Lemma unc_whole n ks ts e : Full ts e -> SH ts -> ends_without n ks -> UncE n ks ts.
Proof.
  intros F S X. split; [split; [apply enders_lack, X|right; eapply full_eh; eauto]|]. intros toks L p l N H. destruct (ends_hd n ks l X N) as [C1 C2].
  eapply wpx_use; [exact (F toks L p l H C1)|]. intros a q (A1 & A2 & _). eapply closing_ended; eauto.
Qed.
Lemma unc_dangling n ks ts e : DngE n 1 ts e -> ends_without n ks -> UncE n ks ts.
Proof.
  intros ((A & B) & D) X. split; [split; [apply enders_lack, A|auto]|]. intros toks L p l N H.
  eapply wpx_use; [exact (D toks L 0 p l (le_n 1) N H)|]. intros a q (A1 & A2 & _). eapply closing_ended; eauto.
Qed.

(** ** Prefixes *)
Lemma stop_unop n k o ts : unop_of (Kw k) = Some o -> UnfE n ts -> BadE n (Kw k :: ts).
Proof.
  intros U (F & X & _). split; [|split; [exact X|apply head_one; destruct k; try discriminate U; reflexivity]]. intros toks L prec p l N H. apply (pe_stop (fun _ : nat => True)). cbn [app] in H.
  unfold head_expr. px1 L. eapply (wpx_peek toks L); [exact H|]. cbv beta iota. rewrite U. kx L. use_no (F toks L PrUnary _ l N HS). auto.
Qed.
Lemma post_stop toks p t r l : late2 toks -> here toks p (t :: r) -> unop_of t = None -> wpx (parse_other_expression toks (PE toks) (PS toks)) p no (stop true toks l) ->
  forall prec, wpx (PE toks prec) p no (stop true toks l).
Proof.
  intros L H U K prec. apply (pe_stop (fun _ : nat => True)). eapply head_post; eauto. unfold parse_postfix_expression. px1 L. use_no K. auto.
Qed.
Lemma internal_stop toks p k r (Q : expr -> nat -> Prop) E : late2 toks -> here toks p (Kw k :: r) -> tok_in [KNew; KClone; KExit; KYield; KFunction] (Kw k) = false ->
  wpx (parse_internal toks (PE toks) (parse_variable_expression toks (PE toks))) p Q E -> wpx (parse_other_expression toks (PE toks) (PS toks)) p Q E.
Proof.
  intros L H NK K. unfold parse_other_expression.
  assert (HX : hd_ok (fun t => negb (tok_in [KNew; KClone; KExit; KYield; KFunction] t)) (Kw k :: r)) by (unfold hd_ok; rewrite NK; reflexivity).
  do 5 (eapply (wpx_look_cls toks L); [exact H|exact HX|reflexivity|]). exact K.
Qed.
Lemma stop_cast n k c ts : cast_ty k = Some c -> UnfE n ts -> BadE n (Kw k :: ts).
Proof.
  intros U (F & X & _). split; [|split; [exact X|apply head_one; destruct k; try discriminate U; reflexivity]]. intros toks L prec p l N H. cbn [app] in H.
  eapply post_stop; [exact L|exact H|destruct k; try discriminate U; reflexivity|]. eapply internal_stop; [exact L|exact H|destruct k; try discriminate U; reflexivity|].
  unfold parse_internal. px1 L. eapply (wpx_peek toks L); [exact H|]. cbv beta iota. rewrite U. kx L. use_no (F toks L PrUnary _ l N HS). auto.
Qed.
Lemma stop_include n k c ts : include_of k = Some c -> UnfE n ts -> BadE n (Kw k :: ts).
Proof.
  intros U (F & X & _). split; [|split; [exact X|apply head_one; destruct k; try discriminate U; reflexivity]]. intros toks L prec p l N H. cbn [app] in H.
  eapply post_stop; [exact L|exact H|destruct k; try discriminate U; reflexivity|]. eapply internal_stop; [exact L|exact H|destruct k; try discriminate U; reflexivity|].
  unfold parse_internal. px1 L. eapply (wpx_peek toks L); [exact H|]. cbv beta iota. replace (cast_ty k) with (@None ty) by (destruct k; try discriminate U; reflexivity). rewrite U.
  kx L. use_no (F toks L PrNone _ l N HS). auto.
Qed.
Lemma stop_clone n ts : UnfE n ts -> BadE n (Kw KClone :: ts).
Proof.
  intros (F & X & _). split; [|split; [exact X|apply head_one; reflexivity]]. intros toks L prec p l N H. cbn [app] in H. eapply post_stop; [exact L|exact H|reflexivity|].
  unfold parse_other_expression. kx L. use_no (F toks L PrNone _ l N HS). auto.
Qed.

(** ** Parentheses *)
Lemma stop_paren n ts : UncE n [KParenthesesClose] ts -> BadE n (Kw KParenthesesOpen :: ts).
Proof.
  intros ((X & _) & F). split; [|split; [exact X|apply head_one; reflexivity]]. intros toks L prec p l N H. cbn [app] in H. eapply post_stop; [exact L|exact H|reflexivity|].
  eapply other_plain; [exact L|exact H|reflexivity|].
  destruct (here_cons toks L p _ _ H) as (_ & HS & _).
  assert (K : forall (f : expr -> span -> expr), wpx (e <~ PE toks PrNone ;; sp2 <~ expect toks KParenthesesClose ;; pret (f e sp2)) (S p) no (stop true toks l)).
  { intros f. px1 L. eapply wpx_mono; [exact (F toks L _ l N HS)| |auto]. intros a q (A1 & A2 & A4). kx L. fin. }
  unfold parse_variable_expression. px1 L. eapply (wpx_mono _ _ no _ (fun _ q => q = p)); [|intros ? ? []|].
  - unfold parse_variable, variable_base. px1 L. px1 L. px1 L. px1 L. cbv beta.
    assert (SF := proj1 (scoped_fail toks p _ L H eq_refl)). assert (FF := proj2 (scoped_fail toks p _ L H eq_refl)). use_no SF. intros e q ->. px1 L. use_no FF. intros e' q ->. px1 L.
    unfold parse_base_variable. px1 L. use_no (K (fun e sp2 => Ex (enode e) (mk_span (sp_start (sp_at toks p)) (sp_end sp2)))). intros e'' q _. px1 L. px1 L. cbv beta. px1 L. reflexivity.
  - intros e q ->. cbv zeta. kx1 L. kx1 L. exact (K (fun e sp2 => Ex (enode e) (mk_span (sp_start (sp_at toks p)) (sp_end sp2)))).
Qed.
Lemma stop_exit n ts : UncE n [KParenthesesClose] ts -> BadE n (Kw KExit :: Kw KParenthesesOpen :: ts).
Proof.
  intros ((X & _) & F). split; [|split; [exact X|apply head_one; reflexivity]]. intros toks L prec p l N H. cbn [app] in H. eapply post_stop; [exact L|exact H|reflexivity|].
  unfold parse_other_expression. kx L. eapply wpx_mono; [exact (F toks L _ l N HS0)| |auto]. intros a q (A1 & A2 & A4). kx L. fin.
Qed.
Lemma stop_empty n ts : UncE n [KParenthesesClose] ts -> BadE n (Kw KEmpty :: Kw KParenthesesOpen :: ts).
Proof.
  intros ((X & _) & F). split; [|split; [exact X|apply head_one; reflexivity]]. intros toks L prec p l N H. cbn [app] in H. eapply post_stop; [exact L|exact H|reflexivity|].
  eapply internal_stop; [exact L|exact H|reflexivity|]. unfold parse_internal. kx L. cbn [cast_ty include_of]. kx L. unfold lf. cbn [isset_args]. kx L.
  eapply wpx_mono; [exact (F toks L _ l N HS0)| |auto]. intros a q (A1 & A2 & A4). kx L. fin.
Qed.

(** ** Lists *)
Lemma not_comma_hd ks l : In KComma ks -> hd_ok (fun t => negb (tok_in ks t)) l -> hd_ok (fun t => negb (tok_in [KComma] t)) l.
Proof.
  intros I. apply hd_weak. intros t X. destruct t as [k| | | | | | | |]; auto. cbn in *. destruct (kind_eqb k KComma) eqn:E; [|reflexivity]. apply kind_eqb_eq in E. subst k.
  rewrite (in_existsb KComma ks I) in X. discriminate X.
Qed.
Lemma whs_last n ks ts : UncE n ks ts -> WhsE n ks ts.
Proof.
  intros ((X & _) & F). split; [exact X|]. intros toks L f acc p l N H LF IK. destruct f as [|f]; [lia|]. cbn [expression_list isset_args]. 
  split; px1 L; (eapply wpx_mono; [exact (F toks L p l N H)| |auto]; intros a q (A1 & A2 & A4); assert (NC := not_comma_hd ks l IK A4); cbv zeta; kx1 L; px1 L; split; [exact A1|]; auto).
Qed.
Lemma whs_more n ks ts e tl : Full ts e -> WhsE n ks tl -> WhsE n ks (ts ++ Kw KComma :: tl).
Proof.
  intros W (X & F). split; [exact X|]. intros toks L f acc p l N H LF IK. destruct f as [|f]; [lia|]. cbn [expression_list isset_args].
  rewrite app_cons_assoc in H. rewrite app_length in LF. cbn [List.length] in LF. 
  assert (D : forall {A} (a : A) p' q, p < p' -> ended ks toks p' l a q -> ended ks toks p l a q) by (intros A a p' q P (A1 & A2 & A4); split; [exact A1|]; split; [lia|auto]).
  split; px1 L; (eapply wpx_use; [exact (W toks L p _ H eq_refl)|]; intros a q (A1 & A2 & _); cbv zeta; kx L;
    destruct (F toks L f (acc ++ [a]) (S q) l N HS ltac:(lia) IK) as [G1 G2]; eapply wpx_mono; [first [exact G1|exact G2]| |auto]; intros b q' B; apply (D _ b (S q)); [lia|exact B]).
Qed.
Lemma stop_isset n ts : WhsE n [KParenthesesClose; KComma] ts -> BadE n (Kw KIsset :: Kw KParenthesesOpen :: ts).
Proof.
  intros (X & F). split; [|split; [exact X|apply head_one; reflexivity]]. intros toks L prec p l N H. cbn [app] in H. eapply post_stop; [exact L|exact H|reflexivity|].
  eapply internal_stop; [exact L|exact H|reflexivity|]. unfold parse_internal. kx L. cbn [cast_ty include_of]. kx L.
  destruct (F toks L (lf toks) [] _ l N HS0) as [_ G]; [destruct HS0 as [Z _]; rewrite app_length in Z; unfold lf; lia|right; left; reflexivity|].
  eapply wpx_mono; [exact G| |auto]. intros a q (A1 & A2 & A4). kx L. fin.
Qed.
(** ** Arguments *)
Lemma arg_last n first ts : UncE n [KComma; KParenthesesClose] ts -> except [KEllipsis] n -> (first = true -> ts = [] -> except [KParenthesesClose] n) -> ArgE n first ts.
Proof.
  intros ((X & HD) & F) EL FI. split; [exact X|]. split.
  - intros FT l N. destruct HD as [->|(_ & t & r & -> & S)]; [cbn [app]; eapply except_hd; [apply FI; auto|exact N]|]. destruct t as [k| | | | | | | |]; try reflexivity. destruct k; try reflexivity; discriminate S.
  - intros toks L f acc p l N H LF. destruct f as [|f]; [lia|]. cbn [argument_list]. px1 L.
    assert (NE : hd_ok (fun t => negb (tok_in [KEllipsis] t)) (ts ++ l)).
    { destruct HD as [->|(_ & t & r & -> & S)]; [cbn [app]; eapply except_hd; eauto|]. destruct t as [k| | | | | | | |]; try reflexivity. destruct k; try reflexivity; discriminate S. }
    kx1 L. px1 L. px1 L. eapply wpx_mono; [exact (F toks L p l N H)| |auto]. intros a q (A1 & A2 & A4). kx L. split; auto.
Qed.
Lemma arg_unpack n first ts : UncE n [KComma; KParenthesesClose] ts -> ArgE n first (Kw KEllipsis :: ts).
Proof.
  intros ((X & HD) & F). split; [exact X|]. split; [reflexivity|]. intros toks L f acc p l N H LF. destruct f as [|f]; [lia|]. cbn [argument_list app] in *. kx L.
  eapply wpx_mono; [exact (F toks L _ l N HS)| |auto]. intros a q (A1 & A2 & A4). kx L. split; [exact A1|]. split; [lia|auto].
Qed.
Lemma arg_more n first ts e tl : Arg ts e -> ArgE n false tl -> ArgE n first (ts ++ Kw KComma :: tl).
Proof.
  intros W (X & _ & F). split; [exact X|]. destruct (arg_nonempty _ _ W) as (t & r & E & SP). split.
  { intros _ l N. rewrite E. cbn. rewrite SP. reflexivity. }
  intros toks L f acc p l N H LF. destruct f as [|f]; [lia|]. cbn [argument_list]. rewrite app_cons_assoc in H. rewrite app_length in LF. cbn [List.length] in LF.
  assert (Y : forall st a q, here toks q (Kw KComma :: tl ++ l) -> p < q -> wpx (let acc := acc ++ [match st with Some st => Ex (EUnpack a) (set_start st (espan a)) | None => a end] in
    look toks KComma (fun _ => argument_list toks (PE toks) f acc) (pret acc)) q (ended [KComma; KParenthesesClose] toks p l) (stop true toks l)).
  { intros st a q A1 A2. cbv zeta. kx L. eapply wpx_mono; [exact (F toks L f _ (S q) l N HS ltac:(lia))| |auto]. intros b q' (B1 & B2 & B4). split; [exact B1|]. split; [lia|auto]. }
  destruct W as [W|(ts' & e' & -> & W & _)].
  - assert (NE : hd_ok (fun t => negb (tok_in [KEllipsis] t)) (ts ++ Kw KComma :: tl ++ l)).
    { destruct (full_head _ _ W) as (t' & r' & -> & S'). cbn [app]. destruct t' as [k| | | | | | | |]; try reflexivity. destruct k; try reflexivity; discriminate S'. }
    px1 L. kx1 L. px1 L. px1 L. eapply wpx_use; [exact (W toks L p _ H eq_refl)|]. intros a q (A1 & A2 & _). apply (Y None); assumption.
  - cbn [app] in H. kx L. eapply wpx_use; [exact (W toks L _ _ HS eq_refl)|]. intros a q (A1 & A2 & _). apply (Y (Some (sp_start (sp_at toks p)))); [assumption|lia].
Qed.
Lemma args_stop n ts toks p l : ArgE n true ts -> late2 toks -> ahead n l -> here toks p (Kw KParenthesesOpen :: ts ++ l) ->
  wpx (parse_argument_list toks (PE toks)) p no (stop true toks l).
Proof.
  intros (X & NC & F) L N H. specialize (NC eq_refl l N). unfold parse_argument_list. kx L.
  eapply wpx_mono; [apply (F toks L (lf toks) [] _ l N HS); destruct HS as [Z _]; rewrite app_length in Z; unfold lf; lia| |auto]. intros a q (A1 & A2 & A4). kx L. fin.
Qed.
(** ** Calls *)
Definition CallBase (ts : list token) : Prop := expr_head ts /\ (exists t r, ts = t :: r /\ var_head t = true) /\
  forall toks, late2 toks -> forall p l, here toks p (ts ++ Kw KParenthesesOpen :: l) -> forall (R : expr -> nat -> Prop) (E : perror -> nat -> Prop),
  (forall a q n, here toks q (Kw KParenthesesOpen :: l) -> List.length (Kw KParenthesesOpen :: l) < n -> wpx (appendixes toks (PE toks) n false a) q R E) ->
  wpx (parse_variable toks (PE toks) false None) p R E.
Lemma var_start ts : (exists t r, ts = t :: r /\ var_head t = true) -> exists t r, ts = t :: r /\ start_tok t = true.
Proof. intros (t & r & -> & V). exists t, r. split; [reflexivity|]. destruct t as [k| | | | | | | |]; try discriminate V; try reflexivity. destruct k; try discriminate V; reflexivity. Qed.
Lemma base_access ts v : Var ts v -> SH ts -> CallBase ts.
Proof. intros [V1 V2] S. split; [split; [exact S|apply var_start, V1]|]. split; [exact V1|]. intros toks L p l H R E K. apply (V2 toks L p _ H). intros a q n A1 A2 A3 A4. apply K; assumption. Qed.
Lemma base_name abs fs : fs <> [] -> CallBase (path_toks abs fs).
Proof.
  intros NE. assert (CL : Cls (path_toks abs fs) (path_of abs fs)) by (left; eauto).
  assert (VH : exists t r, path_toks abs fs = t :: r /\ var_head t = true) by (eapply cls_var_head; eauto).
  split; [split; [rewrite <- (app_nil_r (path_toks abs fs)); apply (sh_path _ (path_of abs fs)); exists abs, fs; auto|apply var_start, VH]|]. split; [exact VH|].
  intros toks L p l H R E K. unfold parse_variable, variable_base. px L.
  eapply wpx_mono; [apply (scoped_name_fail false _ _ toks p _ CL L H); reflexivity|intros ? ? []|]. intros e q ->. px L.
  unfold parse_fn_call_base_item. px L. eapply wpx_use; [apply (path_expr_run abs fs toks p _ NE L H); reflexivity|].
  intros a q (A1 & A2 & A3). px L. apply K; [exact A1|apply (lf_gt toks q _ A1)].
Qed.
Lemma base_method ts pa t s : Cls ts pa -> Ident t s -> CallBase (ts ++ [Kw KScopeOp; t]).
Proof.
  intros CL I. assert (VH : exists t' r, ts ++ [Kw KScopeOp; t] = t' :: r /\ var_head t' = true) by (apply var_head_app; eapply cls_var_head; eauto).
  split; [split; [apply (sh_cls ts pa), CL|apply var_start, VH]|]. split; [exact VH|].
  intros toks L p l H R E K. rewrite <- app_assoc in H. cbn [app] in H. unfold parse_variable, variable_base. px L.
  eapply wpx_use; [apply (scoped_call_run ts pa t s toks p _ CL I L H)|]. intros a q (A1 & A2 & A3). px L. apply K; [exact A1|apply (lf_gt toks q _ A1)].
Qed.
Lemma stop_call n tv ts : CallBase tv -> ArgE n true ts -> n <> None -> BadE n (tv ++ Kw KParenthesesOpen :: ts).
Proof.
  intros (EH & VH & V) AE NN. assert (X := proj1 AE). split; [|split; [exact X|apply expr_head_app, EH]]. intros toks L prec p l N H. rewrite app_cons_assoc in H.
  destruct VH as (t & r & E & VH). destruct (var_plain t VH) as [P1 P2]. assert (HT := H). rewrite E in HT. cbn [app] in HT.
  eapply post_stop; [exact L|exact HT|exact P2|]. eapply other_plain; [exact L|exact HT|exact P1|].
  unfold parse_variable_expression. px1 L. apply (V toks L p _ H). intros a q m A1 A2. destruct m as [|m]; [lia|]. cbn [appendixes]. kx L.
  use_no (args_stop n ts toks _ l AE L N A1). intros e q' (S1 & ->). cbv zeta.
  assert (C := lacks_hd n l X N). destruct l as [|t0 l]; [unfold ahead in N; cbn in N; congruence|].
  destruct (fail_novar t0 C) as (N1 & N2 & N3 & N4). assert (N5 : hd_ok (fun t => negb (tok_in [KList; KParenthesesOpen] t)) (t0 :: l)) by (cbn [hd_ok]; rewrite N4; reflexivity).
  assert (SC := scalar_halts toks L _ t0 l S1 C). remember (t0 :: l) as l' eqn:EL. clear EL.
  eapply (wpx_look_cls toks L); [exact S1|exact N5|reflexivity|]. eapply (wpx_look_cls toks L); [exact S1|exact N5|reflexivity|]. px1 L. halt SC.
  eapply wpx_mono; [apply (unpack_halts _ (err_pos e)); apply dat_upd; [apply dat_upd; [exact Logic.I|reflexivity]|assumption]|intros ? ? []|]. intros e1 q1 [-> E1]. split; [rewrite E1; exact S1|symmetry; exact E1].
Qed.
Lemma stop_new n tc c ts : ClsRef tc c -> ArgE n true ts -> BadE n (Kw KNew :: tc ++ Kw KParenthesesOpen :: ts).
Proof.
  intros I AE. assert (X := proj1 AE). split; [|split; [exact X|apply head_one; reflexivity]]. intros toks L prec p l N H. cbn [app] in H. rewrite app_cons_assoc in H.
  eapply post_stop; [exact L|exact H|reflexivity|]. unfold parse_other_expression. kx L. eapply wpx_use; [apply (clsref_run tc c toks _ _ I L HS); reflexivity|].
  intros a q (A1 & A2 & A4). kx L. use_no (args_stop n ts toks _ l AE L N A1). auto.
Qed.

(** ** Arrays *)
Lemma not_sub ks ks' l : incl ks ks' -> hd_ok (fun t => negb (tok_in ks' t)) l -> hd_ok (fun t => negb (tok_in ks t)) l.
Proof.
  intros I. apply hd_weak. intros t X. destruct t as [k| | | | | | | |]; auto. cbn in *. destruct (existsb (kind_eqb k) ks) eqn:E; [|reflexivity]. apply existsb_exists in E as (k' & J & E).
  apply kind_eqb_eq in E. subst k'. rewrite (in_existsb k ks' (I _ J)) in X. discriminate X.
Qed.
Lemma prs_last n ks ts : UncE n (KComma :: KDoubleArrow :: ks) ts -> except ks n -> PrsE n ks ts.
Proof.
  intros ((X & _) & F) EX. split; [exact X|]. intros toks L f acc p l N H LF. destruct f as [|f]; [lia|]. cbn [array_pairs]. px1 L.
  eapply wpx_mono; [exact (F toks L p l N H)| |].
  - intros a q (A1 & A2 & A4). assert (C1 : hd_ok (fun t => negb (tok_in [KComma; KDoubleArrow] t)) l) by (eapply not_sub; [|exact A4]; intros k [<-|[<-|[]]]; cbn; auto).
    assert (C2 : hd_ok (fun t => negb (tok_in ks t)) l) by (eapply not_sub; [|exact A4]; intros k I; cbn; auto). kx1 L. cbv beta.
    eapply (wpx_look_cls toks L); [exact A1|exact C1|reflexivity|]. px1 L. cbv zeta. eapply (wpx_look_cls toks L); [exact A1|exact C1|reflexivity|]. px1 L. auto.
  - intros e q (A1 & ->). px1 L. split; [exact A1|]. eapply except_hd; eauto.
Qed.
Lemma prs_value n ks tk k ts : Full tk k -> UncE n (KComma :: ks) ts -> PrsE n ks (tk ++ Kw KDoubleArrow :: ts).
Proof.
  intros W ((X & _) & F). split; [exact X|]. intros toks L f acc p l N H LF. destruct f as [|f]; [lia|]. cbn [array_pairs]. rewrite app_cons_assoc in H. px1 L.
  eapply wpx_use; [exact (W toks L p _ H eq_refl)|]. intros a q (A1 & A2 & _). kx L. eapply wpx_mono; [exact (F toks L _ l N HS)| |auto].
  intros b q' (B1 & B2 & B4). assert (C1 : hd_ok (fun t => negb (tok_in [KComma] t)) l) by (eapply not_sub; [|exact B4]; intros k' [<-|[]]; cbn; auto).
  assert (C2 : hd_ok (fun t => negb (tok_in ks t)) l) by (eapply not_sub; [|exact B4]; intros k' I; cbn; auto). px1 L. cbv zeta. eapply (wpx_look_cls toks L); [exact B1|exact C1|reflexivity|]. px1 L. auto.
Qed.
Lemma prs_more n ks ts kv tl : Pair ts kv -> PrsE n ks tl -> PrsE n ks (ts ++ Kw KComma :: tl).
Proof.
  intros A (X & F). split; [exact X|]. intros toks L f acc p l N H LF. destruct f as [|f]; [lia|]. cbn [array_pairs]. rewrite app_cons_assoc in H. rewrite app_length in LF. cbn [List.length] in LF.
  assert (Y : forall kv q, here toks q (Kw KComma :: tl ++ l) -> wpx (let acc := acc ++ [kv] in look toks KComma (fun _ => array_pairs toks (PE toks) f acc) (pret acc)) q
    (fun _ q => here toks q l /\ hd_ok (fun t => negb (tok_in ks t)) l) (stop true toks l)).
  { intros kv' q A1. cbv zeta. kx L. apply (F toks L f _ (S q) l N HS). lia. }
  px1 L. destruct kv as [[k|] v]; unfold Pair in A; cbn [fst snd] in A.
  - destruct A as (tk & tv & -> & F1 & F2). rewrite app_cons_assoc in H. eapply wpx_use; [exact (F1 toks L p _ H eq_refl)|].
    intros a q (A1 & A2 & _). kx L. eapply wpx_use; [exact (F2 toks L _ _ HS eq_refl)|]. intros b q' (B1 & B2 & _). px1 L. apply (Y (Some a, b)), B1.
  - eapply wpx_use; [exact (A toks L p _ H eq_refl)|]. intros a q (A1 & A2 & _). px1 L. cbv beta. assert (AC : hd_ok (fun t => negb (tok_in [KDoubleArrow] t)) (Kw KComma :: tl ++ l)) by reflexivity.
    eapply (wpx_look_cls toks L); [exact A1|exact AC|reflexivity|]. px1 L. apply (Y (None, a)), A1.
Qed.
Lemma prs_list n ks ts toks p l : PrsE n ks ts -> late2 toks -> ahead n l -> here toks p (ts ++ l) ->
  wpx (parse_array_pair_list toks (PE toks)) p (fun _ q => here toks q l /\ hd_ok (fun t => negb (tok_in ks t)) l) (stop true toks l).
Proof. intros (X & F) L N H. apply (F toks L (lf toks) [] p l N H). destruct H as [Z _]. rewrite app_length in Z. unfold lf. lia. Qed.
Lemma here_same toks p q l : here toks p l -> here toks q l -> p = q.
Proof. intros [A _] [B _]. lia. Qed.
Lemma array_stop n toks p t r l : late2 toks -> lacks_expression n -> ahead n l -> here toks p (t :: r) -> List.length l < List.length (t :: r) ->
  t = Kw KArray \/ t = Kw KSquareBracketOpen -> wpx (parse_dereferencable_scalar toks (PE toks)) p no (stop true toks l) ->
  forall prec, wpx (PE toks prec) p no (stop true toks l).
Proof.
  intros L X N H LL T D. assert (C := lacks_hd n l X N).
  assert (VT : var_head t = true /\ scalar_of t = None /\ (forall A (a b c : A), match t with Kw KDoubleQuote => a | Kw KHereDocStart => b | _ => c end = c)) by (destruct T as [-> | ->]; repeat split; reflexivity).
  destruct VT as (V1 & V2 & V3). destruct (var_plain t V1) as [P1 P2].
  assert (HT : hd_ok (fun t => match t with Kw KArray | Kw KSquareBracketOpen => true | _ => false end) (t :: r)) by (destruct T as [-> | ->]; reflexivity).
  eapply post_stop; [exact L|exact H|exact P2|]. eapply other_plain; [exact L|exact H|exact P1|]. unfold parse_variable_expression. px1 L.
  eapply (wpx_mono _ _ no _ (fun e q => q = p /\ here toks (err_pos e) l)); [|intros ? ? []|].
  - unfold parse_variable, variable_base. px1 L. px1 L. px1 L. px1 L. cbv beta. destruct (scoped_fail toks p _ L H) as [SF FF]; [weak1 HT|]. use_no SF. intros e q ->. px1 L. use_no FF. intros e' q ->. px1 L.
    unfold parse_base_variable. cbv zeta iota. eapply (wpx_look_cls toks L); [exact H|exact HT|reflexivity|]. px1 L.
    assert (SV : halts (parse_simple_variable_expr toks) p) by (apply (simple_halts toks L p _ H); weak1 HT). use_no SV. intros e0 q [-> E0]. cbv beta. px1 L. use_no D. intros e1 q (S1 & Q1).
    replace (deep_upd (deep_upd None e0) e1) with (Some (err_pos e1, e1)).
    + cbn [deepest_unpack]. px1 L. px1 L. px1 L. cbv beta. px1 L. auto.
    + cbn [deep_upd]. rewrite E0. destruct (Nat.ltb_spec p (err_pos e1)) as [_|W]; [reflexivity|]. destruct S1 as [S1 _], H as [H _]. cbn [List.length] in *. lia.
  - intros e q (-> & S1). cbv zeta. eapply (wpx_look_cls toks L); [exact H|exact HT|reflexivity|]. eapply (wpx_look_cls toks L); [exact H|exact HT|reflexivity|]. px1 L.
    assert (SC : wpx (parse_scalar toks (PE toks)) p no (stop true toks l)).
    { unfold parse_scalar. px1 L. eapply (wpx_peek toks L); [exact H|]. cbv beta iota. rewrite V2. rewrite V3. px1 L. use_no D. intros e1 q (S2 & ->).
      unfold parse_constant, parse_class_name, parse_name_as_expr. px1 L. eapply (wpx_look_cls toks L); [exact S2|exact C|reflexivity|]. px1 L. 
      assert (NH : halts (parse_name toks) (err_pos e1)) by (apply (name_halts toks L _ l S2); weak1 C). use_no NH. intros e2 q [-> E2]. split; [rewrite E2; exact S2|symmetry; exact E2]. }
    use_no SC. intros e1 q (S2 & ->). assert (EQ := here_same toks _ _ l S1 S2).
    eapply wpx_mono; [apply (unpack_halts _ (err_pos e1)); apply dat_upd; [apply dat_upd; [exact Logic.I|exact EQ]|reflexivity]|intros ? ? []|]. intros e2 q [-> E2]. split; [rewrite E2; exact S2|symmetry; exact E2].
Qed.
Lemma stop_array n ts : PrsE n [KSquareBracketClose] ts -> BadE n (Kw KSquareBracketOpen :: ts).
Proof.
  intros B. assert (X := proj1 B). split; [|split; [exact X|apply head_one; reflexivity]]. intros toks L prec p l N H. cbn [app] in H.
  eapply (array_stop n); [exact L|exact X|exact N|exact H|cbn; rewrite app_length; lia|auto|]. unfold parse_dereferencable_scalar. kx L.
  eapply wpx_mono; [exact (prs_list n _ ts toks _ l B L N HS)| |auto]. intros a q (A1 & A2). kx L. fin.
Qed.
Lemma stop_array_word n ts : PrsE n [KParenthesesClose] ts -> BadE n (Kw KArray :: Kw KParenthesesOpen :: ts).
Proof.
  intros B. assert (X := proj1 B). split; [|split; [exact X|apply head_one; reflexivity]]. intros toks L prec p l N H. cbn [app] in H.
  eapply (array_stop n); [exact L|exact X|exact N|exact H|cbn; rewrite app_length; lia|auto|]. unfold parse_dereferencable_scalar. kx L.
  eapply wpx_mono; [exact (prs_list n _ ts toks _ l B L N HS0)| |auto]. intros a q (A1 & A2). kx L. fin.
Qed.
(** ** Assignments *)
Lemma unf_no_amp n ts l : UnfE n ts -> except [KAmpersand] n -> ahead n l -> hd_ok (fun t => negb (tok_in [KAmpersand] t)) (ts ++ l).
Proof.
  intros (_ & _ & [->|(_ & t & r & -> & S)]) X N; [cbn [app]; eapply except_hd; eauto|]. destruct t as [k| | | | | | | |]; try reflexivity. destruct k; try reflexivity; discriminate S.
Qed.
Lemma assign_stop n toks a k o ts p l : late2 toks -> ahead n l -> here toks p (Kw k :: ts ++ l) -> UnfE n ts -> assign_of (Some (Kw k, span_new)) = Some o ->
  (o = OEq -> hd_ok (fun t => negb (tok_in [KAmpersand] t)) (ts ++ l)) -> wpx (parse_assign toks (PE toks) a) p no (stop true toks l).
Proof.
  intros L N H F A HA. unfold parse_assign. px L. replace (assign_of (Some (Kw k, sp_at toks p))) with (Some o) by (rewrite <- A; reflexivity). px L.
  assert (X : wpx (match o with OEq => look toks KAmpersand (fun _ => pret true) (pret false) | _ => pret false end) (S p) (fun b q => b = false /\ q = S p) nofail).
  { destruct o; try (px L; auto). specialize (HA eq_refl). px L. auto. }
  eapply wpx_use; [exact X|]. intros b q [-> ->]. px1 L. use_no (proj1 F toks L PrNone _ l N HS). auto.
Qed.
Lemma stop_assign_any n tv v ts (mid : list token) : Var tv v -> SH tv -> lacks_expression n ->
  (forall toks p l a, late2 toks -> ahead n l -> here toks p (mid ++ ts ++ l) -> wpx (parse_assign toks (PE toks) a) p no (stop true toks l)) ->
  (exists t r, mid = t :: r /\ behind_var t = true) -> BadE n (tv ++ mid ++ ts).
Proof.
  intros V S X K (t0 & r0 & EM & BV). destruct (proj1 V) as (t & r & E & VH). destruct (var_plain t VH) as [P1 P2].
  split; [|split; [exact X|apply expr_head_app; split; [exact S|apply var_start; eauto]]]. intros toks L prec p l N H. rewrite <- !app_assoc in H.
  assert (HT := H). rewrite E in HT. cbn [app] in HT. eapply post_stop; [exact L|exact HT|exact P2|]. eapply other_plain; [exact L|exact HT|exact P1|].
  unfold parse_variable_expression. px1 L. eapply wpx_use; [apply (var_whole tv v V toks L p _ H); rewrite EM; exact BV|]. intros a q (A1 & A2 & A3). apply K; assumption.
Qed.
Lemma stop_assign n tv v k o ts : Var tv v -> SH tv -> assign_of (Some (Kw k, span_new)) = Some o -> UnfE n ts -> (o = OEq -> except [KAmpersand] n) -> BadE n (tv ++ Kw k :: ts).
Proof.
  intros V S A F NA. apply (stop_assign_any n tv v ts [Kw k]); [exact V|exact S|apply F| |exists (Kw k), []; split; [reflexivity|destruct k; try discriminate A; reflexivity]].
  intros toks p l a L N H. apply (assign_stop n toks a k o ts p l); auto. intros O. eapply unf_no_amp; eauto.
Qed.
Lemma stop_reference n tv v ts : Var tv v -> SH tv -> UnfE n ts -> BadE n (tv ++ Kw KEqual :: Kw KAmpersand :: ts).
Proof.
  intros V S F. apply (stop_assign_any n tv v ts [Kw KEqual; Kw KAmpersand]); [exact V|exact S|apply F| |eexists; eexists; split; reflexivity].
  intros toks p l a L N H. cbn [app] in H. unfold parse_assign. px L. cbn [assign_of]. px L. use_no (proj1 F toks L PrNone _ l N HS0). auto.
Qed.
(** ** Lists of variables *)
Lemma list_stop toks p r l : late2 toks -> here toks p (Kw KList :: r) ->
  (forall sp, wpx (expect toks KParenthesesOpen ;~ pairs <~ parse_array_pair_list toks (PE toks) ;; sp2 <~ expect toks KParenthesesClose ;; b <~ sees toks KEqual ;;
      if (b : bool) then parse_assign toks (PE toks) (Ex (EList pairs) (mk_span (sp_start sp) (sp_end sp2))) else perr [Kw KEqual]) (S p) no (stop true toks l)) ->
  forall prec, wpx (PE toks prec) p no (stop true toks l).
Proof.
  intros L H K. eapply post_stop; [exact L|exact H|reflexivity|]. eapply other_plain; [exact L|exact H|reflexivity|]. unfold parse_variable_expression. px1 L.
  eapply wpx_mono; [apply (var_fail toks p _ L H); reflexivity|intros ? ? []|]. intros x q ->. cbv zeta. kx1 L. apply K.
Qed.
Lemma stop_list n ts : PrsE n [KParenthesesClose] ts -> BadE n (Kw KList :: Kw KParenthesesOpen :: ts).
Proof.
  intros B. assert (X := proj1 B). split; [|split; [exact X|apply head_one; reflexivity]]. intros toks L prec p l N H. cbn [app] in H. eapply list_stop; [exact L|exact H|]. intros sp. kx L.
  eapply wpx_mono; [exact (prs_list n _ ts toks _ l B L N HS0)| |auto]. intros a q (A1 & A2). kx L. fin.
Qed.
Lemma stop_list_equal n tp ps : PairsR tp ps -> lacks_expression n -> except [KEqual] n -> BadE n (Kw KList :: paren tp).
Proof.
  intros F X Y. split; [|split; [exact X|apply head_one; reflexivity]]. intros toks L prec p l N H. unfold paren in H. apps H. eapply list_stop; [exact L|exact H|]. intros sp. kx L.
  eapply wpx_use; [apply (F toks L _ _ HS0); reflexivity|]. intros r q (A1 & A2 & A3). assert (C := except_hd _ n l Y N). kx L. fin.
Qed.
Lemma stop_list_assign n tp ps ts : PairsR tp ps -> UnfE n ts -> except [KAmpersand] n -> BadE n (Kw KList :: paren tp ++ Kw KEqual :: ts).
Proof.
  intros F U Y. split; [|split; [apply U|apply head_one; reflexivity]]. intros toks L prec p l N H. unfold paren in H. apps H. eapply list_stop; [exact L|exact H|]. intros sp. kx L.
  eapply wpx_use; [apply (F toks L _ _ HS0); reflexivity|]. intros r q (A1 & A2 & A3). kx L. eapply (assign_stop n); eauto; [reflexivity|]. intros _. eapply unf_no_amp; eauto.
Qed.
Lemma class_ref_stops n toks p l : lacks_expression n -> late2 toks -> ahead n l -> here toks p l -> wpx (parse_class_name_reference toks (PE toks)) p no (stop true toks l).
Proof.
  intros X L N H. assert (C := lacks_hd n l X N).
  unfold parse_class_name_reference, parse_class_name, parse_name_as_expr. kx L. assert (NN : hd_ok no_name l) by weak1 C. halt (name_halts toks L _ l H NN).
  unfold parse_variable, variable_base. px1 L. px1 L. px1 L. px1 L. cbv beta. unfold parse_const_scoped, parse_class_name, parse_name_as_expr. kx L. halt (name_halts toks L _ l H NN). kx L.
  unfold parse_fn_call_base_item. kx L. unfold parse_base_variable. kx L. assert (SV : hd_ok (fun t => match t with Kw KDollar | TVariable _ => false | _ => true end) l) by weak1 C.
  halt (simple_halts toks L _ l H SV). kx L. fin.
Qed.
Lemma stop_new_none n : lacks_expression n -> BadE n [Kw KNew].
Proof.
  intros X. split; [|split; [exact X|apply head_one; reflexivity]]. intros toks L prec p l N H. cbn [app] in H. eapply post_stop; [exact L|exact H|reflexivity|].
  unfold parse_other_expression. kx L. use_no (class_ref_stops n toks _ l X L N HS). auto.
Qed.

(** ** Strings with code in them *)
Lemma scalar_stop n toks p t r l : late2 toks -> lacks_expression n -> ahead n l -> here toks p (t :: r) -> List.length l < List.length (t :: r) ->
  t = Kw KDoubleQuote \/ t = Kw KHereDocStart -> wpx (parse_scalar toks (PE toks)) p no (stop true toks l) -> forall prec, wpx (PE toks prec) p no (stop true toks l).
Proof.
  intros L X N H LL T D. assert (C := lacks_hd n l X N).
  assert (HT : hd_ok (fun t => match t with Kw KDoubleQuote | Kw KHereDocStart => true | _ => false end) (t :: r)) by (destruct T as [-> | ->]; reflexivity).
  eapply post_stop; [exact L|exact H|destruct T as [-> | ->]; reflexivity|]. eapply other_plain; [exact L|exact H|destruct T as [-> | ->]; reflexivity|]. unfold parse_variable_expression. px1 L.
  eapply wpx_mono; [apply (var_halts toks L p _ H); weak1 HT|intros ? ? []|].
  intros e q (-> & S1). cbv zeta. eapply (wpx_look_cls toks L); [exact H|exact HT|reflexivity|]. eapply (wpx_look_cls toks L); [exact H|exact HT|reflexivity|]. px1 L.
  use_no D. intros e1 q (S2 & ->).
  replace (deep_upd (deep_upd None e) e1) with (Some (err_pos e1, e1)).
  - cbn [deepest_unpack]. px1 L. split; [exact S2|reflexivity].
  - cbn [deep_upd]. rewrite S1. destruct (Nat.ltb_spec p (err_pos e1)) as [_|W]; [reflexivity|]. destruct S2 as [S2 _], H as [H _]. cbn [List.length] in *. lia.
Qed.
(** code in braces inside of a string that lacks something *)
Definition PtsE (n : option token) (ts : list token) : Prop := lacks_expression n /\
  (exists t r, ts = t :: r /\ behind_var t = true /\ tok_in [KDoubleQuote] t = false) /\
  forall toks, late2 toks -> forall f st p l, ahead n l -> here toks p (ts ++ l) -> ready st -> List.length ts < f ->
  wpx (encaps_loop toks (PE toks) f st) p no (stop true toks l).
Lemma pts_end n ts l : PtsE n ts -> var_end (ts ++ l).
Proof. intros (_ & (t & r & -> & B & _) & _). exact B. Qed.
Lemma pts_code n ts : UncE n [KCurlyBracesClose] ts -> PtsE n (Kw KCurlyBracesOpen :: ts).
Proof.
  intros ((X & _) & F). split; [exact X|]. split; [eexists; eexists; repeat split|]. intros toks L f st p l N H R B. destruct f as [|f]; [inversion B|]. cbn [encaps_loop].
  cbn [app] in H. kx L. eapply wpx_use; [apply flush_run; exact R|]. intros parts q' (-> & C). cbv beta. kx L.
  eapply wpx_mono; [exact (F toks L _ l N HS)| |auto]. intros a q (A1 & A2 & A4). kx L. fin.
Qed.
Lemma pts_text n s ts : PtsE n ts -> PtsE n (TCes s :: ts).
Proof.
  intros (X & _ & F). split; [exact X|]. split; [eexists; eexists; repeat split|]. intros toks L f st p l N H R B. destruct f as [|f]; [inversion B|]. cbn [encaps_loop].
  cbn [app] in H. kx L. apply (F toks L f _ _ l N HS); [|cbn in B; lia]. right. cbn. destruct (ec_start st); eauto.
Qed.
Lemma pts_var n v tv e ts : Var (TVariable v :: tv) e -> PtsE n ts -> PtsE n (TVariable v :: tv ++ ts).
Proof.
  intros V P. pose proof P as (X & _ & F). split; [exact X|]. split; [eexists; eexists; repeat split|]. intros toks L f st p l N H R B. destruct f as [|f]; [inversion B|]. cbn [encaps_loop].
  cbn [app] in H. rewrite <- app_assoc in H. kx L.
  eapply wpx_use; [apply (var_whole _ e V toks L p _ H (pts_end n ts l P))|]. intros a q (B1 & B2 & B3 & B4). px1 L.
  eapply wpx_use; [apply flush_run; exact R|]. intros parts q' (-> & C). cbv beta.
  apply (F toks L f _ _ l N B1); [left; reflexivity|cbn in B; rewrite app_length in B; lia].
Qed.
Lemma pts_more n tc c ts : Full tc c -> PtsE n ts -> PtsE n (braces tc ++ ts).
Proof.
  intros W P. pose proof P as (X & _ & F). split; [exact X|]. split; [eexists; eexists; repeat split|]. intros toks L f st p l N H R B. destruct f as [|f]; [inversion B|]. cbn [encaps_loop].
  unfold braces in *. cbn [app] in H. rewrite <- !app_assoc in H. cbn [app] in H. kx L.
  eapply wpx_use; [apply flush_run; exact R|]. intros parts q' (-> & C). cbv beta. kx L.
  eapply wpx_use; [apply (W toks L _ _ HS); reflexivity|]. intros a q (B1 & B2 & B3 & B4). kx L.
  apply (F toks L f _ _ l N HS0); [left; reflexivity|cbn in B; rewrite !app_length in B; cbn in B; lia].
Qed.
Lemma pts_dollar_code n ts : UncE n [KCurlyBracesClose] ts -> no_word ts = true -> PtsE n (Kw KDollarCurlyBracesOpen :: ts).
Proof.
  intros ((X & _) & F) W. split; [exact X|]. split; [eexists; eexists; repeat split|]. intros toks L f st p l N H R B. destruct f as [|f]; [inversion B|]. cbn [encaps_loop].
  cbn [app] in H. kx L. eapply wpx_use; [apply flush_run; exact R|]. intros parts q' (-> & C). cbv beta. unfold parse_identifier. apply wpx_bind.
  apply wpx_mono with (Q := no) (E := stop true toks l); [|intros ? ? []|auto].
  destruct ts as [|t ts']; [discriminate W|]. cbn [app] in HS.
  destruct t as [kk| | | | | | | |]; try discriminate W; [destruct kk; try discriminate W|..]; (px L; cbn [is_reserved_non_modifier]; px L; eapply wpx_mono; [exact (F toks L _ l N HS)| |auto]; intros a q (A1 & A2 & A4); kx L; fin).
Qed.
Lemma pts_dollar n x ts : PtsE n ts -> PtsE n (Kw KDollarCurlyBracesOpen :: TString x :: Kw KCurlyBracesClose :: ts).
Proof.
  intros P. pose proof P as (X & _ & F). split; [exact X|]. split; [eexists; eexists; repeat split|]. intros toks L f st p l N H R B. destruct f as [|f]; [inversion B|]. cbn [encaps_loop].
  cbn [app] in H. kx L. eapply wpx_use; [apply flush_run; exact R|]. intros parts q' (-> & C). cbv beta. unfold parse_identifier, parse_variable. px L.
  eapply (appendix_end toks _ _ _ _ _ _ L HS0); [reflexivity|pose proof (lf_gt toks _ _ HS0); lia|]. px L.
  apply (F toks L f _ _ l N HS1); [left; reflexivity|cbn in B; lia].
Qed.
Lemma pts_dollar_index n x ti i ts : Full ti i -> PtsE n ts ->
  PtsE n (Kw KDollarCurlyBracesOpen :: TString x :: Kw KSquareBracketOpen :: ti ++ Kw KSquareBracketClose :: Kw KCurlyBracesClose :: ts).
Proof.
  intros W P. pose proof P as (X & _ & F). split; [exact X|]. split; [eexists; eexists; repeat split|]. intros toks L f st p l N H R B. destruct f as [|f]; [inversion B|]. cbn [encaps_loop].
  cbn [app] in H. rewrite <- !app_assoc in H. cbn [app] in H. kx L. eapply wpx_use; [apply flush_run; exact R|]. intros parts q' (-> & C). cbv beta. unfold parse_identifier, parse_variable. px L.
  pose proof (lf_gt toks _ _ HS0) as G. destruct (lf toks) as [|m]; [lia|]. cbn [appendixes]. px L. unfold parse_opt_expression. px1 L.
  eapply wpx_use; [exact (W toks L _ _ HS1 eq_refl)|]. intros i' q' (B1 & B2 & B3 & B4). px L.
  eapply (appendix_end toks _ _ _ _ _ _ L HS2); [reflexivity|len_|]. px L.
  apply (F toks L f _ _ l N HS3); [left; reflexivity|cbn in B; rewrite !app_length in B; cbn in B; lia].
Qed.
Lemma pts_dollar_more n tc c ts : Full tc c -> no_word tc = true -> PtsE n ts -> PtsE n (Kw KDollarCurlyBracesOpen :: tc ++ Kw KCurlyBracesClose :: ts).
Proof.
  intros W Y P. pose proof P as (X & _ & F). split; [exact X|]. split; [eexists; eexists; repeat split|]. intros toks L f st p l N H R B. destruct f as [|f]; [inversion B|]. cbn [encaps_loop].
  cbn [app] in H. rewrite <- !app_assoc in H. cbn [app] in H. kx L.
  eapply wpx_use; [apply flush_run; exact R|]. intros parts q' (-> & C). cbv beta. unfold parse_identifier.
  apply wpx_bind. eapply wpx_use with (Q := fun a q => here toks q (ts ++ l)).
  { destruct tc as [|t tc']; [discriminate Y|]. cbn [app] in HS.
    destruct t as [kk| | | | | | | |]; try discriminate Y; [destruct kk; try discriminate Y|..];
    (px L; cbn [is_reserved_non_modifier]; px L; eapply wpx_use; [apply (W toks L _ _ HS); reflexivity|]; intros a q (B1 & B2 & B3 & B4); px L; first [exact HS2 | exact HS1 | exact HS0]). }
  intros a q B1. cbv beta. apply (F toks L f _ _ l N B1); [left; reflexivity|cbn in B; rewrite !app_length in B; cbn in B; lia].
Qed.
Lemma stop_text n k ts : In k [KDoubleQuote; KHereDocStart] -> PtsE n ts -> BadE n (Kw k :: ts).
Proof.
  intros K (X & (t & r & -> & T1 & T2) & F). split; [|split; [exact X|apply head_one; destruct K as [<-|[<-|[]]]; reflexivity]]. intros toks L prec p l N H. cbn [app] in H.
  eapply scalar_stop; [exact L|exact X|exact N|exact H|cbn; rewrite app_length; lia|destruct K as [<-|[<-|[]]]; auto|].
  assert (ND : hd_ok (fun t => negb (tok_in [KDoubleQuote] t)) (t :: r ++ l)) by (unfold hd_ok; rewrite T2; reflexivity).
  assert (Z : forall q, here toks q (t :: r ++ l) -> wpx (parse_encaps_list toks (PE toks)) q no (stop true toks l)).
  { intros q HQ. unfold parse_encaps_list. px1 L. apply wpx_mono with (Q := no) (E := stop true toks l); [apply (F toks L _ _ q l N HQ); [left; reflexivity|pose proof (lf_gt toks q _ HQ) as G; cbn in G; rewrite app_length in G; cbn; lia]|intros ? ? []|auto]. }
  generalize dependent (t :: r ++ l). intros w H ND Z.
  unfold parse_scalar. destruct K as [<-|[<-|[]]]; (kx L; cbn [scalar_of]; kx L; use_no (Z _ HS); auto).
Qed.
Lemma stop_heredoc : BadE (Some (Kw KHereDocEnd)) [Kw KHereDocStart].
Proof.
  split; [|split; [cbn; tauto|apply head_one; reflexivity]]. intros toks L prec p l N H. cbn [app] in H.
  eapply scalar_stop; [exact L|instantiate (1 := Some (Kw KHereDocEnd)); cbn; tauto|exact N|exact H|cbn; lia|auto|].
  unfold parse_scalar. kx L. cbn [scalar_of]. kx L. unfold parse_encaps_list, lf. cbn [encaps_loop].
  assert (HE : hd_ok (fun t => match t with Kw KHereDocEnd => true | _ => false end) l) by (destruct l as [|? ?]; cbn in N; [discriminate|injection N as ->; reflexivity]).
  kx L. use_no (var_halts toks L _ l HS ltac:(weak1 HE)). intros e q (-> & _). kx L. cbn [ec_str ec_parts]. kx L. fin.
Qed.

(** ** Operators whose right operand is missing *)
(** what stands behind an operator: an expression is read up to what follows, or the
    parser stops there *)
Definition Part (n : option token) (y : nat) (ts : list token) (o : option expr) : Prop := forall toks, late2 toks -> forall p l, ahead n l -> here toks p (ts ++ l) ->
  wpx (PE toks y) p (fun b q => here toks q l /\ p < q /\ match o with Some e => same b e | None => False end) (fun e q => o = None /\ stop true toks l e q).
Lemma part_unf n y ts : UnfE n ts -> Part n y ts None.
Proof. intros U toks L p l N H. use_no (proj1 U toks L y p l N H). auto. Qed.
Lemma part_dng n y m ts e : y < m -> DngE n m ts e -> Part n y ts (Some e).
Proof. intros Y (_ & D) toks L p l N H. eapply wpx_use; [exact (D toks L y p l Y N H)|]. auto. Qed.
Lemma here_lt toks p q ts l : here toks p (ts ++ l) -> here toks q l -> ts <> [] -> p < q.
Proof. intros [A _] [B _] NE. rewrite app_length in A. destruct ts; [contradiction|]. cbn in A. lia. Qed.
Lemma dng_weak n m m' ts e : m' <= m -> DngE n m ts e -> DngE n m' ts e.
Proof. intros LE (A & D). split; [exact A|]. intros toks L prec p l M. apply D; [exact L|lia]. Qed.
Lemma okq_le toks e p p' l a q : p <= p' -> okq toks e p' l a q -> okq toks e p l a q.
Proof. intros LE (A & B & C). apply okq_i; auto. lia. Qed.
Lemma dng_bin n ma fa x o k r ta a ts v : precedence k = Some x -> binop_of k = Some o -> assoc_right k = Some r -> 1 <= x ->
  x <= ma -> x <= fa -> Chain ma fa ta a -> expr_head ta -> among enders n -> Part n (right_bound r x) ts v ->
  DngE n x (ta ++ Kw k :: ts) (match v with Some b => Ex (EBinary o a b) span_new | None => a end).
Proof.
  intros P B A X1 X2 X3 CA EH EN PT. split; [split; [exact EN|apply expr_head_app, EH]|]. intros toks L prec p l PR N H.
  assert (C := enders_closing n l EN N). assert (NE : ta ++ Kw k :: ts <> []) by (destruct ta; discriminate). assert (LT := fun q => here_lt toks p q _ l H). rewrite <- app_assoc in H. cbn [app] in H.
  apply (CA toks L p (Kw k :: ts ++ l) prec); [lia|exact H|eapply prec_oplike; eauto|cbn; rewrite P; lia|].
  intros a' q m A1 A2 A3 A4. destruct m as [|m]; [lia|]. cbn [binary_loop]. apply wpx_catch. unfold parse_binary_expression. px1 L.
  eapply (wpx_peek toks L); [exact A1|]. cbv beta iota. rewrite P. destruct (Nat.leb_spec x prec); [lia|]. destruct (binop_kind _ _ B) as [B1 B2].
  rewrite (binary_match k _ _ _ B1 B2). rewrite B, A. px L.
  assert (S1 : wpx (match r with true => psub x 1 | false => pret x end) (S q) (fun y q' => y = right_bound r x /\ q' = S q) nofail).
  { destruct r; px L; auto. }
  eapply wpx_use; [exact S1|]. intros y q' [-> ->]. px1 L.
  eapply wpx_mono; [apply (PT toks L (S q) l N); auto| |].
  - intros b' q2 (B3 & B4 & B5). destruct v as [b|]; [|contradiction]. px L. apply loop_stop with l; auto using closing_oplike, closing_prec.
    + destruct B3 as [B3 _], HS as [HS _]. rewrite app_length in HS. cbn [List.length] in A4. rewrite app_length in A4. lia.
    + apply okq_i; auto. apply same_bin; auto.
  - intros e q2 (-> & B3 & ->). px1 L. apply okq_i; auto.
Qed.
(** at the outermost level nothing more is read behind the missing operand *)
Lemma unc_bin n ks ma fa x o k r ta a ts : precedence k = Some x -> binop_of k = Some o -> assoc_right k = Some r -> 1 <= x ->
  x <= ma -> x <= fa -> Chain ma fa ta a -> expr_head ta -> UnfE n ts -> except ks n -> UncE n ks (ta ++ Kw k :: ts).
Proof.
  intros P B A X1 X2 X3 CA EH U EX. assert (LE := proj1 (proj2 U)). assert (PT := part_unf n (right_bound r x) ts U). split; [split; [exact LE|right; apply expr_head_app, EH]|]. intros toks L p l N H.
  assert (C := except_hd _ n l EX N). assert (NE : ta ++ Kw k :: ts <> []) by (destruct ta; discriminate). assert (LT := fun q => here_lt toks p q _ l H). rewrite <- app_assoc in H. cbn [app] in H.
  apply (wpx_mono _ _ (ended ks toks p l) _ nofail); [|auto|intros ? ? []]. apply (CA toks L p (Kw k :: ts ++ l) 0); [lia|exact H|eapply prec_oplike; eauto|cbn; rewrite P; lia|].
  intros a' q m A1 A2 A3 A4. destruct m as [|m]; [lia|]. cbn [binary_loop]. apply wpx_catch. unfold parse_binary_expression. px1 L.
  eapply (wpx_peek toks L); [exact A1|]. cbv beta iota. rewrite P. destruct (Nat.leb_spec x 0); [lia|]. destruct (binop_kind _ _ B) as [B1 B2].
  rewrite (binary_match k _ _ _ B1 B2). rewrite B, A. px L.
  assert (S1 : wpx (match r with true => psub x 1 | false => pret x end) (S q) (fun y q' => y = right_bound r x /\ q' = S q) nofail).
  { destruct r; px L; auto. }
  eapply wpx_use; [exact S1|]. intros y q' [-> ->]. px1 L.
  eapply wpx_mono; [apply (PT toks L (S q) l N); auto| |].
  - intros b' q2 (B3 & B4 & []).
  - intros e q2 (_ & B3 & ->). px1 L. split; [exact B3|]. split; [auto|exact C].
Qed.
Lemma inst_stops n ma fa ta a prec toks p l (R : expr -> nat -> Prop) : 16 <= ma -> 16 <= fa -> Chain ma fa ta a -> (forall x y, enode a <> EInstanceOf x y) -> lacks_expression n -> prec < 16 ->
  late2 toks -> ahead n l -> here toks p (ta ++ Kw KInstanceOf :: l) -> (forall a' q, here toks q l -> p < q -> same a' a -> R a' q) -> wpx (PE toks prec) p R nofail.
Proof.
  intros M F CA NI X PR L N H K. apply (CA toks L p (Kw KInstanceOf :: l) prec); [lia|exact H|reflexivity|cbn; lia|].
  intros a' q m A1 A2 A3 A4. destruct m as [|m]; [lia|]. cbn [binary_loop]. apply wpx_catch. unfold parse_binary_expression. px1 L.
  eapply (wpx_peek toks L); [exact A1|]. cbv beta iota. cbn [precedence]. destruct (Nat.leb_spec 16 prec); [lia|]. px L.
  assert (NI' : forall x y, enode a' <> EInstanceOf x y).
  { intros x y E. destruct A3 as [A3 _]. destruct a' as [n' sp'], a as [n0 sp0]. cbn in E. subst n'. unfold strip_expr in A3. cbn in A3. injection A3 as A3. destruct n0; try discriminate A3. eapply NI. reflexivity. }
  assert (Z : wpx (right <~ parse_class_name_reference toks (PE toks);; pret (Some (Ex (EInstanceOf a' right) (mk_span (estart a') (eend right))))) (S q)
    (fun o q2 => False) (stop true toks l)).
  { px1 L. use_no (class_ref_stops n toks _ l X L N HS). auto. }
  assert (Y : forall a0, a0 = a' -> wpx (match a0 with Ex (EInstanceOf _ _) _ => ppanic PUnreachable | _ => right <~ parse_class_name_reference toks (PE toks);; pret (Some (Ex (EInstanceOf a' right) (mk_span (estart a') (eend right)))) end) (S q) (fun o q2 => False) (stop true toks l)).
  { intros a0 ->. destruct a' as [n' sp']. destruct n'; try exact Z. exfalso; eapply NI'; reflexivity. }
  eapply wpx_mono; [exact (Y a' eq_refl)|intros ? ? []|]. intros e q2 (B3 & ->). px1 L. apply K; auto. eapply (here_lt toks p _ (ta ++ [Kw KInstanceOf]) l); [rewrite <- app_assoc; exact H|exact B3|destruct ta; discriminate].
Qed.
Lemma dng_inst n ma fa ta a : 16 <= ma -> 16 <= fa -> Chain ma fa ta a -> expr_head ta -> (forall x y, enode a <> EInstanceOf x y) -> among enders n -> DngE n 16 (ta ++ [Kw KInstanceOf]) a.
Proof.
  intros M F CA EH NI EN. split; [split; [exact EN|apply expr_head_app, EH]|]. intros toks L prec p l PR N H. rewrite <- app_assoc in H. cbn [app] in H.
  apply (inst_stops n ma fa ta a prec toks p l); auto using enders_lack. intros a' q A1 A2 A3. apply okq_i; auto.
Qed.
Lemma unc_inst n ks ma fa ta a : 16 <= ma -> 16 <= fa -> Chain ma fa ta a -> expr_head ta -> (forall x y, enode a <> EInstanceOf x y) -> lacks_expression n -> except ks n -> UncE n ks (ta ++ [Kw KInstanceOf]).
Proof.
  intros M F CA EH NI LE EX. split; [split; [exact LE|right; apply expr_head_app, EH]|]. intros toks L p l N H. assert (C := except_hd _ n l EX N). rewrite <- app_assoc in H. cbn [app] in H.
  apply (wpx_mono _ _ (ended ks toks p l) _ nofail); [|auto|intros ? ? []]. apply (inst_stops n ma fa ta a 0 toks p l); auto; [lia|]. intros a' q A1 A2 A3. split; [exact A1|]. split; [auto|exact C].
Qed.
Lemma dng_then n mc fc tc c tt th : 4 <= mc -> 4 <= fc -> Chain mc fc tc c -> expr_head tc -> Mid tt th -> ends_without n [KColon] -> DngE n 4 (tc ++ Kw KQuestionMark :: tt) c.
Proof.
  intros M1 F1 CC EH CT EW. assert (EN : among enders n) by apply EW. split; [split; [exact EN|apply expr_head_app, EH]|]. intros toks L prec p l PR N H.
  destruct (ends_hd n _ l EW N) as [C C2]. assert (NE : tc ++ Kw KQuestionMark :: tt <> []) by (destruct tc; discriminate). assert (LT := fun q => here_lt toks p q _ l H). rewrite <- app_assoc in H. cbn [app] in H.
  apply (CC toks L p _ prec ltac:(lia) H eq_refl); [cbn; lia|].
  intros a' q m A1 A2 A3 A4. destruct m as [|m]; [lia|]. cbn [binary_loop]. apply wpx_catch. unfold parse_binary_expression. px L.
  cbn [precedence]. destruct (Nat.leb_spec 4 prec); [lia|]. px L.
  assert (MR : wpx (parse_opt_expression (PE toks) 4) (S q) (fun _ q2 => here toks q2 l) nofail).
  { unfold parse_opt_expression. px1 L. destruct th as [t|]; unfold Mid in CT.
    - eapply wpx_use; [apply (CT toks L 4 _ _ ltac:(lia) HS C)|]. intros b q2 (B1 & _). px1 L. exact B1.
    - subst tt. cbn [app] in HS. eapply wpx_mono; [apply (pe_fail toks 4 _ _ L HS); apply (tok_weak enders); [reflexivity|eapply among_hd; eauto]|intros ? ? []|]. intros e' q' ->. px1 L. exact HS. }
  eapply wpx_use; [exact MR|]. intros o q2 B1. cbv beta in B1. kx L. apply okq_i; auto.
Qed.
Lemma dng_else n mc fc tc c tt th ts v : 4 <= mc -> 4 <= fc -> Chain mc fc tc c -> expr_head tc -> Mid tt th -> among enders n -> Part n 4 ts v ->
  DngE n 4 (tc ++ Kw KQuestionMark :: tt ++ Kw KColon :: ts) (match v with Some e => Ex (ETernary c th e) span_new | None => c end).
Proof.
  intros M1 F1 CC EH CT EN PT. split; [split; [exact EN|apply expr_head_app, EH]|]. intros toks L prec p l PR N H.
  assert (C := enders_closing n l EN N). assert (NE : tc ++ Kw KQuestionMark :: tt ++ Kw KColon :: ts <> []) by (destruct tc; discriminate). assert (LT := fun q => here_lt toks p q _ l H).
  rewrite app_cons_assoc in H. rewrite <- app_assoc in H. cbn [app] in H. apply (CC toks L p _ prec ltac:(lia) H eq_refl); [cbn; lia|].
  intros a' q m A1 A2 A3 A4. destruct m as [|m]; [lia|]. cbn [binary_loop]. apply wpx_catch. unfold parse_binary_expression. px L.
  cbn [precedence]. destruct (Nat.leb_spec 4 prec); [lia|]. px L.
  eapply wpx_use; [exact (mid_run tt th toks _ _ CT L HS)|]. intros o q2 (B1 & B2 & B3). kx L.
  eapply wpx_mono; [apply (PT toks L _ l N HS0)| |].
  - intros e' q3 (D1 & D2 & D3). destruct v as [e|]; [|contradiction]. kx L. apply loop_stop with l; auto using closing_oplike, closing_prec.
    + destruct D1 as [D1 _], HS as [HS _]. rewrite app_length in HS. cbn [List.length] in A4, HS. rewrite !app_length in *. cbn [List.length] in *. rewrite app_length in *. lia.
    + apply okq_i; auto. destruct A3 as [A3 A5], D3 as [D3 D4]. split; [|exact A5]. unfold strip_expr in *. cbn. unfold option_map in *. congruence.
  - intros e q3 (-> & B4 & ->). px1 L. apply okq_i; auto.
Qed.
Lemma unc_else n ks mc fc tc c tt th ts : 4 <= mc -> 4 <= fc -> Chain mc fc tc c -> expr_head tc -> Mid tt th -> UnfE n ts -> except ks n ->
  UncE n ks (tc ++ Kw KQuestionMark :: tt ++ Kw KColon :: ts).
Proof.
  intros M1 F1 CC EH CT U EX. assert (LE := proj1 (proj2 U)). assert (PT := part_unf n 4 ts U). split; [split; [exact LE|right; apply expr_head_app, EH]|]. intros toks L p l N H.
  assert (C := except_hd _ n l EX N). assert (NE : tc ++ Kw KQuestionMark :: tt ++ Kw KColon :: ts <> []) by (destruct tc; discriminate). assert (LT := fun q => here_lt toks p q _ l H).
  rewrite app_cons_assoc in H. rewrite <- app_assoc in H. cbn [app] in H. apply (wpx_mono _ _ (ended ks toks p l) _ nofail); [|auto|intros ? ? []]. apply (CC toks L p _ 0 ltac:(lia) H eq_refl); [cbn; lia|].
  intros a' q m A1 A2 A3 A4. destruct m as [|m]; [lia|]. cbn [binary_loop]. apply wpx_catch. unfold parse_binary_expression. px L.
  cbn [precedence]. destruct (Nat.leb_spec 4 0); [lia|]. px L.
  eapply wpx_use; [exact (mid_run tt th toks _ _ CT L HS)|]. intros o q2 (B1 & B2 & B3). kx L.
  eapply wpx_mono; [apply (PT toks L _ l N HS0)| |].
  - intros e' q3 (D1 & D2 & []).
  - intros e q3 (_ & B4 & ->). px1 L. split; [exact B4|]. split; [auto|exact C].
Qed.
Lemma dng_head n m ts e : among enders n -> expr_head ts ->
  (forall toks, late2 toks -> forall p l, ahead n l -> closing l -> here toks p (ts ++ l) -> wpx (head_expr toks) p (fun a q => here toks q l /\ same a e) nofail) -> DngE n m ts e.
Proof.
  intros EN EH K. split; [auto|]. intros toks L prec p l _ N H. assert (C := enders_closing n l EN N). assert (NE : ts <> []) by (destruct EH as (_ & t & r & -> & _); discriminate).
  assert (LT := fun q Z => here_lt toks p q _ l H Z NE). apply wpx_head. eapply wpx_use; [exact (K toks L p l N C H)|]. intros a q (A1 & A2).
  apply loop_stop with l; auto using closing_oplike, closing_prec. { unfold lf; lia. } apply okq_i; auto.
Qed.
Lemma dng_post n m ts e : among enders n -> expr_head ts -> (exists t r, ts = t :: r /\ unop_of t = None) ->
  (forall toks, late2 toks -> forall p l, ahead n l -> closing l -> here toks p (ts ++ l) -> wpx (parse_other_expression toks (PE toks) (PS toks)) p (fun a q => here toks q l /\ same a e) nofail) -> DngE n m ts e.
Proof.
  intros EN EH (t & r & E & U) K. apply dng_head; auto. intros toks L p l N C H. assert (HT := H). rewrite E in HT. cbn [app] in HT. eapply head_post; [exact L|exact HT|exact U|].
  unfold parse_postfix_expression. px1 L. eapply wpx_use; [exact (K toks L p l N C H)|]. intros a q (A1 & A2).
  pose proof (closing_oplike l C) as CO. unfold oplike in CO. px L. auto.
Qed.
Ltac stripped := split; [unfold strip_expr in *; cbn; congruence|try (cbn; lia)].
Lemma dng_unop n m k o ts e : unop_of (Kw k) = Some o -> DngE n 18 ts e -> DngE n m (Kw k :: ts) (Ex (EUnary o e) span_new).
Proof.
  intros U ((EN & EH) & D). apply dng_head; [exact EN|apply head_one; destruct k; try discriminate U; reflexivity|]. intros toks L p l N C H. cbn [app] in H.
  unfold head_expr. px1 L. eapply (wpx_peek toks L); [exact H|]. cbv beta iota. rewrite U. kx L. eapply wpx_use; [apply (D toks L PrUnary _ l); [unfold PrUnary; lia|exact N|exact HS]|]. intros a q (A1 & A2 & A3 & A4). px1 L.
  split; [exact A1|]. stripped.
Qed.
Lemma dng_cast n m k c ts e : cast_ty k = Some c -> DngE n 18 ts e -> DngE n m (Kw k :: ts) (Ex (ECast c e) span_new).
Proof.
  intros U ((EN & EH) & D). apply dng_post; [exact EN|apply head_one; destruct k; try discriminate U; reflexivity|eexists; eexists; split; [reflexivity|destruct k; try discriminate U; reflexivity]|].
  intros toks L p l N C H. cbn [app] in H. eapply internal_stop; [exact L|exact H|destruct k; try discriminate U; reflexivity|].
  unfold parse_internal. px1 L. eapply (wpx_peek toks L); [exact H|]. cbv beta iota. rewrite U. kx L.
  eapply wpx_use; [apply (D toks L PrUnary _ l); [unfold PrUnary; lia|exact N|exact HS]|]. intros a q (A1 & A2 & A3 & A4). px1 L. split; [exact A1|]. stripped.
Qed.
Lemma dng_include n m m' k c ts e : include_of k = Some c -> 0 < m' -> DngE n m' ts e -> DngE n m (Kw k :: ts) (Ex (EInclude c e) span_new).
Proof.
  intros U M ((EN & EH) & D). apply dng_post; [exact EN|apply head_one; destruct k; try discriminate U; reflexivity|eexists; eexists; split; [reflexivity|destruct k; try discriminate U; reflexivity]|].
  intros toks L p l N C H. cbn [app] in H. eapply internal_stop; [exact L|exact H|destruct k; try discriminate U; reflexivity|].
  unfold parse_internal. px1 L. eapply (wpx_peek toks L); [exact H|]. cbv beta iota. replace (cast_ty k) with (@None ty) by (destruct k; try discriminate U; reflexivity). rewrite U. kx L.
  eapply wpx_use; [apply (D toks L PrNone _ l); [unfold PrNone; lia|exact N|exact HS]|]. intros a q (A1 & A2 & A3 & A4). px L. split; [exact A1|]. stripped.
Qed.
Lemma dng_clone n m m' ts e : 0 < m' -> DngE n m' ts e -> DngE n m (Kw KClone :: ts) (Ex (EClone e) span_new).
Proof.
  intros M ((EN & EH) & D). apply dng_post; [exact EN|apply head_one; reflexivity|eexists; eexists; split; reflexivity|].
  intros toks L p l N C H. cbn [app] in H. unfold parse_other_expression. kx L.
  eapply wpx_use; [apply (D toks L PrNone _ l); [unfold PrNone; lia|exact N|exact HS]|]. intros a q (A1 & A2 & A3 & A4). px L. split; [exact A1|]. stripped. unfold estart. cbn. lia.
Qed.
Lemma dng_assign n m m' tv v k o ts e : Var tv v -> SH tv -> assign_of (Some (Kw k, span_new)) = Some o -> 0 < m' -> DngE n m' ts e ->
  DngE n m (tv ++ Kw k :: ts) (Ex (match o with OEq => EAssign v e | o => ECompound v o e end) span_new).
Proof.
  intros V S0 A M ((EN & EH) & D). destruct (proj1 V) as (t & r & E & VH). destruct (var_plain t VH) as [P1 P2].
  apply dng_post; [exact EN|apply expr_head_app; split; [exact S0|apply var_start; eauto]|exists t, (r ++ Kw k :: ts); rewrite E; auto|].
  intros toks L p l N C H. rewrite <- app_assoc in H. cbn [app] in H. assert (HT := H). rewrite E in HT. cbn [app] in HT. eapply other_plain; [exact L|exact HT|exact P1|].
  unfold parse_variable_expression. px1 L. eapply wpx_use; [apply (var_whole tv v V toks L p _ H); destruct k; try discriminate A; reflexivity|]. intros a q (A1 & A2 & A3 & A3').
  unfold parse_assign. px L. replace (assign_of (Some (Kw k, sp_at toks q))) with (Some o) by (rewrite <- A; reflexivity). px L.
  assert (HA : hd_ok (fun t => negb (tok_in [KAmpersand] t)) (ts ++ l)).
  { destruct EH as (_ & u & w & -> & S1). destruct u as [k'| | | | | | | |]; try reflexivity. destruct k'; try reflexivity; discriminate S1. }
  assert (X : wpx (match o with OEq => look toks KAmpersand (fun _ => pret true) (pret false) | _ => pret false end) (S q) (fun b q' => b = false /\ q' = S q) nofail).
  { destruct o; px L; auto. }
  eapply wpx_use; [exact X|]. intros b q' [-> ->]. px1 L. eapply wpx_use; [apply (D toks L PrNone _ l); [unfold PrNone; lia|exact N|exact HS]|]. intros e' q2 (A4 & A5 & A6 & A7). kx L.
  destruct o; px L; (split; [exact A4|]; split; [unfold strip_expr in *; cbn; congruence|exact A3']).
Qed.

(** an access whose last part lacks something: it ends before that part *)
Lemma dng_access n m tv v mid : Var tv v -> SH tv -> among enders n ->
  (forall toks, late2 toks -> forall f a q l, ahead n l -> closing l -> here toks q (mid ++ l) -> wpx (appendixes toks (PE toks) (S f) false a) q (fun b q => here toks q l /\ b = a) nofail) ->
  DngE n m (tv ++ mid) v.
Proof.
  intros V S0 EN K. destruct (proj1 V) as (t & r & E & VH). destruct (var_plain t VH) as [P1 P2].
  apply dng_post; [exact EN|apply expr_head_app; split; [exact S0|apply var_start; eauto]|exists t, (r ++ mid); rewrite E; auto|].
  intros toks L p l N C H. rewrite <- app_assoc in H. assert (HT := H). rewrite E in HT. cbn [app] in HT. eapply other_plain; [exact L|exact HT|exact P1|].
  unfold parse_variable_expression. px1 L. apply (proj2 V toks L p _ H). intros a q f A1 A2 A3 A4. destruct f as [|f]; [lia|].
  eapply wpx_use; [exact (K toks L f a q l N C A1)|]. intros b q' (B1 & ->). apply (assign_none toks a q' l); auto using closing_oplike.
Qed.
Lemma dng_index n m tv v ts : Var tv v -> SH tv -> UncE n [KSquareBracketClose] ts -> ends_without n [KSquareBracketClose] -> DngE n m (tv ++ Kw KSquareBracketOpen :: ts) v.
Proof.
  intros V S0 (_ & U) X. apply (dng_access n m tv v (Kw KSquareBracketOpen :: ts)); [exact V|exact S0|apply X|]. intros toks L f a q l N C H. cbn [app] in H. cbn [appendixes].
  assert (X2 := except_hd _ n l (proj2 X) N). unfold parse_opt_expression. kx L. eapply wpx_mono; [exact (U toks L _ l N HS)| |].
  - intros b q' (A1 & _). unfold closing in C. kx L. auto.
  - intros e q' (A1 & ->). unfold closing in C. kx L. auto.
Qed.
Lemma dng_property n m tv v : Var tv v -> SH tv -> ends_without n [KCurlyBracesOpen] -> DngE n m (tv ++ [Kw KObjectOp]) v.
Proof.
  intros V S0 X. apply (dng_access n m tv v [Kw KObjectOp]); [exact V|exact S0|apply X|]. intros toks L f a q l N C H. cbn [app] in H. cbn [appendixes]. unfold closing in C.
  assert (X2 := except_hd _ n l (proj2 X) N). kx L. unfold parse_property_name. kx L. assert (SV : halts (parse_simple_variable_expr toks) (S q)) by (apply (simple_halts toks L _ l HS); weak1 C). halt SV. kx L. auto.
Qed.
Lemma dng_property_in n m tv v ts : Var tv v -> SH tv -> UncE n [KCurlyBracesClose] ts -> ends_without n [KCurlyBracesClose] -> DngE n m (tv ++ Kw KObjectOp :: Kw KCurlyBracesOpen :: ts) v.
Proof.
  intros V S0 (_ & U) X. apply (dng_access n m tv v (Kw KObjectOp :: Kw KCurlyBracesOpen :: ts)); [exact V|exact S0|apply X|]. intros toks L f a q l N C H. cbn [app] in H. cbn [appendixes]. unfold closing in C.
  assert (X2 := except_hd _ n l (proj2 X) N). kx L. unfold parse_property_name. kx L. assert (SV : halts (parse_simple_variable_expr toks) (S q)) by (apply (simple_halts toks L _ _ HS); reflexivity). halt SV. kx L.
  eapply wpx_mono; [exact (U toks L _ l N HS0)| |].
  - intros b q' (A1 & _). kx L. auto.
  - intros e' q' (A1 & ->). kx L. auto.
Qed.
Lemma dng_static n m tv v : Var tv v -> SH tv -> among enders n -> DngE n m (tv ++ [Kw KScopeOp]) v.
Proof.
  intros V S0 X. apply (dng_access n m tv v [Kw KScopeOp]); [exact V|exact S0|apply X|]. intros toks L f a q l N C H. cbn [app] in H. cbn [appendixes]. unfold closing in C. kx L.
  assert (SV : halts (parse_simple_variable_expr toks) (S q)) by (apply (simple_halts toks L _ l HS); weak1 C). halt SV. kx L. auto.
Qed.

(** ** Optional expressions: the parser reads them up to what follows *)
Definition OptU (n : option token) (ks : list kind) (ts : list token) : Prop := forall toks, late2 toks -> forall p l, ahead n l -> here toks p (ts ++ l) ->
  wpx (parse_opt_expression (PE toks) 0) p (fun _ q => here toks q l /\ hd_ok (fun t => negb (tok_in ks t)) l) nofail.
Lemma opt_unc n ks ts : UncE n ks ts -> except ks n -> OptU n ks ts.
Proof.
  intros (_ & U) X toks L p l N H. unfold parse_opt_expression. px1 L. eapply wpx_mono; [exact (U toks L p l N H)| |].
  - intros a q (A1 & _ & A2). px1 L. auto.
  - intros e q (A1 & ->). px1 L. split; [exact A1|]. eapply except_hd; eauto.
Qed.

(** ** Expressions at the beginning of a statement *)
Definition upto (m : nat) (d : deep) : Prop := match d with Some (x, e) => x = err_pos e /\ x <= m | None => True end.
Lemma upto_upd m d e : upto m d -> err_pos e <= m -> upto m (deep_upd d e).
Proof. intros H K. destruct d as [[x e']|]; unfold deep_upd; [destruct (x <? err_pos e)|]; cbn; auto. Qed.
Lemma upto_weak m m' d : m <= m' -> upto m d -> upto m' d.
Proof. intros K. destruct d as [[x e]|]; cbn; [intros [A B]; split; [exact A|lia]|auto]. Qed.
Lemma upto_unpack {A} m d e toks l (Q : A -> nat -> Prop) : upto m d -> m <= err_pos e -> here toks (err_pos e) l -> wpx (deepest_unpack (deep_upd d e)) (err_pos e) Q (stop true toks l).
Proof.
  intros U M H. unfold deep_upd. destruct d as [[x e']|]; [destruct U as [-> U]; destruct (Nat.ltb_spec (err_pos e') (err_pos e)) as [Y|Y]|]; cbn [deepest_unpack]; (split; cbn; [|try reflexivity]); try exact H.
  - replace (err_pos e') with (err_pos e) by lia. exact H.
  - lia.
Qed.
Lemma fun_decl_late toks p t l sp : late2 toks -> here toks p (t :: l) -> (t = Kw KParenthesesOpen \/ exists l', t :: l = Kw KAmpersand :: Kw KParenthesesOpen :: l') ->
  wpx (parse_function_declaration toks (PE toks) (PS toks) sp false false) p no (fun e q => err_pos e < p + List.length (if tok_in [KAmpersand] t then [t; t] else [t])).
Proof.
  intros L H C. unfold parse_function_declaration, parse_is_ref. destruct C as [-> |(l' & E)].
  - kx L. unfold expect_string. kx L. cbn. lia.
  - injection E as -> ->. kx L. unfold expect_string. kx L. cbn. lia.
Qed.
Lemma static_late toks p t l sp : late2 toks -> here toks p (t :: l) -> match t with TVariable _ => False | _ => True end ->
  wpx (parse_static_var_decl toks (PE toks) sp) p no (fun e q => err_pos e = p).
Proof.
  intros L H C. unfold parse_static_var_decl, lf. cbn [static_vars]. px1 L. px1 L. unfold expect_var. eapply (wpx_look_var toks L); [exact H|].
  destruct t as [k| | | | | | | |]; try contradiction; reflexivity.
Qed.
Lemma bad_unclosed n ts : UncE n [KSemiColon] ts -> ts <> [] -> Bad n true ts.
Proof.
  intros ((X0 & X1) & F) NE. destruct X1 as [X1|((_ & SH) & t & r & EQ & S)]; [contradiction|]. destruct (start_stm t S) as (S1 & S2 & S3). split; [left; exists t, r; auto|].
  intros toks L p l N H. assert (HT := H). rewrite EQ in HT. cbn [app] in HT. set (m := p + List.length ts).
  assert (HM : forall q, here toks q l -> q = m) by (intros q [Z _]; destruct H as [Z' _]; rewrite app_length in Z'; unfold m; lia).
  assert (X : hd_ok (fun t => negb (tok_in [KSemiColon; KCurlyBracesOpen; KTry; KUnset; KForeach; KFor; KSwitch; KIf; KWhile; KDo; KGlobal; KTrait; KInterface; KAbstract; KFinal; KClass] t)) (t :: r ++ l)).
  { unfold hd_ok. rewrite S2. reflexivity. }
  assert (G : forall d, upto m d -> wpx (deepest d (parse_oo_declaration toks (PE toks) (PS toks)) (parse_other_stmt toks (PE toks))) p no (stop true toks l)).
  { intros d U. px1 L. assert (OO : halts (parse_oo_declaration toks (PE toks) (PS toks)) p) by (apply (oo_halts toks L p _ HT); weak1 X). use_no OO. intros er q [-> ER]. unfold parse_other_stmt. px1 L.
    eapply (wpx_peek toks L); [exact HT|]. cbv beta iota. rewrite S3. px1 L. px1 L. cbv beta. unfold parse_expr_stmt. px1 L.
    eapply wpx_mono; [exact (F toks L p _ N H)| |].
    - intros a q (A1 & A2 & A4). cbv beta. kx L. fin.
    - intros e q (A1 & ->). cbv beta. eapply upto_unpack; [apply upto_upd; [apply upto_upd; [exact U|]|]| |exact A1]; [rewrite ER; unfold m; lia|cbn; unfold m; lia|rewrite <- (HM _ A1); lia]. }
  apply wpx_PS. unfold parse_statement_body.
  do 10 (eapply (wpx_look_cls toks L); [exact HT|exact X|reflexivity|]).
  unfold look_restore. px1 L. px1 L. cbv beta.
  assert (GL : forall d, upto m d -> wpx (look_restore toks KGlobal d (parse_global_var_decl toks) (fun d => look_restore toks KFunction d
    (fun sp => parse_function_declaration toks (PE toks) (PS toks) sp false false) (fun d => deepest d (parse_oo_declaration toks (PE toks) (PS toks)) (parse_other_stmt toks (PE toks)))))
    p no (stop true toks l)).
  { intros d U. unfold look_restore. px1 L. px1 L. cbv beta. eapply (wpx_look_cls toks L); [exact HT|exact X|reflexivity|]. px1 L. px1 L. cbv beta.
    eapply (wpx_look toks L); [exact HT|]. destruct t as [k| | | | | | | |]; try (apply G; exact U). destruct (kind_eqb KFunction k) eqn:EK; [|apply G; exact U].
    apply kind_eqb_eq in EK. subst k. px1 L. destruct (here_cons toks L p _ _ HT) as (_ & H2 & _).
    subst ts. cbn [stm_expr_head] in SH. destruct r as [|t2 r]; [contradiction|]. cbn [app] in H2.
    eapply wpx_mono; [apply (fun_decl_late toks _ t2 (r ++ l) _ L H2)|intros ? ? []|].
    - destruct SH as [-> | (-> & SH1 & SH2)]; [left; reflexivity|]. destruct r as [|t3 r]; [congruence|]. cbn in SH1. right. exists (r ++ l).
      destruct t3 as [k3| | | | | | | |]; try discriminate. destruct k3; try discriminate. reflexivity.
    - intros e' q LE. cbv beta. px1 L. px1 L. cbv beta. apply G. apply upto_upd; [exact U|]. unfold m. destruct SH as [-> | (-> & SH1 & SH2)]; cbn [tok_in existsb kind_eqb] in LE; cbn in LE |- *; try lia.
    }
  change (wpx (look toks KStatic (fun sp => deepest None (parse_static_var_decl toks (PE toks) sp) (fun d' => setpos p;~ look_restore toks KGlobal d' (parse_global_var_decl toks)
   (fun d => look_restore toks KFunction d
    (fun sp => parse_function_declaration toks (PE toks) (PS toks) sp false false) (fun d => deepest d (parse_oo_declaration toks (PE toks) (PS toks)) (parse_other_stmt toks (PE toks))))))
   (look_restore toks KGlobal None (parse_global_var_decl toks) (fun d => look_restore toks KFunction d
    (fun sp => parse_function_declaration toks (PE toks) (PS toks) sp false false) (fun d => deepest d (parse_oo_declaration toks (PE toks) (PS toks)) (parse_other_stmt toks (PE toks)))))
   ) p no (stop true toks l)).
  eapply (wpx_look toks L); [exact HT|]. destruct t as [k| | | | | | | |]; try (apply GL; exact Logic.I). destruct (kind_eqb KStatic k) eqn:EK; [|apply GL; exact Logic.I].
  apply kind_eqb_eq in EK. subst k. px1 L. destruct (here_cons toks L p _ _ HT) as (_ & H2 & _). subst ts. cbn [stm_expr_head] in SH.
  destruct r as [|t2 r]; [contradiction|]. cbn [app] in H2.
  eapply wpx_mono; [apply (static_late toks _ _ _ _ L H2); destruct t2; auto|intros ? ? []|]. intros e' q LE. cbv beta. px1 L. px1 L. cbv beta. apply GL. cbn. split; [reflexivity|]. rewrite LE. unfold m. cbn. lia.
Qed.
(** ** The other statements with expressions *)
Lemma bad_echo_broken n ts : WhsE n [KSemiColon; KComma] ts -> Bad n true (Kw KEcho :: ts).
Proof.
  intros (X & F). split; [left; head1|]. intros toks L p l N H. cbn [app] in H. eapply ps_simple; [exact L|exact H|reflexivity|]. kx L.
  unfold parse_expression_list. destruct (F toks L (lf toks) [] (S p) l N HS) as [W _]; [destruct HS as [Z _]; rewrite app_length in Z; unfold lf; lia|cbn; auto|].
  eapply wpx_mono; [exact W| |auto]. intros r q (A1 & A2 & A4). unfold finish_simple. kx L. fin.
Qed.
Lemma bad_throw_broken n ts : UncE n [KSemiColon] ts -> Bad n true (Kw KThrow :: ts).
Proof.
  intros (_ & F). split; [left; head1|]. intros toks L p l N H. cbn [app] in H. eapply ps_simple; [exact L|exact H|reflexivity|]. kx L.
  eapply wpx_mono; [exact (F toks L _ _ N HS)| |auto]. intros r q (A1 & A2 & A4). unfold finish_simple. kx L. fin.
Qed.
Lemma bad_jump_broken n k (f : option expr -> stmt_) ts :
  (k, f) = (KReturn, SReturn) \/ (k, f) = (KContinue, SContinue) \/ (k, f) = (KBreak, SBreak) -> OptU n [KSemiColon] ts -> Bad n true (Kw k :: ts).
Proof.
  intros K O. split; [left; exists (Kw k); eexists; split; [reflexivity|]; destruct K as [K|[K|K]]; injection K as -> _; reflexivity|].
  intros toks L p l N H. cbn [app] in H. eapply ps_simple with (m := o <~ parse_opt_expression (PE toks) PrNone ;; pret (f o)); [exact L|exact H| |].
  - destruct K as [K|[K|K]]; injection K as -> ->; reflexivity.
  - kx L. eapply wpx_use; [exact (O toks L _ _ N HS)|]. intros a q (A1 & A2). unfold finish_simple. kx L. fin.
Qed.
Lemma badp_in n ts : UncE n [KParenthesesClose] ts -> BadP n (Kw KParenthesesOpen :: ts).
Proof.
  intros (_ & F) toks L p l N H A k. cbn [app] in H. kx L. eapply wpx_mono; [exact (F toks L _ _ N HS)| |auto]. intros r q (A1 & A2 & A4). kx L. fin.
Qed.
Lemma for_start_broken n ti : OptU n [KSemiColon] ti -> BadFor n true (Kw KParenthesesOpen :: ti).
Proof.
  intros O toks L p l sp N H. cbn [app] in H. unfold parse_for. kx L. eapply wpx_use; [exact (O toks L _ _ N HS)|]. intros x q (A1 & A2). kx L. fin.
Qed.
Lemma for_test_broken n ti i tt : OptE ti i -> OptU n [KSemiColon] tt -> BadFor n true (Kw KParenthesesOpen :: ti ++ Kw KSemiColon :: tt).
Proof.
  intros O1 O toks L p l sp N H. apps H. unfold parse_for. kx L. eapply wpx_use; [apply (opt_run ti i toks _ _ O1 L HS); reflexivity|]. intros x1 q1 (A1 & A2 & A3). kx L.
  eapply wpx_use; [exact (O toks L _ _ N HS0)|]. intros x q (B1 & B2). kx L. fin.
Qed.
Lemma for_step_broken n ti i tt t tn : OptE ti i -> OptE tt t -> OptU n [KParenthesesClose] tn ->
  BadFor n true (Kw KParenthesesOpen :: ti ++ Kw KSemiColon :: tt ++ Kw KSemiColon :: tn).
Proof.
  intros O1 O2 O toks L p l sp N H. apps H. unfold parse_for. kx L.
  eapply wpx_use; [apply (opt_run ti i toks _ _ O1 L HS); reflexivity|]. intros x1 q1 (A1 & A2 & A3). kx L.
  eapply wpx_use; [apply (opt_run tt t toks _ _ O2 L HS0); reflexivity|]. intros x2 q2 (B1 & B2 & B3). kx L.
  eapply wpx_use; [exact (O toks L _ _ N HS1)|]. intros x q (D1 & D2). kx L. fin.
Qed.
Lemma foreach_as_broken n te : UncE n [KAs] te -> BadForeach n true (Kw KParenthesesOpen :: te).
Proof.
  intros (_ & F) toks L p l sp N H. cbn [app] in H. unfold parse_foreach. kx L. eapply wpx_mono; [exact (F toks L _ _ N HS)| |auto]. intros r q (A1 & A2 & A4). kx L. fin.
Qed.
Lemma label_case_broken n te : UncE n [KColon; KSemiColon] te -> BadL n (Kw KCase :: te).
Proof.
  intros (_ & F). split; [left; cbn; eauto|]. intros toks L NE m cases conds p l N H. cbn [app] in H. remember (S m) as m'. cbn [switch_cases]. cbv zeta. kx L.
  eapply wpx_mono; [exact (F toks L _ _ N HS)| |auto]. intros r q (A1 & A2 & A4). kx L. fin.
Qed.

(** ** Lists of variables *)
Definition AccsE (n : option token) (ts : list token) : Prop := forall toks, late2 toks -> forall f acc p l, ahead n l -> here toks p (ts ++ l) -> List.length ts < f ->
  wpx (unset_vars toks (PE toks) f acc) p (fun _ q => here toks q l /\ hd_ok (fun t => negb (tok_in [KComma; KParenthesesClose] t)) l) (stop true toks l).
Lemma accs_none n : lacks_expression n -> AccsE n [].
Proof.
  intros X toks L f acc p l N H K. destruct f as [|f]; [cbn in K; lia|]. assert (C := lacks_hd n l X N). cbn [app] in H. cbn [unset_vars]. kx L. assert (C1 : hd_ok novar_tok l) by weak1 C. halt (var_halts toks L p l H C1). fin.
Qed.
Lemma accs_end n tv v : Var tv v -> ends_without n [KComma; KParenthesesClose] -> AccsE n tv.
Proof.
  intros V X toks L f acc p l N H K. destruct f as [|f]; [lia|]. destruct (ends_hd n _ l X N) as [C1 C2]. cbn [unset_vars]. px1 L.
  eapply wpx_use; [apply (var_whole tv v V toks L p l H); apply (closing_var l C1)|]. intros a q (A1 & A2 & A3). cbv zeta. kx L. auto.
Qed.
Lemma accs_more n tv v ts : Var tv v -> AccsE n ts -> AccsE n (tv ++ Kw KComma :: ts).
Proof.
  intros V F toks L f acc p l N H K. destruct f as [|f]; [lia|]. rewrite app_cons_assoc in H. rewrite app_length in K. cbn [List.length] in K. cbn [unset_vars]. px1 L.
  eapply wpx_use; [apply (var_whole tv v V toks L p _ H); reflexivity|]. intros a q (A1 & A2 & A3). cbv zeta. kx L. apply (F toks L f _ _ l N HS). lia.
Qed.
Lemma bad_unset_open n : except [KParenthesesOpen] n -> Bad n true [Kw KUnset].
Proof.
  intros A. split; [left; head1|]. intros toks L p l N H. assert (C := except_hd _ n l A N). cbn [app] in H. apply wpx_PS. unfold parse_statement_body, parse_unset. kx L. fin.
Qed.
Lemma bad_unset_list n ts : AccsE n ts -> Bad n true (Kw KUnset :: Kw KParenthesesOpen :: ts).
Proof.
  intros F. split; [left; head1|]. intros toks L p l N H. cbn [app] in H. apply wpx_PS. unfold parse_statement_body, parse_unset. kx L.
  eapply wpx_mono; [apply (F toks L (lf toks) [] _ l N HS0); destruct HS0 as [Z _]; rewrite app_length in Z; unfold lf; lia| |auto]. intros r q (A1 & A2). kx L. fin.
Qed.

(** ** Statements whose expression lacks something directly before the semicolon *)
Lemma cut_expr ts e : DngE (Some (Kw KSemiColon)) 1 ts e -> StmC any (ts ++ [Kw KSemiColon]) (expr_stm e).
Proof.
  intros ((_ & (_ & S0) & S1) & D). assert (S2 := S1). destruct S2 as (t & r & E & S2). destruct (start_stm t S2) as (S3 & _).
  split; [exists t; exists (r ++ [Kw KSemiColon]); rewrite E; auto|]. intros toks L p l H _. rewrite <- app_assoc in H. cbn [app] in H.
  eapply (ps_expr_at ts e toks p); [exact S1|exact S0|exact L|exact H|exact (D toks L 0 p (Kw KSemiColon :: l) (le_n 1) eq_refl H)|]. intros a q (A1 & A2 & A3 & A4). unfold finish_expr. px L. oks. strips.
Qed.
Lemma cut_throw ts e : DngE (Some (Kw KSemiColon)) 1 ts e -> StmC any (Kw KThrow :: ts ++ [Kw KSemiColon]) (St (SThrow e) span_new).
Proof.
  intros (_ & D). split; [head1|]. intros toks L p l H _. cbn [app] in H. rewrite <- app_assoc in H. cbn [app] in H.
  eapply simple_run; [exact L|exact H|reflexivity|]. px L. eapply wpx_use; [exact (D toks L 0 _ (Kw KSemiColon :: l) (le_n 1) eq_refl HS)|].
  intros r q (A1 & A2 & A3 & A4). px L. exists l. oks. intros sp. oks. strips.
Qed.
Lemma cut_jump k (f : option expr -> stmt_) ts o :
  (k, f) = (KReturn, SReturn) \/ (k, f) = (KContinue, SContinue) \/ (k, f) = (KBreak, SBreak) ->
  match o with Some e => DngE (Some (Kw KSemiColon)) 1 ts e | None => BadE (Some (Kw KSemiColon)) ts end ->
  StmC any (Kw k :: ts ++ [Kw KSemiColon]) (St (f o) span_new).
Proof.
  intros K O. split; [exists (Kw k); eexists; split; [reflexivity|]; destruct K as [K|[K|K]]; injection K as -> _; reflexivity|].
  intros toks L p l H _. cbn [app] in H. rewrite <- app_assoc in H. cbn [app] in H.
  eapply simple_run with (m := o <~ parse_opt_expression (PE toks) PrNone ;; pret (f o)); [exact L|exact H| |].
  - destruct K as [K|[K|K]]; injection K as -> ->; reflexivity.
  - px L. assert (W : wpx (parse_opt_expression (PE toks) PrNone) (S p) (opt_q toks o (S p) (Kw KSemiColon :: l)) nofail).
    { unfold parse_opt_expression. px1 L. destruct o as [e|].
      - eapply wpx_use; [exact (proj2 O toks L 0 _ (Kw KSemiColon :: l) (le_n 1) eq_refl HS)|]. intros a q (A1 & A2 & A3 & A4). px1 L. unfold opt_q. oks. cbn. congruence.
      - use_no (proj1 O toks L PrNone _ (Kw KSemiColon :: l) eq_refl HS). intros e q (A1 & ->). px1 L. split; [exact A1|]. split; [|reflexivity]. destruct A1 as [A1 _], HS as [HS _]. rewrite app_length in HS. lia. }
    eapply wpx_use; [exact W|]. intros a q (A1 & A2 & A3). px L. exists l. oks. intros sp. oks.
    destruct K as [K|[K|K]]; injection K as -> ->; strips.
Qed.
