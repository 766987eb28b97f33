(** * Stops: the parser stops at the token that does not fit (proofs for C39 and C40) *)
From Verif Require Import Base Tokens Ast AstMap AstInd Lexer Parser Driver Wp ParserTermination ParserMono ParserRel ParseRun ParseTac ParseExpr ParseStmt ParseDecl ErrAt SpecErr.
From Coq Require Import String.
Local Open Scope list_scope.

(** the error is where the remaining tokens are [l]; with [c] the parser is there, too,
    otherwise at the name of a function *)
Definition stop (c : bool) (toks : list tokspan) (l : list token) : perror -> nat -> Prop := fun e q =>
  here toks (err_pos e) l /\ if c then q = err_pos e else exists l', here toks q l' /\ hd_ok (fun t => negb (tok_in [KCurlyBracesClose] t)) l'.
Definition no {A} : A -> nat -> Prop := fun _ _ => False.
Definition ahead (n : option token) (l : list token) : Prop := hd_error l = n.
Lemma in_existsb k ks : In k ks -> existsb (kind_eqb k) ks = true.
Proof. intros I. apply existsb_exists. exists k. split; [exact I|]. apply kind_eqb_eq. reflexivity. Qed.
Lemma among_hd ks n l : among ks n -> ahead n l -> hd_ok (tok_in ks) l.
Proof.
  intros A <-. destruct l as [|t l]; [exact Logic.I|]. cbn in *. destruct t; try contradiction. apply in_existsb, A.
Qed.
Lemma except_hd ks n l : except ks n -> ahead n l -> hd_ok (fun t => negb (tok_in ks t)) l.
Proof.
  intros A <-. destruct l as [|t l]; [exact Logic.I|]. cbn in *. destruct t; try reflexivity. cbn. apply negb_true_iff. destruct (existsb (kind_eqb k) ks) eqn:X; [|reflexivity].
  apply existsb_exists in X as (k' & I & E). apply kind_eqb_eq in E. subst. contradiction.
Qed.
Lemma tok_weak (ks : list kind) (c : token -> bool) : forallb (fun k => c (Kw k)) ks = true -> forall l, hd_ok (tok_in ks) l -> hd_ok c l.
Proof.
  intros F l. apply hd_weak. intros t T. destruct t; try discriminate. cbn in T. apply existsb_exists in T as (k' & I & E). apply kind_eqb_eq in E. subst.
  rewrite forallb_forall in F. apply F, I.
Qed.
Lemma lacks_hd n l : lacks_expression n -> ahead n l -> hd_ok fail_tok l.
Proof. intros A B. apply (tok_weak no_expression); [reflexivity|]. eapply among_hd; eauto. Qed.
Lemma ends_hd n ks l : ends_without n ks -> ahead n l -> hd_ok closer l /\ hd_ok (fun t => negb (tok_in ks t)) l.
Proof. intros [A B] C. split; [|eapply except_hd; eauto]. apply (tok_weak enders); [reflexivity|]. eapply among_hd; eauto. Qed.
Lemma stray_hd n l : among strays n -> ahead n l -> hd_ok (tok_in strays) l /\ hd_ok fail_tok l.
Proof. intros A C. assert (X : hd_ok (tok_in strays) l) by (eapply among_hd; eauto). split; [exact X|]. revert X. apply tok_weak. reflexivity. Qed.

Ltac kx1 L :=
  lazymatch goal with
  | |- wpx (expect ?ts ?k) ?p _ _ => first [px1 L | unfold expect; px1 L]
  | _ => hx1 L
  end.
Ltac kx L := next_here L; repeat (kx1 L; cbv beta).
Ltac fin := split; cbn [err_pos]; [first [assumption | match goal with E : err_pos _ = _ |- _ => rewrite E; assumption end]|try reflexivity; try (symmetry; assumption)].
Ltac apps H := cbn [app] in H; rewrite <- ?app_assoc in H; cbn [app] in H; rewrite <- ?app_assoc in H; cbn [app] in H; rewrite <- ?app_assoc in H; cbn [app] in H.
Ltac use_no X := eapply wpx_mono; [exact X|intros ? ? []|].

Definition Bad (n : option token) (c : bool) (ts : list token) : Prop :=
  (starts ts \/ (ts = [] /\ c = true /\ among strays n)) /\
  forall toks, late2 toks -> forall p l, ahead n l -> here toks p (ts ++ l) -> wpx (PS toks) p no (stop c toks l).

(** ** Simple statements *)
Lemma other_halts toks p l d : late2 toks -> here toks p l -> hd_ok fail_tok l -> hd_ok (fun t => negb (tok_in simple_words t)) l -> dat p d ->
  match l with TInlineHtml _ :: _ => False | _ => True end -> halts (parse_other_stmt toks (PE toks) d) p.
Proof.
  intros L H C1 C2 D NI. unfold halts, parse_other_stmt. kx1 L. destruct l as [|t l].
  { kx L. dn. }
  kx1 L. assert (X : simple_stmt toks (PE toks) t (sp_at toks p) = None).
  { destruct t as [k| | | | | | | |]; try reflexivity; try contradiction. destruct k; try reflexivity; discriminate C2. }
  rewrite X. kx1 L. kx1 L. cbv beta. unfold parse_expr_stmt. kx1 L. halt (pe_halts toks L PrNone p _ H C1).
  eapply wpx_mono; [apply unpack_halts; apply dat_upd; [apply dat_upd; [exact D|reflexivity]|exact H0]|intros ? ? []|auto].
Qed.
Lemma bad_here n : among strays n -> Bad n true [].
Proof.
  intros A. split; [auto|]. intros toks L p l N H. cbn [app] in H. destruct (stray_hd n l A N) as [C1 C2].
  apply wpx_PS. unfold parse_statement_body, look_restore. kx L.
  assert (C3 : hd_ok (fun t => negb (tok_in [KTrait; KInterface; KAbstract; KFinal; KClass] t)) l) by (revert C1; apply tok_weak; reflexivity). halt (oo_halts toks L p l H C3).
  eapply wpx_mono; [apply (other_halts toks p l); auto|intros ? ? []|].
  - revert C1. apply tok_weak. reflexivity.
  - destruct l as [|[]]; try exact Logic.I. discriminate C1.
  - intros e' q [-> E]. fin.
Qed.
Lemma bad_expr n ts e : Full ts e -> stm_expr_head ts -> ends_without n [KSemiColon] -> Bad n true ts.
Proof.
  intros F SH A. destruct (full_head ts e F) as (t & r & E & S). destruct (start_stm t S) as (S1 & _). split; [left; exists t, r; auto|].
  intros toks L p l N H. destruct (ends_hd n _ l A N) as [C1 C2].
  eapply (ps_expr ts e toks p); [exact F|exact SH|exact L|exact H|exact C1|]. intros a q (A1 & A2 & A3 & A4). unfold finish_expr. kx L. fin.
Qed.
Lemma bad_echo n tss es : tss <> [] -> Forall2 Full tss es -> ends_without n [KSemiColon; KComma] -> Bad n true (Kw KEcho :: commas tss).
Proof.
  intros NE F A. split; [left; head1|]. intros toks L p l N H. destruct (ends_hd n _ l A N) as [C1 C2]. cbn [app] in H. eapply ps_simple; [exact L|exact H|reflexivity|]. kx L.
  eapply wpx_use; [apply (expression_list_run tss es NE F toks L _ _ HS); destruct l; auto; cbn in *; rewrite C1; cbn; destruct t as [[]| | | | | | | |]; auto; discriminate|].
  intros r q (A1 & A2 & A3). unfold finish_simple. kx L. fin.
Qed.
Lemma bad_throw n ts e : Full ts e -> ends_without n [KSemiColon] -> Bad n true (Kw KThrow :: ts).
Proof.
  intros F A. split; [left; head1|]. intros toks L p l N H. destruct (ends_hd n _ l A N) as [C1 C2]. cbn [app] in H. eapply ps_simple; [exact L|exact H|reflexivity|]. kx L.
  eapply wpx_use; [apply (F toks L _ _ HS C1)|]. intros r q (A1 & A2 & A3). unfold finish_simple. kx L. fin.
Qed.
Lemma bad_jump n k (f : option expr -> stmt_) ts o :
  (k, f) = (KReturn, SReturn) \/ (k, f) = (KContinue, SContinue) \/ (k, f) = (KBreak, SBreak) -> OptE ts o -> ends_without n [KSemiColon] -> Bad n true (Kw k :: ts).
Proof.
  intros K O A. split; [left; exists (Kw k); eexists; split; [reflexivity|]; destruct K as [K|[K|K]]; injection K as -> _; reflexivity|].
  intros toks L p l N H. destruct (ends_hd n _ l A N) as [C1 C2]. cbn [app] in H.
  eapply ps_simple with (m := o <~ parse_opt_expression (PE toks) PrNone ;; pret (f o)); [exact L|exact H| |].
  - destruct K as [K|[K|K]]; injection K as -> ->; reflexivity.
  - kx L. eapply wpx_use; [apply (opt_run ts o toks _ _ O L HS C1)|]. intros a q (A1 & A2 & A3). unfold finish_simple. kx L. fin.
Qed.
Lemma bad_throw_none n : lacks_expression n -> Bad n true [Kw KThrow].
Proof.
  intros A. split; [left; head1|]. intros toks L p l N H. assert (C := lacks_hd n l A N). cbn [app] in H. eapply ps_simple; [exact L|exact H|reflexivity|]. kx L.
  halt (pe_halts toks L PrNone _ l HS C). fin.
Qed.
Lemma bad_echo_none n : lacks_expression n -> Bad n true [Kw KEcho].
Proof.
  intros A. split; [left; head1|]. intros toks L p l N H. assert (C := lacks_hd n l A N). cbn [app] in H. eapply ps_simple; [exact L|exact H|reflexivity|]. kx L.
  unfold parse_expression_list. unfold lf. cbn [expression_list]. kx L. halt (pe_halts toks L PrNone _ l HS C). fin.
Qed.
Lemma unset_run tss es toks p l : late2 toks -> tss <> [] -> Forall2 Var tss es -> here toks p (commas tss ++ Kw KParenthesesClose :: l) ->
  wpx (unset_vars toks (PE toks) (lf toks) []) p (fun r q => here toks q (Kw KParenthesesClose :: l) /\ p < q) nofail.
Proof.
  intros L NE F H. eapply wpx_use; [apply (commas_run toks Var (fun a x => strip_expr a = strip_expr x) var_end (parse_variable toks (PE toks) false None) (unset_vars toks (PE toks)) L) with (tss := tss) (xs := es) (l := Kw KParenthesesClose :: l); auto|].
  - intros. cbn [unset_vars]. px1 L. exact H0.
  - intros ts x q l' V X Y. eapply wpx_use; [exact (var_whole ts x V toks L q l' X Y)|]. intros a q' (A1 & A2 & A3 & A4). oks. exact A3.
  - intros. reflexivity.
  - reflexivity.
  - reflexivity.
  - eapply items_len; eauto. apply var_len.
  - cbv beta. intros r q (A1 & A2 & _). auto.
Qed.
Lemma bad_unset n tss es : tss <> [] -> Forall2 Var tss es -> except [KSemiColon] n -> Bad n true (Kw KUnset :: cond_toks (commas tss)).
Proof.
  intros NE F A. split; [left; head1|]. intros toks L p l N H. assert (C := except_hd _ n l A N). cbn [app] in H. rewrite cond_app in H.
  apply wpx_PS. unfold parse_statement_body, parse_unset. kx L. eapply wpx_use; [exact (unset_run tss es toks _ _ L NE F HS0)|]. intros r q (A1 & A2). kx L. fin.
Qed.

(** ** Parentheses *)
Definition BadP (n : option token) (ts : list token) : Prop := forall toks, late2 toks -> forall p l, ahead n l -> here toks p (ts ++ l) ->
  forall A (k : expr -> P A), wpx (expect toks KParenthesesOpen ;~ c <~ PE toks PrNone ;; expect toks KParenthesesClose ;~ k c) p no (stop true toks l).
Lemma badp_open n : except [KParenthesesOpen] n -> BadP n [].
Proof. intros X toks L p l N H A k. assert (C := except_hd _ n l X N). cbn [app] in H. kx L. fin. Qed.
Lemma badp_empty n : lacks_expression n -> BadP n [Kw KParenthesesOpen].
Proof. intros X toks L p l N H A k. assert (C := lacks_hd n l X N). cbn [app] in H. kx L. halt (pe_halts toks L PrNone _ l HS C). fin. Qed.
Lemma badp_close n ts e : Full ts e -> ends_without n [KParenthesesClose] -> BadP n (Kw KParenthesesOpen :: ts).
Proof.
  intros F X toks L p l N H A k. destruct (ends_hd n _ l X N) as [C1 C2]. cbn [app] in H. kx L. eapply wpx_use; [apply (F toks L _ _ HS C1)|]. intros r q (A1 & A2 & A3). kx L. fin.
Qed.
Lemma badp_cond n ts toks p l : BadP n ts -> late2 toks -> ahead n l -> here toks p (ts ++ l) -> wpx (parse_condition toks (PE toks)) p no (stop true toks l).
Proof. intros B L N H. exact (B toks L p l N H _ pret). Qed.
Lemma bad_while_head n ts : BadP n ts -> Bad n true (Kw KWhile :: ts).
Proof.
  intros B. split; [left; head1|]. intros toks L p l N H. cbn [app] in H. apply wpx_PS. unfold parse_statement_body, parse_while. kx L.
  use_no (badp_cond n ts toks _ l B L N HS). auto.
Qed.
Lemma bad_switch_head n ts : BadP n ts -> Bad n true (Kw KSwitch :: ts).
Proof.
  intros B. split; [left; head1|]. intros toks L p l N H. cbn [app] in H. apply wpx_PS. unfold parse_statement_body, parse_switch. next_here L. do 7 kx1 L.
  apply (B toks L _ l N HS).
Qed.
Definition BadS (n : option token) (c : bool) (ts : list token) (A : Type) (m : list tokspan -> P A) : Prop := forall toks, late2 toks -> forall p l, ahead n l -> here toks p (ts ++ l) ->
  wpx (m toks) p no (stop c toks l).
Lemma bad_do_while n tb b : BodyC any tb b -> except [KWhile] n -> Bad n true (Kw KDo :: tb).
Proof.
  intros B A. split; [left; head1|]. intros toks L p l N H. assert (C := except_hd _ n l A N). cbn [app] in H. apply wpx_PS. unfold parse_statement_body, parse_do. kx L.
  eapply wpx_use; [apply (body_run _ tb b toks _ _ B L HS); exact Logic.I|]. intros r q (B1 & B2 & B3). kx L. fin.
Qed.
Lemma bad_do_cond n tb b ts : BodyC stm_end tb b -> BadP n ts -> Bad n true (Kw KDo :: tb ++ Kw KWhile :: ts).
Proof.
  intros B A. split; [left; head1|]. intros toks L p l N H. apps H. apply wpx_PS. unfold parse_statement_body, parse_do. kx L.
  eapply wpx_use; [apply (body_run _ tb b toks _ _ B L HS); reflexivity|]. intros r q (B1 & B2 & B3). kx L. use_no (badp_cond n ts toks _ l A L N HS0). auto.
Qed.
Lemma bad_do_end n tb b tc e : BodyC stm_end tb b -> Full tc e -> except [KSemiColon] n -> Bad n true (Kw KDo :: tb ++ Kw KWhile :: cond_toks tc).
Proof.
  intros B F A. split; [left; head1|]. intros toks L p l N H. assert (C := except_hd _ n l A N). cbn [app] in H. rewrite <- app_assoc in H. cbn [app] in H. apply wpx_PS. unfold parse_statement_body, parse_do. kx L.
  eapply wpx_use; [apply (body_run _ tb b toks _ _ B L HS); reflexivity|]. intros r q (B1 & B2 & B3). kx L.
  eapply wpx_use; [exact (cond_run tc e toks _ _ F L HS0)|]. intros a q' (A1 & A2 & A3 & A4). kx L. fin.
Qed.
(** ** Bodies *)
Lemma bad_body n c u toks p l (Q : list stmt * span -> nat -> Prop) : Bad n c u -> late2 toks -> ahead n l -> here toks p (u ++ l) ->
  wpx (parse_statement_extract_block (PS toks)) p Q (stop c toks l).
Proof. intros [_ U] L N H. unfold parse_statement_extract_block. px1 L. use_no (U toks L p l N H). auto. Qed.
Lemma bad_while n c tc e u : Full tc e -> Bad n c u -> Bad n c (Kw KWhile :: cond_toks tc ++ u).
Proof.
  intros F U. split; [left; head1|]. intros toks L p l N H. cbn [app] in H. rewrite <- app_assoc in H. apply wpx_PS. unfold parse_statement_body, parse_while. kx L.
  eapply wpx_use; [exact (cond_run tc e toks _ _ F L HS)|]. intros a q (A1 & A2 & A3 & A4). kx L. apply (bad_body n c u); auto.
Qed.
Lemma bad_do n c u : Bad n c u -> Bad n c (Kw KDo :: u).
Proof. intros U. split; [left; head1|]. intros toks L p l N H. cbn [app] in H. apply wpx_PS. unfold parse_statement_body, parse_do. kx L. apply (bad_body n c u); auto. Qed.
Definition BadFor (n : option token) (c : bool) (ts : list token) : Prop := forall toks, late2 toks -> forall p l sp, ahead n l -> here toks p (ts ++ l) ->
  wpx (parse_for toks (PE toks) (PS toks) sp) p no (stop c toks l).
Lemma bad_for_any n c ts : BadFor n c ts -> Bad n c (Kw KFor :: ts).
Proof. intros B. split; [left; head1|]. intros toks L p l N H. cbn [app] in H. apply wpx_PS. unfold parse_statement_body. next_here L. do 6 px1 L. apply B; auto. Qed.
Lemma for_open n : except [KParenthesesOpen] n -> BadFor n true [].
Proof. intros X toks L p l sp N H. assert (C := except_hd _ n l X N). cbn [app] in H. unfold parse_for. kx L. fin. Qed.
Lemma for_start n ti i : OptE ti i -> ends_without n [KSemiColon] -> BadFor n true (Kw KParenthesesOpen :: ti).
Proof.
  intros O1 X toks L p l sp N H. destruct (ends_hd n _ l X N) as [C1 C2]. cbn [app] in H. unfold parse_for. kx L.
  eapply wpx_use; [apply (opt_run ti i toks _ _ O1 L HS C1)|]. intros x1 q1 (A1 & A2 & A3). kx L. fin.
Qed.
Lemma for_test n ti i tt t : OptE ti i -> OptE tt t -> ends_without n [KSemiColon] -> BadFor n true (Kw KParenthesesOpen :: ti ++ Kw KSemiColon :: tt).
Proof.
  intros O1 O2 X toks L p l sp N H. destruct (ends_hd n _ l X N) as [C1 C2]. apps H. unfold parse_for. kx L.
  eapply wpx_use; [apply (opt_run ti i toks _ _ O1 L HS); reflexivity|]. intros x1 q1 (A1 & A2 & A3). kx L.
  eapply wpx_use; [apply (opt_run tt t toks _ _ O2 L HS0 C1)|]. intros x2 q2 (B1 & B2 & B3). kx L. fin.
Qed.
Lemma for_step n ti i tt t tn m : OptE ti i -> OptE tt t -> OptE tn m -> ends_without n [KParenthesesClose] ->
  BadFor n true (Kw KParenthesesOpen :: ti ++ Kw KSemiColon :: tt ++ Kw KSemiColon :: tn).
Proof.
  intros O1 O2 O3 X toks L p l sp N H. destruct (ends_hd n _ l X N) as [C1 C2]. apps H. unfold parse_for. kx L.
  eapply wpx_use; [apply (opt_run ti i toks _ _ O1 L HS); reflexivity|]. intros x1 q1 (A1 & A2 & A3). kx L.
  eapply wpx_use; [apply (opt_run tt t toks _ _ O2 L HS0); reflexivity|]. intros x2 q2 (B1 & B2 & B3). kx L.
  eapply wpx_use; [apply (opt_run tn m toks _ _ O3 L HS1 C1)|]. intros x3 q3 (D1 & D2 & D3). kx L. fin.
Qed.
Lemma for_body n c ti i tt t tn m u : OptE ti i -> OptE tt t -> OptE tn m -> Bad n c u ->
  BadFor n c (cond_toks (ti ++ Kw KSemiColon :: tt ++ Kw KSemiColon :: tn) ++ u).
Proof.
  intros O1 O2 O3 U toks L p l sp N H. rewrite <- app_assoc, cond_app in H. apps H. unfold parse_for. kx L.
  eapply wpx_use; [apply (opt_run ti i toks _ _ O1 L HS); reflexivity|]. intros x1 q1 (A1 & A2 & A3). kx L.
  eapply wpx_use; [apply (opt_run tt t toks _ _ O2 L HS0); reflexivity|]. intros x2 q2 (B1 & B2 & B3). kx L.
  eapply wpx_use; [apply (opt_run tn m toks _ _ O3 L HS1); reflexivity|]. intros x3 q3 (D1 & D2 & D3). kx L. apply (bad_body n c u); auto.
Qed.
Definition BadForeach (n : option token) (c : bool) (ts : list token) : Prop := forall toks, late2 toks -> forall p l sp, ahead n l -> here toks p (ts ++ l) ->
  wpx (parse_foreach toks (PE toks) (PS toks) sp) p no (stop c toks l).
Lemma bad_foreach_any n c ts : BadForeach n c ts -> Bad n c (Kw KForeach :: ts).
Proof. intros B. split; [left; head1|]. intros toks L p l N H. cbn [app] in H. apply wpx_PS. unfold parse_statement_body. next_here L. do 5 px1 L. apply B; auto. Qed.
Lemma foreach_open n : except [KParenthesesOpen] n -> BadForeach n true [].
Proof. intros X toks L p l sp N H. assert (C := except_hd _ n l X N). cbn [app] in H. unfold parse_foreach. kx L. fin. Qed.
Lemma foreach_empty n : lacks_expression n -> BadForeach n true [Kw KParenthesesOpen].
Proof. intros X toks L p l sp N H. assert (C := lacks_hd n l X N). cbn [app] in H. unfold parse_foreach. kx L. halt (pe_halts toks L PrNone _ l HS C). fin. Qed.
Lemma foreach_as n te e : Full te e -> ends_without n [KAs] -> BadForeach n true (Kw KParenthesesOpen :: te).
Proof.
  intros F X toks L p l sp N H. destruct (ends_hd n _ l X N) as [C1 C2]. cbn [app] in H. unfold parse_foreach. kx L.
  eapply wpx_use; [apply (F toks L _ _ HS C1)|]. intros x1 q1 (A1 & A2 & A3 & A4). kx L. fin.
Qed.
Lemma foreach_var n te e : Full te e -> lacks_expression n -> except [KAmpersand] n -> BadForeach n true (Kw KParenthesesOpen :: te ++ [Kw KAs]).
Proof.
  intros F X Y toks L p l sp N H. assert (C := lacks_hd n l X N). assert (C2 := except_hd _ n l Y N). apps H. unfold parse_foreach. kx L.
  eapply wpx_use; [apply (F toks L _ _ HS); reflexivity|]. intros x1 q1 (A1 & A2 & A3 & A4). kx L. unfold parse_foreach_variable, parse_is_ref. kx L.
  eapply wpx_mono; [apply (var_halts toks L _ l HS0); revert C; apply hd_weak; intros t T; apply fail_novar in T; tauto|intros ? ? []|]. intros e' q [-> E]. fin.
Qed.
Lemma foreach_close n te e tv v : Full te e -> FVar tv v -> ends_without n [KParenthesesClose; KDoubleArrow] -> BadForeach n true (Kw KParenthesesOpen :: te ++ Kw KAs :: tv).
Proof.
  intros F V X toks L p l sp N H. destruct (ends_hd n _ l X N) as [C1 C2]. apps H. unfold parse_foreach. kx L.
  eapply wpx_use; [apply (F toks L _ _ HS); reflexivity|]. intros x1 q1 (A1 & A2 & A3 & A4). kx L.
  eapply wpx_use; [apply (fvar_run tv v toks _ _ V L HS0); apply closing_var; exact C1|]. intros x2 q2 (B1 & B2 & B3). kx L. fin.
Qed.
Lemma foreach_close_key n te e tk k tv v : Full te e -> FVar tk k -> FVar tv v -> ends_without n [KParenthesesClose] ->
  BadForeach n true (Kw KParenthesesOpen :: te ++ Kw KAs :: tk ++ Kw KDoubleArrow :: tv).
Proof.
  intros F V W X toks L p l sp N H. destruct (ends_hd n _ l X N) as [C1 C2]. apps H. unfold parse_foreach. kx L.
  eapply wpx_use; [apply (F toks L _ _ HS); reflexivity|]. intros x1 q1 (A1 & A2 & A3 & A4). kx L.
  eapply wpx_use; [apply (fvar_run tk k toks _ _ V L HS0); reflexivity|]. intros x2 q2 (B1 & B2 & B3). kx L.
  eapply wpx_use; [apply (fvar_run tv v toks _ _ W L HS1); apply closing_var; exact C1|]. intros x3 q3 (D1 & D2 & D3). kx L. fin.
Qed.
Lemma foreach_body n c te e tv v u : Full te e -> FVar tv v -> Bad n c u -> BadForeach n c (cond_toks (te ++ Kw KAs :: tv) ++ u).
Proof.
  intros F V U toks L p l sp N H. rewrite <- app_assoc, cond_app in H. apps H. unfold parse_foreach. kx L.
  eapply wpx_use; [apply (F toks L _ _ HS); reflexivity|]. intros x1 q1 (A1 & A2 & A3 & A4). kx L.
  eapply wpx_use; [apply (fvar_run tv v toks _ _ V L HS0); reflexivity|]. intros x2 q2 (B1 & B2 & B3). kx L. apply (bad_body n c u); auto.
Qed.
Lemma foreach_body_key n c te e tk k tv v u : Full te e -> FVar tk k -> FVar tv v -> Bad n c u ->
  BadForeach n c (cond_toks (te ++ Kw KAs :: tk ++ Kw KDoubleArrow :: tv) ++ u).
Proof.
  intros F V W U toks L p l sp N H. rewrite <- app_assoc, cond_app in H. apps H. unfold parse_foreach. kx L.
  eapply wpx_use; [apply (F toks L _ _ HS); reflexivity|]. intros x1 q1 (A1 & A2 & A3 & A4). kx L.
  eapply wpx_use; [apply (fvar_run tk k toks _ _ V L HS0); reflexivity|]. intros x2 q2 (B1 & B2 & B3). kx L.
  eapply wpx_use; [apply (fvar_run tv v toks _ _ W L HS1); reflexivity|]. intros x3 q3 (D1 & D2 & D3). kx L. apply (bad_body n c u); auto.
Qed.
(** ** if *)
Definition BadIf (n : option token) (c : bool) (ts : list token) : Prop := forall toks, late2 toks -> forall p l, ahead n l -> here toks p (ts ++ l) ->
  forall m acc sp, List.length ts < m ->
  wpx (c <~ parse_condition toks (PE toks) ;; b <~ parse_statement_extract_block (PS toks) ;;
       if_arms toks (PE toks) (PS toks) m (acc ++ [St (SIf c (fst b) []) (mk_span sp (sp_end (snd b)))])) p no (stop c toks l).
Lemma if_head n ts : BadP n ts -> BadIf n true ts.
Proof. intros B toks L p l N H m acc sp M. px1 L. use_no (badp_cond n ts toks _ l B L N H). auto. Qed.
Lemma if_body n c tc e u : Full tc e -> Bad n c u -> BadIf n c (cond_toks tc ++ u).
Proof.
  intros F U toks L p l N H m acc sp M. rewrite <- app_assoc in H. px1 L. eapply wpx_use; [exact (cond_run tc e toks _ _ F L H)|]. intros c' q (A1 & A2 & A3 & A4). cbv beta. px1 L.
  apply (bad_body n c u); auto.
Qed.
Lemma if_else n c tc e tb b u : Full tc e -> BodyC any tb b -> Bad n c u -> BadIf n c (cond_toks tc ++ tb ++ Kw KElse :: u).
Proof.
  intros F B U toks L p l N H m acc sp M. rewrite <- !app_assoc in H. cbn [app] in H. px1 L. eapply wpx_use; [exact (cond_run tc e toks _ _ F L H)|]. intros c' q (A1 & A2 & A3 & A4). cbv beta. px1 L.
  eapply wpx_use; [exact (body_run any tb b toks q _ B L A1 Logic.I)|]. intros b' q' (B1 & B2 & B3). cbv beta. destruct m as [|m]; [lia|]. cbn [if_arms]. kx L. apply (bad_body n c u); auto.
Qed.
Lemma if_elseif n c tc e tb b u : Full tc e -> BodyC any tb b -> BadIf n c u -> BadIf n c (cond_toks tc ++ tb ++ Kw KElseIf :: u).
Proof.
  intros F B U toks L p l N H m acc sp M. rewrite <- !app_assoc in H. cbn [app] in H. px1 L. eapply wpx_use; [exact (cond_run tc e toks _ _ F L H)|]. intros c' q (A1 & A2 & A3 & A4). cbv beta. px1 L.
  eapply wpx_use; [exact (body_run any tb b toks q _ B L A1 Logic.I)|]. intros b' q' (B1 & B2 & B3). cbv beta. destruct m as [|m]; [lia|]. cbn [if_arms]. next_here L. px1 L.
  apply (U toks L _ l N HS). rewrite !app_length in M. cbn in M. lia.
Qed.
Lemma bind3 {A B C D} (m1 : P A) (m2 : A -> P B) (f : A -> B -> P C) (k : C -> P D) p Q E :
  wpx (a <~ m1 ;; b <~ m2 a ;; f a b) p (fun x q => wpx (k x) q Q E) E -> wpx (a <~ m1 ;; b <~ m2 a ;; x <~ f a b ;; k x) p Q E.
Proof. unfold wpx, pbind, pcatch, pthrow. destruct (m1 p) as [a q| | |]; auto. destruct (m2 a q) as [b q'| | |]; auto. destruct (f a b q'); auto. Qed.
Lemma bad_if n c ts : BadIf n c ts -> Bad n c (Kw KIf :: ts).
Proof.
  intros R. split; [left; head1|]. intros toks L p l N H. cbn [app] in H. apply wpx_PS. unfold parse_statement_body. next_here L. do 8 px1 L. unfold parse_if.
  apply (bind3 (parse_condition toks (PE toks)) (fun _ => parse_statement_extract_block (PS toks)) (fun c b => if_arms toks (PE toks) (PS toks) (lf toks) [St (SIf c (fst b) []) (mk_span (sp_start (sp_at toks p)) (sp_end (snd b)))])).
  eapply wpx_mono; [apply (R toks L _ l N HS (lf toks) [])| |auto].
  - destruct HS as [HL _]. rewrite app_length in HL. unfold lf. lia.
  - intros ? ? [].
Qed.
(** ** Blocks *)
Lemma bad_follow n c u l : Bad n c u -> ahead n l -> stm_end (u ++ l).
Proof.
  intros [[S|(-> & -> & A)] _] N.
  - destruct (starts_app u l S) as (t' & r & -> & H). apply starts_end in H. exact H.
  - cbn [app]. apply (tok_weak strays); [reflexivity|]. eapply among_hd; eauto.
Qed.
Definition caught {A} (c : bool) (toks : list tokspan) (l : list token) : A * option perror -> nat -> Prop := fun r q =>
  (exists e, snd r = Some e /\ stop c toks l e q) \/ (snd r = None /\ here toks q l /\ l = [] /\ c = true).
Lemma inner_bad n c tss ss u : Forall2 Stm tss ss -> Bad n c u -> forall toks, late2 toks -> forall m acc p l, ahead n l -> here toks p (List.concat tss ++ u ++ l) ->
  List.length tss < m -> wpx (inner_statements toks (PS toks) m acc) p (caught c toks l) nofail.
Proof.
  intros F U. induction F as [|ts s tss ss S F IH]; intros toks L m acc p l N H M; (destruct m as [|m]; [cbn in M; lia|]); cbn [inner_statements]; px1 L; px1 L.
  - cbn [List.concat app] in H. destruct (Nat.ltb_spec p (List.length toks)) as [X|X]; px1 L.
    + use_no (proj2 U toks L p l N H). intros e q A. px1 L. left. exists e. auto.
    + right. destruct U as [[S|(-> & -> & A)] _].
      * destruct (starts_app u l S) as (t & r & E & _). rewrite E in H. apply here_lt in H. lia.
      * cbn [app] in H. split; [reflexivity|]. split; [exact H|]. split; [|reflexivity]. destruct l; [reflexivity|]. apply here_lt in H. lia.
  - cbn [List.concat] in H. rewrite <- app_assoc in H. destruct S as [S K].
    assert (SF : stm_end (List.concat tss ++ u ++ l)).
    { destruct F as [|ts' s' tss' ss' [S' _] _]; [exact (bad_follow n c u l U N)|]. cbn [List.concat]. rewrite <- app_assoc.
      destruct (starts_app ts' (List.concat tss' ++ u ++ l) S') as (t' & r & -> & H'). apply starts_end in H'. exact H'. }
    destruct (starts_app ts (List.concat tss ++ u ++ l) S) as (t' & r & X & _). rewrite X in H. pose proof (here_lt _ _ _ _ H) as Y. rewrite <- X in H.
    destruct (Nat.ltb_spec p (List.length toks)) as [_|Z]; [|lia]. px1 L. eapply wpx_use; [exact (K toks L p _ H SF)|]. intros a q (A1 & A2 & A3). cbv beta.
    apply (IH toks L m (acc ++ [a]) q l N A1). cbn in M. lia.
Qed.
Lemma inner_list n c tss ss u toks p l : Forall2 Stm tss ss -> Bad n c u -> late2 toks -> toks <> [] -> ahead n l -> here toks p (List.concat tss ++ u ++ l) ->
  wpx (parse_inner_statement_list toks (PS toks)) p (caught c toks l) nofail.
Proof.
  intros F U L NE N H. unfold parse_inner_statement_list. destruct toks; [contradiction|]. eapply inner_bad; eauto.
  pose proof (stms_len tss ss F). assert (HL := proj1 H). rewrite !app_length in HL. unfold lf. lia.
Qed.
Lemma close_stops {A B} n c toks q l (r : A * option perror) (k : span -> P B) : late2 toks -> ahead n l -> except [KCurlyBracesClose] n -> caught c toks l r q ->
  wpx (sp2 <~ expect_or toks KCurlyBracesClose (snd r) ;; k sp2) q no (stop c toks l).
Proof.
  intros L N X C. assert (C2 := except_hd _ n l X N). unfold expect_or. destruct C as [(e & -> & E1 & E2)|(-> & H & -> & ->)].
  - destruct c.
    + subst q. kx L. split; auto.
    + destruct E2 as (l' & E2 & E3). kx L. split; eauto.
  - kx L. fin.
Qed.
Lemma inner_stops {B} n c tss ss u toks p l (k : list stmt * option perror -> span -> P B) : Forall2 Stm tss ss -> Bad n c u -> late2 toks -> toks <> [] -> ahead n l ->
  here toks p (List.concat tss ++ u ++ l) -> except [KCurlyBracesClose] n ->
  wpx (b <~ parse_inner_statement_list toks (PS toks) ;; sp2 <~ expect_or toks KCurlyBracesClose (snd b) ;; k b sp2) p no (stop c toks l).
Proof.
  intros F U L NE N H X. px1 L. eapply wpx_use; [exact (inner_list n c tss ss u toks p l F U L NE N H)|]. intros r q C. apply (close_stops n c toks q l r (k r)); auto.
Qed.
Lemma here_ne toks p t l : here toks p (t :: l) -> toks <> [].
Proof. intros H ->. apply here_lt in H. cbn in H. lia. Qed.
Definition BadB (n : option token) (c : bool) (ts : list token) : Prop := forall toks, late2 toks -> toks <> [] -> forall p l, ahead n l -> here toks p (ts ++ l) ->
  forall B (k : list stmt * option perror -> span -> P B),
  wpx (expect toks KCurlyBracesOpen ;~ b <~ parse_inner_statement_list toks (PS toks) ;; sp2 <~ expect_or toks KCurlyBracesClose (snd b) ;; k b sp2) p no (stop c toks l).
Lemma braces_open n : except [KCurlyBracesOpen] n -> BadB n true [].
Proof. intros X toks L NE p l N H B k. assert (C := except_hd _ n l X N). cbn [app] in H. kx L. fin. Qed.
Lemma braces_in n c tss ss u : Forall2 Stm tss ss -> Bad n c u -> except [KCurlyBracesClose] n -> BadB n c (Kw KCurlyBracesOpen :: List.concat tss ++ u).
Proof.
  intros F U X toks L NE p l N H B k. cbn [app] in H. rewrite <- app_assoc in H. next_here L. px1 L. px1 L. eapply inner_stops; eauto.
Qed.
Lemma badb_braced n c u toks p l : BadB n c u -> late2 toks -> toks <> [] -> ahead n l -> here toks p (u ++ l) -> wpx (parse_braced toks (PS toks)) p no (stop c toks l).
Proof. intros B L NE N H. exact (B toks L NE p l N H _ (fun b sp => pret (fst b, sp))). Qed.
Lemma bad_block n c tss ss u : Forall2 Stm tss ss -> Bad n c u -> except [KCurlyBracesClose] n -> Bad n c (Kw KCurlyBracesOpen :: List.concat tss ++ u).
Proof.
  intros F U X. split; [left; head1|]. intros toks L p l N H. cbn [app] in H. rewrite <- app_assoc in H. assert (NE := here_ne _ _ _ _ H). apply wpx_PS. unfold parse_statement_body. next_here L. px1 L. px1 L.
  apply (inner_stops n c tss ss u toks _ l (fun b sp2 => pret (St (SBlock (fst b)) (mk_span (sp_start (sp_at toks p)) (sp_end sp2))))); auto.
Qed.
(** ** try *)
Lemma bad_try n c u : BadB n c u -> Bad n c (Kw KTry :: u).
Proof.
  intros B. split; [left; head1|]. intros toks L p l N H. assert (NE := here_ne _ _ _ _ H). cbn [app] in H. apply wpx_PS. unfold parse_statement_body, parse_try. kx L.
  use_no (badb_braced n c u toks _ l B L NE N HS). auto.
Qed.
Definition BadC (n : option token) (c : bool) (ts : list token) : Prop := forall toks, late2 toks -> toks <> [] -> forall p l, ahead n l -> here toks p (ts ++ l) ->
  forall B (k : path -> str -> list stmt * span -> P B),
  wpx (expect toks KParenthesesOpen ;~ t <~ parse_name toks ;; v <~ expect_var toks ;; expect toks KParenthesesClose ;~ b <~ parse_braced toks (PS toks) ;; k (fst t) v b) p no (stop c toks l).
Lemma nvar_hd n l : no_var_next n -> ahead n l -> hd_ok (fun t => match t with TVariable _ => false | _ => true end) l.
Proof. intros A <-. destruct l as [|[] l]; cbn in *; auto. Qed.
Lemma nstr_hd n l : no_name_next n -> ahead n l -> hd_ok (fun t => match t with TString _ => false | _ => true end) l.
Proof. intros A <-. destruct l as [|[] l]; cbn in *; auto. Qed.
Lemma catch_open n : except [KParenthesesOpen] n -> BadC n true [].
Proof. intros X toks L NE p l N H B k. assert (C := except_hd _ n l X N). cbn [app] in H. kx L. fin. Qed.
Lemma nname_hd n l : no_name_next n -> except [KNsSeparator] n -> ahead n l -> hd_ok no_name l.
Proof. intros A B N. assert (C := nstr_hd n l A N). assert (D := except_hd _ n l B N). destruct l as [|t l]; cbn in *; auto. destruct t as [[]| | | | | | | |]; auto; discriminate. Qed.
Lemma catch_name n : no_name_next n -> except [KNsSeparator] n -> BadC n true [Kw KParenthesesOpen].
Proof.
  intros X Y toks L NE p l N H B k. assert (C := nname_hd n l X Y N). cbn [app] in H. kx L. halt (name_halts toks L _ l HS C). fin.
Qed.
Lemma catch_var n abs fs : fs <> [] -> no_var_next n -> except [KNsSeparator] n -> BadC n true (Kw KParenthesesOpen :: path_toks abs fs).
Proof.
  intros NF X Y toks L NE p l N H B k. assert (C := nvar_hd n l X N). assert (C2 := except_hd _ n l Y N). cbn [app] in H. kx L.
  eapply wpx_use; [apply (name_run toks L abs fs _ _ NF HS); weak1 C2|]. intros r q (A1 & A2 & A3 & A4). unfold expect_var. kx L. fin.
Qed.
Lemma catch_close n abs fs v : fs <> [] -> except [KParenthesesClose] n -> BadC n true (Kw KParenthesesOpen :: path_toks abs fs ++ [TVariable v]).
Proof.
  intros NF X toks L NE p l N H B k. assert (C2 := except_hd _ n l X N). apps H. kx L.
  eapply wpx_use; [apply (name_run toks L abs fs _ _ NF HS); reflexivity|]. intros r q (A1 & A2 & A3 & A4). unfold expect_var. kx L. fin.
Qed.
Lemma catch_body n c abs fs v u : fs <> [] -> BadB n c u -> BadC n c (cond_toks (path_toks abs fs ++ [TVariable v]) ++ u).
Proof.
  intros NF U toks L NE p l N H B k. rewrite <- app_assoc, cond_app in H. apps H. kx L.
  eapply wpx_use; [apply (name_run toks L abs fs _ _ NF HS); reflexivity|]. intros r q (A1 & A2 & A3 & A4). unfold expect_var. kx L.
  use_no (badb_braced n c u toks _ l U L NE N HS1). auto.
Qed.
Lemma catches_bad n c tss cs u : Forall2 Catch tss cs -> BadC n c u -> forall toks, late2 toks -> toks <> [] -> forall m acc p l, ahead n l -> here toks p (List.concat tss ++ Kw KCatch :: u ++ l) ->
  List.length tss < m -> wpx (catch_clauses toks (PS toks) m acc) p no (stop c toks l).
Proof.
  intros F U. induction F as [|ts x tss cs S F IH]; intros toks L NE m acc p l N H M; (destruct m as [|m]; [cbn in M; lia|]); cbn [catch_clauses].
  - cbn [List.concat app] in H. next_here L. px1 L. apply (U toks L NE _ l N HS _ (fun t v b => catch_clauses toks (PS toks) m (acc ++ [mkCatch t v (fst b)]))).
  - destruct S as (abs & fs & v & tb & b & -> & NF & B & ->). cbn [List.concat] in H. rewrite <- app_assoc in H. cbn [app] in H. rewrite app_cons_assoc in H. cbn [app] in H. kx L.
    eapply wpx_use; [apply (name_run toks L abs fs _ _ NF HS0); reflexivity|]. intros r q (A1 & A2 & A3 & A4). kx L. unfold expect_var. kx L.
    eapply wpx_use; [exact (braced_run tb b toks _ _ B L HS2)|]. intros r' q' (B1 & B2 & B3). cbv beta.
    apply (IH toks L NE m _ q' l N B1). cbn in M. lia.
Qed.
Lemma bad_catch n c tb b tss cs u : Braced tb b -> Forall2 Catch tss cs -> BadC n c u -> Bad n c (Kw KTry :: tb ++ List.concat tss ++ Kw KCatch :: u).
Proof.
  intros B F U. split; [left; head1|]. intros toks L p l N H. assert (NE := here_ne _ _ _ _ H). apps H. apply wpx_PS. unfold parse_statement_body, parse_try. kx L.
  eapply wpx_use; [exact (braced_run tb b toks _ _ B L HS)|]. intros r q (A1 & A2 & A3). kx L. eapply wpx_mono; [apply (catches_bad n c tss cs u F U toks L NE (lf toks) [] q l N A1)|intros ? ? []|auto].
  pose proof (catches_len tss cs F). assert (HL := proj1 A1). rewrite !app_length in HL. unfold lf. lia.
Qed.
Lemma bad_finally n c tb b tss cs u : Braced tb b -> Forall2 Catch tss cs -> BadB n c u -> Bad n c (Kw KTry :: tb ++ List.concat tss ++ Kw KFinally :: u).
Proof.
  intros B F U. split; [left; head1|]. intros toks L p l N H. assert (NE := here_ne _ _ _ _ H). apps H. apply wpx_PS. unfold parse_statement_body, parse_try. kx L.
  eapply wpx_use; [exact (braced_run tb b toks _ _ B L HS)|]. intros r q (A1 & A2 & A3). kx L.
  eapply wpx_use; [apply (catches_run tss cs F toks L (lf toks) [] [] q _ A1); [reflexivity| |reflexivity]|].
  - pose proof (catches_len tss cs F). assert (HL := proj1 A1). rewrite !app_length in HL. unfold lf. lia.
  - intros cs' q' (B1 & B2 & B3). kx L. use_no (badb_braced n c u toks _ l U L NE N HS0). auto.
Qed.

(** ** switch *)
Lemma inner_to n tss ss toks p l : Forall2 Stm tss ss -> late2 toks -> toks <> [] -> here toks p (List.concat tss ++ l) ->
  ((exists t r, l = t :: r /\ list_end t = true) \/ (among strays n /\ ahead n l)) ->
  wpx (parse_inner_statement_list toks (PS toks)) p (fun _ q => here toks q l) nofail.
Proof.
  intros F L NE H [(t & r & -> & T)|[A N]].
  - eapply wpx_use; [exact (inner_run tss ss toks p t r F L H T)|]. intros x q (X & _). exact X.
  - eapply wpx_use; [exact (inner_list n true tss ss [] toks p l F (bad_here n A) L NE N H)|]. intros x q [(e & _ & X1 & X2)|(_ & X & _)]; [subst q|]; auto.
Qed.
Definition label_end k := k = KColon \/ k = KSemiColon.
Lemma label_end_run toks k q l : late2 toks -> label_end k -> here toks q (Kw k :: l) ->
  wpx (look toks KColon (fun _ => pret tt) (look toks KSemiColon (fun _ => pret tt) (perr [Kw KColon; Kw KSemiColon]))) q (fun _ q' => here toks q' l) nofail.
Proof. intros L [-> | ->] H; px L; assumption. Qed.
Definition open_q {A} (toks : list tokspan) (l : list token) : A -> nat -> Prop := fun _ q => here toks q l /\ hd_ok (fun t => negb (tok_in [KCurlyBracesClose] t)) l.
Definition BadL (n : option token) (u : list token) : Prop :=
  (forall l, ahead n l -> (exists t r, u ++ l = t :: r /\ list_end t = true) \/ (among strays n /\ u = [])) /\
  forall toks, late2 toks -> toks <> [] -> forall m cases conds p l, ahead n l -> here toks p (u ++ l) ->
  wpx (switch_cases toks (PE toks) (PS toks) (S (S m)) cases conds) p (open_q toks l) (stop true toks l).
Lemma sw_out toks m cases conds q l : late2 toks -> here toks q l -> hd_ok (fun t => negb (tok_in [KCase; KDefault; KCurlyBracesClose] t)) l ->
  wpx (switch_cases toks (PE toks) (PS toks) (S m) cases conds) q (open_q toks l) nofail.
Proof. intros L H C. cbn [switch_cases]. kx L. split; [assumption|weak1 C]. Qed.
Lemma label_none n : except [KCase; KDefault; KCurlyBracesClose] n -> among strays n -> BadL n [].
Proof.
  intros X A. split; [auto|]. intros toks L NE m cases conds p l N H. assert (C := except_hd _ n l X N). eapply wpx_use; [exact (sw_out toks _ cases conds p l L H C)|]. auto.
Qed.
Lemma label_case n : lacks_expression n -> BadL n [Kw KCase].
Proof.
  intros X. split; [left; cbn; eauto|]. intros toks L NE m cases conds p l N H. assert (C := lacks_hd n l X N). cbn [app] in H. remember (S m) as m'. cbn [switch_cases]. cbv zeta. kx L.
  halt (pe_halts toks L PrNone _ l HS C). fin.
Qed.
Lemma label_case_colon n te e : Full te e -> ends_without n [KColon; KSemiColon] -> BadL n (Kw KCase :: te).
Proof.
  intros F X. split; [left; cbn; eauto|]. intros toks L NE m cases conds p l N H. destruct (ends_hd n _ l X N) as [C1 C2]. cbn [app] in H. remember (S m) as m'. cbn [switch_cases]. cbv zeta. kx L.
  eapply wpx_use; [apply (F toks L _ _ HS C1)|]. intros r q (A1 & A2 & A3). kx L. fin.
Qed.
Lemma label_default n : except [KColon; KSemiColon] n -> BadL n [Kw KDefault].
Proof.
  intros X. split; [left; cbn; eauto|]. intros toks L NE m cases conds p l N H. assert (C := except_hd _ n l X N). cbn [app] in H. remember (S m) as m'. cbn [switch_cases]. cbv zeta. kx L. fin.
Qed.
Lemma label_in n tss ss u toks m cases conds q l k (f : list stmt -> list swcase * list expr) : Forall2 Stm tss ss -> Bad n true u -> late2 toks -> toks <> [] -> ahead n l ->
  except [KCase; KDefault; KCurlyBracesClose] n -> label_end k -> here toks q (Kw k :: List.concat tss ++ u ++ l) ->
  wpx (look toks KColon (fun _ => pret tt) (look toks KSemiColon (fun _ => pret tt) (perr [Kw KColon; Kw KSemiColon])) ;~
      b <~ parse_inner_statement_list toks (PS toks) ;;
      match fst b with
      | [] => switch_cases toks (PE toks) (PS toks) (S m) cases conds
      | bl => switch_cases toks (PE toks) (PS toks) (S m) (fst (f bl)) (snd (f bl))
      end) q (open_q toks l) (stop true toks l).
Proof.
  intros F U L NE N X K H. assert (C := except_hd _ n l X N). px1 L. eapply wpx_use; [exact (label_end_run toks k q _ L K H)|]. intros tt0 q' H'. px1 L.
  eapply wpx_use; [exact (inner_list n true tss ss u toks q' l F U L NE N H')|]. intros b q2 C2.
  assert (HQ : here toks q2 l) by (destruct C2 as [(e & _ & X1 & X2)|(_ & Y & _)]; [subst q2|]; auto).
  destruct (fst b); (eapply wpx_use; [eapply sw_out; eauto|]); auto.
Qed.
Lemma label_case_in n te e k tss ss u : Full te e -> label_end k -> Forall2 Stm tss ss -> Bad n true u -> except [KCase; KDefault; KCurlyBracesClose] n ->
  BadL n (Kw KCase :: te ++ Kw k :: List.concat tss ++ u).
Proof.
  intros FE K F U X. split; [left; cbn; eauto|]. intros toks L NE m cases conds p l N H. apps H. remember (S m) as m'. cbn [switch_cases]. cbv zeta. kx L.
  eapply wpx_use; [apply (FE toks L _ _ HS); destruct K as [-> | ->]; reflexivity|]. intros a q (A1 & A2 & A3 & A4). cbv beta. subst m'.
  apply (label_in n tss ss u toks m cases _ q l k (fun bl => (cases ++ [mkCase (conds ++ [a]) false bl], []))); auto.
Qed.
Lemma label_default_in n k tss ss u : label_end k -> Forall2 Stm tss ss -> Bad n true u -> except [KCase; KDefault; KCurlyBracesClose] n ->
  BadL n (Kw KDefault :: Kw k :: List.concat tss ++ u).
Proof.
  intros K F U X. split; [left; cbn; eauto|]. intros toks L NE m cases conds p l N H. apps H. remember (S m) as m'. cbn [switch_cases]. cbv zeta. next_here L. px1 L. px1 L. subst m'.
  apply (label_in n tss ss u toks m cases conds _ l k (fun bl => (cases ++ [mkCase conds true bl], []))); auto.
Qed.
Lemma labels_bad n tss xs u : Forall2 Item tss xs -> BadL n u -> forall toks, late2 toks -> toks <> [] -> forall m cases conds p l, ahead n l -> here toks p (List.concat tss ++ u ++ l) ->
  S (List.length tss) < m -> wpx (switch_cases toks (PE toks) (PS toks) m cases conds) p (open_q toks l) (stop true toks l).
Proof.
  intros F U. induction F as [|ts x tss xs IT F IH]; intros toks L NE m cases conds p l N H M.
  - cbn in M. destruct m as [|[|m]]; [lia|lia|]. apply (proj2 U); auto.
  - destruct m as [|m]; [lia|]. cbn [List.concat] in H. rewrite <- app_assoc in H. cbn [List.length] in M.
    assert (NX : (exists t r, List.concat tss ++ u ++ l = t :: r /\ list_end t = true) \/ (among strays n /\ ahead n (List.concat tss ++ u ++ l))).
    { destruct F as [|ts2 x2 tss xs I2 F2].
      - cbn [List.concat app]. destruct (proj1 U l N) as [V|[V ->]]; auto.
      - left. cbn [List.concat]. rewrite <- app_assoc. eapply item_end; eauto. }
    destruct IT as (tl_ & stss & -> & SF & X). rewrite <- app_assoc in H. cbn [switch_cases]. cbv zeta.
    destruct (fst x) as [e|].
    + destruct X as (te & k & K & -> & FE). apps H. kx L. eapply wpx_use; [apply (FE toks L _ _ HS); destruct K as [-> | ->]; reflexivity|]. intros a q (A1 & A2 & A3 & A4). cbv beta.
      px1 L. eapply wpx_use; [exact (label_end_run toks k q _ L K A1)|]. intros tt0 q' H'. px1 L. eapply wpx_use; [exact (inner_to n stss _ toks q' _ SF L NE H' NX)|].
      intros b q2 HQ. destruct (fst b); apply (IH toks L NE); auto; lia.
    + destruct X as (k & K & ->). cbn [app] in H. next_here L. px1 L. px1 L.
      px1 L. eapply wpx_use; [exact (label_end_run toks k _ _ L K HS)|]. intros tt0 q' H'. px1 L. eapply wpx_use; [exact (inner_to n stss _ toks q' _ SF L NE H' NX)|].
      intros b q2 HQ. destruct (fst b); apply (IH toks L NE); auto; lia.
Qed.
Lemma bad_switch_open n te e : Full te e -> except [KCurlyBracesOpen] n -> Bad n true (Kw KSwitch :: cond_toks te).
Proof.
  intros F X. split; [left; head1|]. intros toks L p l N H. assert (C := except_hd _ n l X N). cbn [app] in H. rewrite cond_app in H.
  apply wpx_PS. unfold parse_statement_body, parse_switch. kx L. eapply wpx_use; [apply (F toks L _ _ HS0); reflexivity|]. intros a q (A1 & A2 & A3 & A4). kx L. fin.
Qed.
Lemma bad_switch n te e tss xs u : Full te e -> Forall2 Item tss xs -> BadL n u ->
  Bad n true (Kw KSwitch :: cond_toks te ++ Kw KCurlyBracesOpen :: List.concat tss ++ u).
Proof.
  intros F I U. split; [left; head1|]. intros toks L p l N H. assert (NE := here_ne _ _ _ _ H). cbn [app] in H. rewrite <- app_assoc in H. rewrite cond_app in H. apps H.
  apply wpx_PS. unfold parse_statement_body, parse_switch. kx L. eapply wpx_use; [apply (F toks L _ _ HS0); reflexivity|]. intros a q (A1 & A2 & A3 & A4). kx L.
  pose proof (items_len2 tss xs I) as M. assert (HL := proj1 HS2). rewrite app_length in HL.
  eapply wpx_mono; [apply (labels_bad n tss xs u I U toks L NE (lf toks) [] [] _ l N HS2); unfold lf; lia| |auto]. intros r q' [HQ C]. cbv beta. kx L. fin.
Qed.

(** ** Functions *)
Lemma deep_keep e e' : err_pos e' <= err_pos e -> deep_upd (Some (err_pos e, e)) e' = Some (err_pos e, e).
Proof. intros H. unfold deep_upd. destruct (Nat.ltb_spec (err_pos e) (err_pos e')); [lia|reflexivity]. Qed.
(** the parser tries a closure where a function has failed *)
Lemma closure_halts toks p l r : late2 toks -> here toks p (Kw KFunction :: flag r KAmpersand ++ l) -> hd_ok (fun t => negb (tok_in [KAmpersand; KParenthesesOpen] t)) l ->
  wpx (PE toks PrNone) p no (fun e q => here toks q l /\ err_pos e = q).
Proof.
  intros L H C. apply wpx_head. eapply head_post; eauto. unfold parse_postfix_expression. hx1 L. unfold parse_other_expression. kx L. unfold parse_function_declaration, parse_is_ref. px1 L.
  eapply wpx_use; [apply (flag_run r KAmpersand toks _ _ L HS); weak1 C|]. intros r' q (A1 & A2 & A3). kx L. auto.
Qed.
Lemma here_le toks p q l l' : here toks p l -> here toks q l' -> List.length l <= List.length l' -> q <= p.
Proof. intros [A _] [B _] H. lia. Qed.
Lemma function_fails toks p l l0 c r : late2 toks -> here toks p (Kw KFunction :: flag r KAmpersand ++ l0) -> hd_ok (fun t => negb (tok_in [KAmpersand; KParenthesesOpen] t)) l0 ->
  List.length l <= List.length l0 -> (if c : bool then l0 = l else exists x l', l0 = TString x :: l') ->
  (forall sp, wpx (parse_function_declaration toks (PE toks) (PS toks) sp false false) (S p) no (fun e q => here toks (err_pos e) l)) ->
  wpx (PS toks) p no (stop c toks l).
Proof.
  intros L H C LE CC K. assert (H' := H). apply wpx_PS. unfold parse_statement_body, look_restore. kx L. use_no (K (sp_at toks p)). intros e q E. cbv beta in E. kx1 L. kx1 L. kx1 L. clear HS.
  assert (P0 : forall x, x <= p -> x <= err_pos e).
  { intros x X. destruct E as [E _], H as [H _]. cbn in H. rewrite app_length in H. lia. }
  use_no (oo_halts toks L p _ H' eq_refl). intros e0 q0 [-> E0]. unfold parse_other_stmt. hx1 L. hx1 L. cbn [simple_stmt]. hx1 L. hx1 L. cbv beta. unfold parse_expr_stmt. hx1 L.
  use_no (closure_halts toks p l0 r L H' C). intros e1 q1 [E1 E2].
  change (deep_upd None e) with (Some (err_pos e, e)). rewrite (deep_keep e e0), (deep_keep e), (deep_keep e); [| |cbn; apply P0; lia|apply P0; lia].
  - unfold deepest_unpack. cbn. split; [exact E|]. destruct c; [subst l0; destruct E as [E _], E1 as [E1 _]; lia|]. destruct CC as (x & l' & ->). exists (TString x :: l'). split; [exact E1|reflexivity].
  - eapply here_le; [exact E| |exact LE]. rewrite E2. exact E1.
Qed.
Definition BadF (n : option token) (abstract c : bool) (ts : list token) : Prop := forall toks, late2 toks -> toks <> [] -> forall r x p l sp, ahead n l -> here toks p (flag r KAmpersand ++ TString x :: ts ++ l) ->
  wpx (parse_function_declaration toks (PE toks) (PS toks) sp false abstract) p no (stop c toks l).
Ltac fstart L := unfold parse_function_declaration, parse_is_ref; px1 L; eapply wpx_use; [eapply flag_run; [exact L|eassumption|reflexivity]|]; intros ?r ?q (?B1 & ?B2 & ?B3); unfold expect_string.
Lemma fun_open n a : except [KParenthesesOpen] n -> BadF n a true [].
Proof. intros X toks L NE r x p l sp N H. assert (C := except_hd _ n l X N). cbn [app] in H. fstart L. kx L. fin. Qed.
Lemma fun_param n a : lacks_expression n -> except [KParenthesesClose; KQuestionMark; KCallable; KAmpersand; KEllipsis] n -> BadF n a true [Kw KParenthesesOpen].
Proof.
  intros X Y toks L NE r x p l sp N H. assert (C := lacks_hd n l X N). assert (C2 := except_hd _ n l Y N). cbn [app] in H. fstart L. next_here L. do 6 kx1 L. kx1 L. 
  unfold parse_parameter_list, lf. cbn [parameter_list]. unfold parse_param_type. kx L. assert (C3 : hd_ok no_name l) by weak1 C. halt (name_halts toks L _ l HS0 C3). unfold parse_is_ref, parse_is_variadic. kx L. cbn [snd]. kx L. fin.
Qed.
Lemma fun_body n a c tss ps u : Forall2 Param tss ps -> BadB n c u -> (a = true -> forall l, ahead n l -> hd_ok (fun t => negb (tok_in [KSemiColon] t)) (u ++ l)) -> BadF n a c (cond_toks (commas tss) ++ u).
Proof.
  intros F U X toks L NE r x p l sp N H. rewrite <- app_assoc, cond_app in H. fstart L. next_here L. do 6 kx1 L. kx1 L.
  unfold parse_parameter_list. assert (PEND : params_end (Kw KParenthesesClose :: u ++ l)) by (eexists; reflexivity). px1 L.
  eapply wpx_use; [apply (params_run tss ps F toks L (lf toks) [] [] _ _ HS0 PEND); auto; eapply params_len; eauto|].
  intros pr q2 (D1 & D2 & D3). next_here L. do 6 px1 L.
  assert (Y : wpx (if a then look toks KSemiColon (fun _ => pret true) (pret false) else pret false) (S q2) (fun r q' => q' = S q2 /\ r = false) nofail).
  { destruct a; [|px L; auto]. specialize (X eq_refl l N). px L. auto. }
  eapply wpx_use; [exact Y|]. intros r1 q4 (-> & ->). cbv beta. px1 L. eapply wpx_mono; [apply (U toks L NE _ l N HS1 _ (fun b _ => pret (Some (fst b))))|intros ? ? []|auto].
Qed.
Lemma bad_function n r x c ts : BadF n false c ts -> Bad n false (Kw KFunction :: flag r KAmpersand ++ TString x :: ts).
Proof.
  intros B. split; [left; head1|]. intros toks L p l N H. assert (NE := here_ne _ _ _ _ H). apps H. eapply function_fails; [exact L|exact H|reflexivity| |eauto|].
  - cbn [List.length]. rewrite app_length. lia.
  - intros sp. destruct (here_cons toks L p _ _ H) as (_ & HS & _). use_no (B toks L NE r x _ l sp N HS). intros e q [E _]. exact E.
Qed.
Lemma bad_function_name n r : no_name_next n -> except [KAmpersand; KParenthesesOpen] n -> Bad n true (Kw KFunction :: flag r KAmpersand).
Proof.
  intros X Y. split; [left; head1|]. intros toks L p l N H. assert (C := nstr_hd n l X N). assert (C2 := except_hd _ n l Y N). cbn [app] in H.
  eapply (function_fails toks p l l true r); [exact L|exact H|exact C2|lia|reflexivity|].
  intros sp. destruct (here_cons toks L p _ _ H) as (_ & HS & _). unfold parse_function_declaration, parse_is_ref. px1 L.
  eapply wpx_use; [apply (flag_run r KAmpersand toks _ _ L HS); weak1 C2|]. intros r' q (A1 & A2 & A3). unfold expect_string. kx L. assumption.
Qed.

(** ** Global variables *)
Lemma global_fails toks p l ts : late2 toks -> here toks p (Kw KGlobal :: ts ++ l) ->
  (forall sp, wpx (parse_global_var_decl toks sp) (S p) no (fun e q => here toks (err_pos e) l)) -> wpx (PS toks) p no (stop false toks l).
Proof.
  intros L H K. assert (H' := H). apply wpx_PS. unfold parse_statement_body, look_restore. kx L. use_no (K (sp_at toks p)). intros e q E. cbv beta in E. kx1 L. kx1 L. kx1 L. clear HS.
  assert (P0 : forall x, x <= p -> x <= err_pos e).
  { intros x X. destruct E as [E _], H as [H _]. cbn in H. rewrite app_length in H. lia. }
  kx L. use_no (oo_halts toks L p _ H' eq_refl). intros e0 q0 [-> E0]. unfold parse_other_stmt. hx1 L. hx1 L. cbn [simple_stmt]. hx1 L. hx1 L. cbv beta. unfold parse_expr_stmt. hx1 L.
  use_no (pe_halts toks L PrNone p _ H' eq_refl). intros e1 q1 [-> E1].
  change (deep_upd None e) with (Some (err_pos e, e)). rewrite (deep_keep e e0), (deep_keep e), (deep_keep e); [|apply P0; lia|cbn; apply P0; lia|apply P0; lia].
  unfold deepest_unpack. cbn. split; [exact E|]. exists (Kw KGlobal :: ts ++ l). split; [exact H'|reflexivity].
Qed.
Definition GlbE (n : option token) (ts : list token) : Prop := forall toks, late2 toks -> forall f acc p l, ahead n l -> here toks p (ts ++ l) -> List.length ts < f ->
  wpx (global_vars toks f acc) p (fun _ q => here toks q l /\ hd_ok (fun t => negb (tok_in [KSemiColon] t)) l) (fun e q => here toks (err_pos e) l).
Lemma glb_none n : no_var_next n -> except [KDollar] n -> GlbE n [].
Proof.
  intros X Y toks L f acc p l N H K. destruct f as [|f]; [cbn in K; lia|]. assert (C := nvar_hd n l X N). assert (C2 := except_hd _ n l Y N). cbn [app] in H. cbn [global_vars].
  unfold parse_simple_variable. kx L. assumption.
Qed.
Lemma glb_end n x : except [KComma; KSemiColon] n -> GlbE n [TVariable x].
Proof.
  intros X toks L f acc p l N H K. destruct f as [|f]; [cbn in K; lia|]. assert (C := except_hd _ n l X N). cbn [app] in H. cbn [global_vars].
  unfold parse_simple_variable. kx L. split; [assumption|weak1 C].
Qed.
Lemma glb_more n x ts : GlbE n ts -> GlbE n (TVariable x :: Kw KComma :: ts).
Proof.
  intros F toks L f acc p l N H K. destruct f as [|f]; [cbn in K; lia|]. cbn [app] in H. cbn [List.length] in K. cbn [global_vars].
  unfold parse_simple_variable. kx L. apply (F toks L f _ _ l N HS0). lia.
Qed.
Lemma bad_global n ts : GlbE n ts -> Bad n false (Kw KGlobal :: ts).
Proof.
  intros F. split; [left; head1|]. intros toks L p l N H. cbn [app] in H. apply (global_fails toks p l ts L H). intros sp. destruct (here_cons toks L p _ _ H) as (_ & HS & _).
  unfold parse_global_var_decl. kx1 L. eapply wpx_mono; [apply (F toks L (lf toks) [] _ l N HS); destruct HS as [Z _]; rewrite app_length in Z; unfold lf; lia| |auto].
  intros r q (A1 & A2). kx L. assumption.
Qed.

(** ** Classes *)
Definition BadM (n : option token) (ts : list token) : Prop := forall toks, late2 toks -> toks <> [] -> forall p l, ahead n l -> here toks p (ts ++ l) ->
  wpx (parse_class_statement toks (PE toks) (PS toks)) p no (stop true toks l).
Definition member_words : list kind := [KVar; KUse; KFunction; KConst; KPublic; KProtected; KPrivate; KStatic; KAbstract; KFinal].
Lemma mods_novar' mm l : hd_ok (fun t => negb (tok_in [KVar] t)) l -> hd_ok (fun t => negb (tok_in [KVar] t)) (mods_toks mm ++ l).
Proof. intros H. destruct mm as [|m mm]; cbn [mods_toks map app]; [exact H|]. destruct m; reflexivity. Qed.
Lemma member_none n mm : no_var_next n -> except member_words n -> BadM n (mods_toks mm).
Proof.
  intros X Y toks L NE p l N H. assert (C := nvar_hd n l X N). assert (C2 := except_hd _ n l Y N). unfold parse_class_statement, parse_member_modifiers. cbv zeta.
  assert (V : hd_ok (fun t => negb (tok_in [KVar] t)) l) by weak1 C2. apply (mods_novar' mm) in V. pose proof (mm_lt mm toks p _ H) as M. px1 L. px1 L.
  eapply wpx_use; [apply (mods_run mm toks L (lf toks) [] p _ H); [weak1 C2|exact M]|]. intros r' q (A1 & A2 & ->). do 3 px1 L. unfold lf. cbn [class_props]. unfold expect_var. kx L. fin.
Qed.
Lemma member_vars n mm tss xs : tss <> [] -> Forall2 SVar tss xs -> ends_without n [KSemiColon; KComma] -> BadM n (mods_toks mm ++ commas tss).
Proof.
  intros NT F X toks L NE p l N H. destruct (ends_hd n _ l X N) as [C1 C2]. unfold parse_class_statement, parse_member_modifiers. cbv zeta. rewrite <- !app_assoc in H.
  destruct (svars_head tss xs l NT F) as (v & r & E). assert (V := mods_novar mm _ _ _ E eq_refl). pose proof (mm_lt mm toks p _ H) as M. rewrite E in V, H. px1 L. px1 L.
  eapply wpx_use; [apply (mods_run mm toks L (lf toks) [] p _ H); [reflexivity|exact M]|]. intros r' q (A1 & A2 & ->). do 3 px1 L. rewrite <- E in A1. px1 L.
  eapply wpx_use; [apply (props_list (member_modifiers_new ([] ++ mm)) tss xs toks _ l NT F L A1); [exact C1|weak1 C2]|]. intros r' q' (B1 & B2 & B3). kx L. fin.
Qed.
Definition ConstI (ts : list token) (x : str * expr) : Prop := exists t te, ts = t :: Kw KEqual :: te /\ Ident t (fst x) /\ Full te (snd x).
Lemma member_consts n mm tss xs : tss <> [] -> Forall2 ConstI tss xs -> ends_without n [KSemiColon; KComma] -> BadM n (mods_toks mm ++ Kw KConst :: commas tss).
Proof.
  intros NT F X toks L NE p l N H. destruct (ends_hd n _ l X N) as [C1 C2]. unfold parse_class_statement, parse_member_modifiers. cbv zeta. rewrite <- !app_assoc in H. cbn [app] in H.
  assert (V := mods_novar mm _ (Kw KConst) (commas tss ++ l) eq_refl eq_refl). pose proof (mm_lt mm toks p _ H) as M. px1 L. px1 L.
  eapply wpx_use; [apply (mods_run mm toks L (lf toks) [] p _ H); [reflexivity|exact M]|]. intros r' q (A1 & A2 & ->). next_here L. do 3 px1 L. px1 L.
  eapply wpx_use; [apply (consts_list (member_modifiers_new ([] ++ mm)) tss xs toks _ l NT F L HS); [exact C1|weak1 C2]|]. intros r' q' (B1 & B2 & B3). kx L. fin.
Qed.
Lemma member_method_name n mm r : no_name_next n -> except [KAmpersand] n -> BadM n (mods_toks mm ++ Kw KFunction :: flag r KAmpersand).
Proof.
  intros X Y toks L NE p l N H. assert (C := nstr_hd n l X N). assert (C2 := except_hd _ n l Y N). unfold parse_class_statement, parse_member_modifiers. cbv zeta. rewrite <- !app_assoc in H. cbn [app] in H.
  assert (V := mods_novar mm _ (Kw KFunction) (flag r KAmpersand ++ l) eq_refl eq_refl). pose proof (mm_lt mm toks p _ H) as M. px1 L. px1 L.
  eapply wpx_use; [apply (mods_run mm toks L (lf toks) [] p _ H); [reflexivity|exact M]|]. intros r' q (A1 & A2 & ->). next_here L. do 3 px1 L.
  unfold parse_function_declaration, parse_is_ref. px1 L. eapply wpx_use; [apply (flag_run r KAmpersand toks _ _ L HS); weak1 C2|]. intros r' q1 (B1 & B2 & B3). unfold expect_string. kx L. fin.
Qed.
Lemma member_method n mm r x ts : BadF n true true ts -> BadM n (mods_toks mm ++ Kw KFunction :: flag r KAmpersand ++ TString x :: ts).
Proof.
  intros B toks L NE p l N H. unfold parse_class_statement, parse_member_modifiers. cbv zeta. apps H.
  assert (V := mods_novar mm _ (Kw KFunction) (flag r KAmpersand ++ TString x :: ts ++ l) eq_refl eq_refl). pose proof (mm_lt mm toks p _ H) as M. px1 L. px1 L.
  eapply wpx_use; [apply (mods_run mm toks L (lf toks) [] p _ H); [reflexivity|exact M]|]. intros r' q (A1 & A2 & ->). next_here L. do 3 px1 L.
  use_no (B toks L NE r x _ l (sp_at toks q) N HS). auto.
Qed.
Lemma members_bad n tss mss u : Forall2 Mem tss mss -> BadM n u -> forall toks, late2 toks -> toks <> [] -> forall m acc p l, ahead n l -> here toks p (List.concat tss ++ u ++ l) ->
  List.length tss < m -> wpx (class_statements toks (PE toks) (PS toks) m acc) p (caught true toks l) nofail.
Proof.
  intros F U. induction F as [|ts ms tss mss M F IH]; intros toks L NE m acc p l N H K; (destruct m as [|m]; [cbn in K; lia|]); cbn [class_statements]; px1 L; px1 L.
  - cbn [List.concat app] in *. destruct (Nat.ltb_spec p (List.length toks)) as [X|X]; px1 L.
    + use_no (U toks L NE p l N H). intros e q A. px1 L. left. exists e. auto.
    + right. assert (H0 := H). destruct H as [H H']. rewrite app_length in H. destruct u; [|cbn in H; lia]. destruct l; [|cbn in H; lia]. auto.
  - cbn [List.concat] in *. rewrite <- app_assoc in H. assert (X := mem_len ts ms M).
    destruct (Nat.ltb_spec p (List.length toks)) as [_|Z]; [|destruct H as [H _]; rewrite !app_length in H; cbn in H; lia]. px1 L.
    eapply wpx_use; [exact (mem_run ts ms toks p _ M L H)|]. intros r q (A1 & A2 & A3). cbv beta. apply (IH toks L NE m (acc ++ r) q l N A1). cbn in K. lia.
Qed.
(** behind the name and the classes extended and implemented *)
Definition BadCB (n : option token) (ts : list token) : Prop := forall toks, late2 toks -> toks <> [] -> forall p l, ahead n l -> here toks p (ts ++ l) ->
  forall B (k : list member * option perror -> span -> P B),
  wpx (expect toks KCurlyBracesOpen ;~ ms <~ parse_class_statement_list toks (PE toks) (PS toks) ;; sp2 <~ expect_or toks KCurlyBracesClose (snd ms) ;; k ms sp2) p no (stop true toks l).
Lemma cb_open n : except [KCurlyBracesOpen] n -> BadCB n [].
Proof. intros X toks L NE p l N H B k. assert (C := except_hd _ n l X N). cbn [app] in H. kx L. fin. Qed.
Lemma cb_in n tss mss u : Forall2 Mem tss mss -> BadM n u -> except [KCurlyBracesClose] n -> BadCB n (Kw KCurlyBracesOpen :: List.concat tss ++ u).
Proof.
  intros F U X toks L NE p l N H B k. cbn [app] in H. rewrite <- app_assoc in H. next_here L. px1 L. px1 L. px1 L.
  assert (Y : wpx (class_statements toks (PE toks) (PS toks) (lf toks) []) (S p) (caught true toks l) nofail).
  { apply (members_bad n tss mss u F U toks L NE (lf toks) [] _ l N HS). pose proof (mems_len tss mss F). assert (HL := proj1 HS). rewrite !app_length in HL. unfold lf. lia. }
  unfold parse_class_statement_list. destruct toks as [|t0 toks']; [contradiction|]. eapply wpx_use; [exact Y|]. intros r q C. cbv beta. apply (close_stops n true (t0 :: toks') q l r (k r)); auto.
Qed.
Definition BadO (n : option token) (ot : oo_type) (ts : list token) : Prop := forall toks, late2 toks -> toks <> [] -> forall p l, ahead n l -> here toks p (ts ++ l) ->
  forall B (k : str -> option path -> list path -> list member * option perror -> span -> P B),
  wpx (name <~ expect_string toks ;;
       extends <~ match ot with OoClass => look toks KExtends (fun _ => r <~ parse_name toks ;; pret (Some (fst r))) (pret None) | _ => pret None end ;;
       implements <~ match ot with
                | OoClass => look toks KImplements (fun _ => parse_name_list toks) (pret [])
                | OoInterface => look toks KExtends (fun _ => parse_name_list toks) (pret [])
                | OoTrait => pret []
                end ;;
       expect toks KCurlyBracesOpen ;~ ms <~ parse_class_statement_list toks (PE toks) (PS toks) ;; sp2 <~ expect_or toks KCurlyBracesClose (snd ms) ;; k name extends implements ms sp2) p no (stop true toks l).
Lemma oo_name n ot : no_name_next n -> BadO n ot [].
Proof. intros X toks L NE p l N H B k. assert (C := nstr_hd n l X N). cbn [app] in H. unfold expect_string. kx L. fin. Qed.
Definition names_end (l : list token) : Prop := hd_ok (fun t => negb (tok_in [KExtends; KImplements; KComma; KNsSeparator] t)) l.
Lemma supers_run k ts pas toks p l : (k = KExtends \/ k = KImplements) -> ParseDecl.Names k ts pas -> late2 toks -> here toks p (ts ++ l) -> hd_ok (fun t => negb (tok_in [k; KComma; KNsSeparator] t)) l ->
  wpx (look toks k (fun _ => parse_name_list toks) (pret [])) p (fun r q => here toks q l) nofail.
Proof.
  intros K N L H C. destruct N as [(-> & ->)|(tss & -> & NE & F)]; cbn [app] in H.
  - destruct K as [-> | ->]; px L; assumption.
  - assert (C' : hd_ok (fun t => negb (tok_in [KComma; KNsSeparator] t)) l) by (destruct K as [-> | ->]; weak1 C). clear C. rename C' into C. destruct K as [-> | ->]; px L; (eapply wpx_use; [apply (names_run tss pas toks _ _ NE F L HS); weak1 C|]); intros r q (A1 & _); exact A1.
Qed.
Lemma base_run ts b toks p l : Base ts b -> late2 toks -> here toks p (ts ++ l) -> hd_ok (fun t => negb (tok_in [KExtends; KNsSeparator] t)) l ->
  wpx (look toks KExtends (fun _ => r <~ parse_name toks ;; pret (Some (fst r))) (pret None)) p (fun r q => here toks q l) nofail.
Proof.
  intros B L H C. destruct b as [pa|]; cbn [Base] in B.
  - destruct B as (tp & -> & abs & fs & NE & -> & ->). cbn [app] in H. px L. eapply wpx_use; [apply (name_run toks L abs fs _ _ NE HS); weak1 C|]. intros r q (A & _). px L. assumption.
  - subst ts. cbn [app] in H. px L. assumption.
Qed.
Lemma oo_class n x te b ti is u : Base te b -> ParseDecl.Names KImplements ti is -> BadCB n u -> (forall l, ahead n l -> names_end (u ++ l)) -> BadO n OoClass (TString x :: te ++ ti ++ u).
Proof.
  intros HB HI U X toks L NE p l N H B k. specialize (X l N). apps H. unfold expect_string. next_here L. do 3 px1 L. px1 L.
  eapply wpx_use; [apply (base_run te b toks _ _ HB L HS)|].
  { destruct HI as [(-> & _)|(tss & -> & _)]; [cbn [app]; unfold names_end in X; weak1 X|reflexivity]. }
  intros r q A1. cbv beta in A1. px1 L. eapply wpx_use; [apply (supers_run KImplements ti is toks q _ (or_intror eq_refl) HI L A1); unfold names_end in X; weak1 X|]. intros r2 q2 A2. cbv beta. apply (U toks L NE q2 l N A2).
Qed.
Lemma oo_interface n x ti is u : ParseDecl.Names KExtends ti is -> BadCB n u -> (forall l, ahead n l -> hd_ok (fun t => negb (tok_in [KExtends; KComma; KNsSeparator] t)) (u ++ l)) -> BadO n OoInterface (TString x :: ti ++ u).
Proof.
  intros HI U X toks L NE p l N H B k. specialize (X l N). apps H. unfold expect_string. next_here L. do 3 px1 L. do 3 px1 L.
  eapply wpx_use; [apply (supers_run KExtends ti is toks _ _ (or_introl eq_refl) HI L HS X)|]. intros r2 q2 A2. cbv beta. apply (U toks L NE q2 l N A2).
Qed.
Lemma oo_trait n x u : BadCB n u -> BadO n OoTrait (TString x :: u).
Proof. intros U toks L NE p l N H B k. apps H. unfold expect_string. next_here L. do 7 px1 L. apply (U toks L NE _ l N HS). Qed.
(** a class is tried last; behind it a simple statement *)
Lemma oo_fails n toks p l l0 : late2 toks -> ahead n l -> unstarted n -> here toks p l0 -> hd_ok (tok_in [KAbstract; KFinal; KClass; KTrait; KInterface]) l0 ->
  wpx (parse_oo_declaration toks (PE toks) (PS toks)) p no (stop true toks l) -> wpx (PS toks) p no (stop true toks l).
Proof.
  intros L N [U1 U2] H X K. apply wpx_PS. unfold parse_statement_body, look_restore.
  do 10 (eapply (wpx_look_cls toks L); [exact H|exact X|reflexivity|]). do 3 (px1 L; px1 L; cbv beta; eapply (wpx_look_cls toks L); [exact H|exact X|reflexivity|]; cbv beta).
  px1 L. eapply wpx_mono; [exact K|intros ? ? []|]. intros e q [E1 E2]. subst q. assert (C := lacks_hd n l U1 N). assert (C2 := except_hd _ n l U2 N).
  assert (NI : match l with TInlineHtml _ :: _ => False | _ => True end).
  { assert (Y := among_hd _ n l U1 N). destruct l as [|[] l]; try exact Logic.I. discriminate Y. }
  use_no (other_halts toks (err_pos e) l (deep_upd None e) L E1 C C2 ltac:(reflexivity) NI). intros e' q [-> E']. split; [rewrite E'; exact E1|symmetry; exact E'].
Qed.
Lemma bad_class n cms u : BadO n OoClass u -> unstarted n -> Bad n true (cmods_toks cms ++ Kw KClass :: u).
Proof.
  intros U X. split; [left; destruct cms as [|[] cms]; head1|]. intros toks L p l N H. apps H.
  assert (Y : hd_ok (tok_in [KAbstract; KFinal; KClass]) (cmods_toks cms ++ Kw KClass :: u ++ l)) by (destruct cms as [|[] cms]; reflexivity).
  assert (NE : toks <> []) by (destruct cms as [|[] cms]; eapply here_ne; exact H).
  assert (M : List.length cms < lf toks) by (assert (H' := H); destruct H' as [H' _]; unfold cmods_toks in H'; rewrite app_length, map_length in H'; unfold lf; lia).
  eapply oo_fails; [exact L|exact N|exact X|exact H|weak1 Y|]. unfold parse_oo_declaration. px1 L. px1 L. px1 L. px1 L. px1 L. px1 L.
  eapply wpx_use; [apply (cmods_run cms toks L (lf toks) [] p _ H); [reflexivity|exact M]|]. cbn [app]. intros r q (A1 & -> & ->). next_here L.
  repeat (lazymatch goal with |- wpx (pbind (expect_string _) _) _ _ _ => fail | |- wpx (span_at _ _) _ _ _ => fail | _ => px1 L; cbv beta end).
  eapply (wpx_span_at toks); [destruct A1 as [A1 _]; cbn in A1; lia|]. intros sp0.
  apply (U toks L NE _ l N HS).
Qed.
Lemma bad_interface n u : BadO n OoInterface u -> unstarted n -> Bad n true (Kw KInterface :: u).
Proof.
  intros U X. split; [left; head1|]. intros toks L p l N H. assert (NE := here_ne _ _ _ _ H). cbn [app] in H.
  eapply oo_fails; [exact L|exact N|exact X|exact H|reflexivity|]. unfold parse_oo_declaration. next_here L.
  repeat (lazymatch goal with |- wpx (pbind (expect_string _) _) _ _ _ => fail | |- wpx (span_at _ _) _ _ _ => fail | _ => px1 L; cbv beta end); try (cbn; lia).
  repeat (lazymatch goal with |- wpx (pbind (expect_string _) _) _ _ _ => fail | |- wpx (span_at _ _) _ _ _ => fail | _ => px1 L; cbv beta end); try (cbn; lia).
  eapply (wpx_span_at toks); [destruct H as [A1 _]; cbn in A1; cbn [List.length]; lia|]. intros sp0.
  apply (U toks L NE _ l N HS).
Qed.
Lemma bad_trait n u : BadO n OoTrait u -> unstarted n -> Bad n true (Kw KTrait :: u).
Proof.
  intros U X. split; [left; head1|]. intros toks L p l N H. assert (NE := here_ne _ _ _ _ H). cbn [app] in H.
  eapply oo_fails; [exact L|exact N|exact X|exact H|reflexivity|]. unfold parse_oo_declaration. next_here L.
  repeat (lazymatch goal with |- wpx (pbind (expect_string _) _) _ _ _ => fail | |- wpx (span_at _ _) _ _ _ => fail | _ => px1 L; cbv beta end); try (cbn; lia).
  repeat (lazymatch goal with |- wpx (pbind (expect_string _) _) _ _ _ => fail | |- wpx (span_at _ _) _ _ _ => fail | _ => px1 L; cbv beta end); try (cbn; lia).
  eapply (wpx_span_at toks); [destruct H as [A1 _]; cbn in A1; cbn [List.length]; lia|]. intros sp0.
  apply (U toks L NE _ l N HS).
Qed.
(** ** Statements and members dropped in front of a closing brace *)
Lemma bad_unfm u : BadM (Some (Kw KCurlyBracesClose)) u -> UnfM u.
Proof.
  intros U toks L p l H. assert (NE : toks <> []) by (intros ->; destruct H as [H _]; rewrite app_length in H; cbn in H; lia).
  use_no (U toks L NE p (Kw KCurlyBracesClose :: l) eq_refl H). intros e q [E1 E2]. subst q. split; [exact E1|]. destruct E1 as [E1 _], H as [H _]. rewrite app_length in H. lia.
Qed.
Lemma bad_unf u : Bad (Some (Kw KCurlyBracesClose)) true u -> Unf u.
Proof.
  intros [S U]. split.
  - destruct S as [S|(-> & _)]; auto.
  - intros toks L p l H. use_no (U toks L p (Kw KCurlyBracesClose :: l) eq_refl H). intros e q [E1 E2]. subst q. split; [exact E1|].
    destruct E1 as [E1 _], H as [H _]. rewrite app_length in H. lia.
Qed.
