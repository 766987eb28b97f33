(** * ParseExpr: grammar rules for expressions

    Each judgement says that the tokens [ts] are parsed to the expression [e] (up to
    positions) in every token list, provided that what follows is of a suitable kind. *)
From Verif Require Import Base Tokens Ast AstMap AstInd Lexer Parser Driver Wp ParserTermination ParserMono ParserRel ParseRun ParseTac.
From Coq Require Import String.

Definition late2 (toks : list tokspan) : Prop := Forall (fun t : tokspan => 2 <= sp_start (snd t)) (skipn 4 toks).
Lemma late_all toks : Forall (fun t : tokspan => 2 <= sp_start (snd t)) toks -> late2 toks.
Proof. intros H. apply Forall_forall. intros t I. rewrite Forall_forall in H. apply H. rewrite <- (firstn_skipn 4 toks). apply in_or_app. auto. Qed.
Definition same (a e : expr) : Prop := strip_expr a = strip_expr e /\ 1 <= estart a.
Definition okq (toks : list tokspan) (e : expr) (p : nat) (l : list token) : expr -> nat -> Prop :=
  fun a q => here toks q l /\ p < q /\ same a e.
Lemma okq_i toks e p l a q : here toks q l -> p < q -> same a e -> okq toks e p l a q.
Proof. unfold okq. auto. Qed.
Ltac okk := apply okq_i; [assumption|lia|].

Definition head_expr (toks : list tokspan) : P expr :=
  t <~ peek toks ;;
  match t with
  | None => perr []
  | Some (x, sp) =>
    match unop_of x with
    | Some o =>
      adv ;~
      e <~ PE toks PrUnary ;;
      pret (Ex (EUnary o e) (mk_span (sp_start sp) (eend e)))
    | None => parse_postfix_expression toks (PE toks) (PS toks)
    end
  end.
Lemma wpx_head toks prec p (Q : expr -> nat -> Prop) E :
  wpx (head_expr toks) p (fun left q => wpx (binary_loop toks (PE toks) (lf toks) prec left) q Q E) E -> wpx (PE toks prec) p Q E.
Proof.
  intros H. apply wpx_PE. unfold parse_unary_expression, head_expr in *. revert H. unfold wpx, pbind, pcatch, peek.
  destruct (nth_error toks p) as [[x sp]|]; auto.
  destruct (unop_of x) as [o|]; [unfold adv; destruct (PE toks PrUnary (S p)); auto|destruct (parse_postfix_expression toks (PE toks) (PS toks) p); auto].
Qed.

Definition prec_le (f : nat) (l : list token) : Prop :=
  match l with
  | Kw k :: _ => match precedence k with Some x => x <= f | None => True end
  | _ => True
  end.
Lemma closing_prec f l : closing l -> prec_le f l.
Proof. destruct l as [|[k| | | | | | | |] l]; cbn; auto. destruct k; cbn; auto; discriminate. Qed.

(** a whole expression, followed by a closing token *)
Definition Full (ts : list token) (e : expr) : Prop := forall toks, late2 toks -> forall p l, here toks p (ts ++ l) -> closing l ->
  wpx (PE toks 0) p (okq toks e p l) nofail.
(** an operand with its prefix and postfix operators *)
Definition Operand (c : list token -> Prop) (ts : list token) (e : expr) : Prop := forall toks, late2 toks -> forall p l, here toks p (ts ++ l) -> c l ->
  wpx (head_expr toks) p (okq toks e p l) nofail.
(** an operand, not starting with a prefix operator *)
Definition Post (c : list token -> Prop) (ts : list token) (e : expr) : Prop :=
  (exists t r, ts = t :: r /\ unop_of t = None) /\
  forall toks, late2 toks -> forall p l, here toks p (ts ++ l) -> c l ->
  wpx (parse_other_expression toks (PE toks) (PS toks)) p (okq toks e p l) nofail.
(** operators of precedence at least [m]; behind them only operators of precedence at most [f] *)
Definition Chain (m f : nat) (ts : list token) (e : expr) : Prop := forall toks, late2 toks -> forall p l prec, prec < m ->
  here toks p (ts ++ l) -> oplike l -> prec_le f l -> forall R,
  (forall a q n, here toks q l -> p < q -> same a e -> List.length l < n -> wpx (binary_loop toks (PE toks) n prec a) q R nofail) ->
  wpx (PE toks prec) p R nofail.
(** a variable, which may be extended *)
Definition var_head (t : token) : bool :=
  match t with
  | TString _ | TVariable _ | TCes _ | Kw KNsSeparator | Kw KStatic | Kw KArray | Kw KSquareBracketOpen | Kw KParenthesesOpen => true
  | _ => false
  end.
(** [so]: no calls, as behind [new] and [instanceof] *)
Definition VarS (so : bool) (ts : list token) (e : expr) : Prop :=
  (exists t r, ts = t :: r /\ var_head t = true) /\
  forall toks, late2 toks -> forall p l, here toks p (ts ++ l) -> forall (R : expr -> nat -> Prop) (E : perror -> nat -> Prop),
  (forall a q n, here toks q l -> p < q -> same a e -> List.length l < n -> wpx (appendixes toks (PE toks) n so a) q R E) ->
  wpx (parse_variable toks (PE toks) so None) p R E.
Definition Var : list token -> expr -> Prop := VarS false.

(** ** The loop over binary operators *)
Lemma lf_gt toks p l : here toks p l -> List.length l < lf toks.
Proof. intros [H _]. unfold lf. lia. Qed.
Lemma loop_stop toks n prec a p l (R : expr -> nat -> Prop) : late2 toks -> here toks p l -> oplike l -> prec_le prec l -> 0 < n ->
  R a p -> wpx (binary_loop toks (PE toks) n prec a) p R nofail.
Proof.
  intros L H C PL N K. destruct n as [|n]; [lia|]. cbn [binary_loop]. unfold parse_binary_expression. px1 L; cbv beta. px1 L.
  eapply (wpx_peek toks L); [exact H|]. cbv beta. destruct l as [|t l]; [px L; exact K|].
  destruct t as [k| | | | | | | |]; try (px L; exact K). cbn in PL. destruct (precedence k) as [x|]; [|px L; exact K].
  apply Nat.leb_le in PL. rewrite PL. px L. exact K.
Qed.
Lemma operand_chain ts e : Operand oplike ts e -> Chain 18 17 ts e.
Proof.
  intros O toks L p l prec PR H C PL R K. apply wpx_head. eapply wpx_use; [exact (O toks L p l H C)|].
  intros a q (A1 & A2 & A3). apply K; auto. apply (lf_gt toks q l A1).
Qed.
Lemma chain_full m f ts e : 0 < m -> Chain m f ts e -> Full ts e.
Proof.
  intros M Ch toks L p l H C. apply (Ch toks L p l 0 M H (closing_oplike l C) (closing_prec f l C)).
  intros a q n A1 A2 A3 A4. apply loop_stop with l; auto using closing_oplike, closing_prec; [lia|]. apply okq_i; auto.
Qed.
Lemma operand_full (c : list token -> Prop) ts e : (forall l, closing l -> c l) -> Operand c ts e -> forall toks, late2 toks -> forall prec p l, here toks p (ts ++ l) -> closing l ->
  wpx (PE toks prec) p (okq toks e p l) nofail.
Proof.
  intros CC O toks L prec p l H C. apply wpx_head. eapply wpx_use; [exact (O toks L p l H (CC l C))|].
  intros a q (A1 & A2 & A3). apply loop_stop with l; auto using closing_oplike, closing_prec; [unfold lf; lia|]. apply okq_i; auto.
Qed.
Lemma chain_weak m f m' f' ts e : m' <= m -> f' <= f -> Chain m f ts e -> Chain m' f' ts e.
Proof.
  intros M F Ch toks L p l prec PR H C PL. apply Ch; auto; [lia|]. unfold prec_le in *. destruct l as [|[k| | | | | | | |] l]; auto. destruct (precedence k); auto. lia.
Qed.
(** parsing at a precedence, up to an operator that binds no tighter *)
Lemma chain_at m f ts e : Chain m f ts e -> forall toks, late2 toks -> forall prec p l, prec < m -> here toks p (ts ++ l) -> oplike l -> prec_le f l -> prec_le prec l ->
  wpx (PE toks prec) p (okq toks e p l) nofail.
Proof.
  intros Ch toks L prec p l PR H C PL PP. apply Ch with l; auto.
  intros a q n A1 A2 A3 A4. apply loop_stop with l; auto; [lia|]. apply okq_i; auto.
Qed.

Lemma same_start a e : same a e -> 1 <= estart a. Proof. intros [_ H]. exact H. Qed.
Lemma same_bin o a b a' b' sp : same a a' -> same b b' -> same (Ex (EBinary o a b) (mk_span (estart a) sp)) (Ex (EBinary o a' b') span_new).
Proof. intros [A1 A2] [B1 B2]. split; [|exact A2]. unfold strip_expr in *. cbn. congruence. Qed.
Lemma same_span n sp sp' : 1 <= sp_start sp -> same (Ex n sp) (Ex n sp').
Proof. intros H. split; [reflexivity|exact H]. Qed.

Lemma precle_weak f f' l : f' <= f -> prec_le f' l -> prec_le f l.
Proof. intros L. unfold prec_le. destruct l as [|[k| | | | | | | |] l]; auto. destruct (precedence k); auto. lia. Qed.
Lemma prec_oplike k x l : precedence k = Some x -> oplike (Kw k :: l).
Proof. intros E. cbn. unfold opener. rewrite E. apply orb_true_r. Qed.
Lemma binop_kind k o : binop_of k = Some o -> k <> KQuestionMark /\ k <> KInstanceOf.
Proof. destruct k; cbn; try discriminate; split; discriminate. Qed.
Lemma binary_match {A} k (a b c : A) : k <> KQuestionMark -> k <> KInstanceOf ->
  match k with KQuestionMark => a | KInstanceOf => b | _ => c end = c.
Proof. destruct k; congruence. Qed.
Definition right_bound (r : bool) (x : nat) : nat := if r then x - 1 else x.
Lemma chain_bin ma fa mb fb x o k r ta a tb b : precedence k = Some x -> binop_of k = Some o -> assoc_right k = Some r -> 1 <= x ->
  x <= ma -> x <= fa -> right_bound r x < mb -> right_bound r x <= fb ->
  Chain ma fa ta a -> Chain mb fb tb b -> Chain x (right_bound r x) (ta ++ Kw k :: tb) (Ex (EBinary o a b) span_new).
Proof.
  intros P B A X1 X2 X3 X4 X5 CA CB toks L p l prec PR H C PL R K.
  rewrite <- app_assoc in H. cbn [app] in H.
  apply (CA toks L p (Kw k :: tb ++ l) prec); [lia|exact H|eapply prec_oplike; eauto|cbn; rewrite P; lia|].
  intros a' q n A1 A2 A3 A4. destruct n as [|n]; [lia|]. cbn [binary_loop]. apply wpx_catch. unfold parse_binary_expression. px1 L.
  eapply (wpx_peek toks L); [exact A1|]. cbv beta iota. rewrite P. destruct (Nat.leb_spec x prec); [lia|]. destruct (binop_kind _ _ B) as [B1 B2].
  rewrite (binary_match k _ _ _ B1 B2). rewrite B, A. px L.
  assert (S1 : wpx (match r with true => psub x 1 | false => pret x end) (S q) (fun y q' => y = right_bound r x /\ q' = S q) nofail).
  { destruct r; px L; auto. }
  eapply wpx_use; [exact S1|]. intros y q' [-> ->]. px L.
  eapply wpx_use; [apply (chain_at _ _ _ _ CB toks L (right_bound r x) (S q) l); auto|].
  { eapply precle_weak; eauto. }
  intros b' q2 (B3 & B4 & B5). px L. apply K; auto; [lia| |].
  - apply same_bin; auto.
  - cbn [List.length] in A4. rewrite app_length in A4. lia.
Qed.
Lemma app_cons_assoc {A} (a : list A) x b c : (a ++ x :: b) ++ c = a ++ x :: b ++ c.
Proof. rewrite <- app_assoc. reflexivity. Qed.

(** ** From operands to the parts of [parse_other_expression] *)
Lemma hd_app c ts l : (exists t r, ts = t :: r /\ c t = true) -> hd_ok c (ts ++ l).
Proof. intros (t & r & -> & H). exact H. Qed.
Definition plain_tok (t : token) : bool :=
  negb (tok_in [KNew; KClone; KExit; KYield; KFunction; KCastInt; KCastDouble; KCastString; KCastArray; KCastObject; KCastBool; KCastUnset;
    KInclude; KIncludeOnce; KRequire; KRequireOnce; KIsset; KEmpty] t).
Lemma other_plain toks p l Q E : late2 toks -> here toks p l -> hd_ok plain_tok l ->
  wpx (parse_variable_expression toks (PE toks)) p Q E -> wpx (parse_other_expression toks (PE toks) (PS toks)) p Q E.
Proof.
  intros L H C K. unfold parse_other_expression. px L. unfold parse_internal. px1 L.
  eapply (wpx_peek toks L); [exact H|]. cbv beta. destruct l as [|t l]; [exact K|].
  destruct t as [k| | | | | | | |]; try exact K. destruct k; try exact K; discriminate C.
Qed.
Lemma head_post toks p t r Q E : late2 toks -> here toks p (t :: r) -> unop_of t = None ->
  wpx (parse_postfix_expression toks (PE toks) (PS toks)) p Q E -> wpx (head_expr toks) p Q E.
Proof.
  intros L H U K. unfold head_expr. px1 L. eapply (wpx_peek toks L); [exact H|]. cbv beta iota. rewrite U. exact K.
Qed.
Lemma post_operand (c : list token -> Prop) ts e : (forall l, c l -> oplike l) -> Post c ts e -> Operand c ts e.
Proof.
  intros CC ((t & r & -> & U) & K) toks L p l H C. cbn [app] in H. eapply head_post; eauto. unfold parse_postfix_expression. px1 L.
  change (t :: r ++ l) with ((t :: r) ++ l) in H. eapply wpx_use; [exact (K toks L p l H C)|]. intros a q (A1 & A2 & A3).
  pose proof (CC l C) as CO. unfold oplike in CO. px L. apply okq_i; auto.
Qed.
(** postfix increment and decrement *)
Lemma post_incdec (c : list token -> Prop) ts e k o : (k, o) = (KIncrement, UPostInc) \/ (k, o) = (KDecrement, UPostDec) ->
  Post (fun l => exists r, l = Kw k :: r) ts e -> Operand c (ts ++ [Kw k]) (Ex (EUnary o e) span_new).
Proof.
  intros KO ((t & r & -> & U) & K) toks L p l H C. rewrite <- app_assoc in H. cbn [app] in H. eapply head_post; eauto. unfold parse_postfix_expression. px1 L.
  change (t :: r ++ Kw k :: l) with ((t :: r) ++ Kw k :: l) in H. eapply wpx_use; [exact (K toks L p _ H (ex_intro _ l eq_refl))|]. intros a q (A1 & A2 & A3 & A4).
  assert (S : forall sp, same (Ex (EUnary o a) (mk_span (estart a) sp)) (Ex (EUnary o e) span_new)).
  { intros sp. split; [|exact A4]. unfold strip_expr in *. cbn. congruence. }
  destruct KO as [KO|KO]; injection KO as -> ->; px L; apply okq_i; auto.
Qed.

(** ** Variables *)
Lemma appendix_end toks n a p l (R : expr -> nat -> Prop) E : late2 toks -> here toks p l -> var_end l -> 0 < n -> R a p ->
  wpx (appendixes toks (PE toks) n false a) p R E.
Proof. intros L H C N K. unfold var_end in C. destruct n; [lia|]. cbn [appendixes]. px L. exact K. Qed.
Lemma assign_none toks a p l (R : expr -> nat -> Prop) E : late2 toks -> here toks p l -> oplike l -> R a p ->
  wpx (parse_assign toks (PE toks) a) p R E.
Proof.
  intros L H C K. unfold parse_assign. px1 L. eapply (wpx_peek toks L); [exact H|]. cbv beta.
  destruct l as [|t l]; [exact K|]. destruct t as [k| | | | | | | |]; try exact K. destruct k; try exact K; discriminate C.
Qed.
Lemma var_plain t : var_head t = true -> plain_tok t = true /\ unop_of t = None.
Proof. destruct t as [k| | | | | | | |]; try (split; reflexivity); try discriminate. destruct k; try discriminate; split; reflexivity. Qed.
Lemma var_plain_ts ts : (exists t r, ts = t :: r /\ var_head t = true) ->
  (exists t r, ts = t :: r /\ plain_tok t = true) /\ (exists t r, ts = t :: r /\ unop_of t = None).
Proof. intros (t & r & -> & H). apply var_plain in H. destruct H. split; eauto. Qed.
Lemma var_whole ts e : Var ts e -> forall toks, late2 toks -> forall p l, here toks p (ts ++ l) -> var_end l ->
  wpx (parse_variable toks (PE toks) false None) p (okq toks e p l) nofail.
Proof.
  intros (_ & K) toks L p l H C. apply (K toks L p l H). intros a q n A1 A2 A3 A4. apply appendix_end with l; auto; [lia|]. apply okq_i; auto.
Qed.
Lemma var_post ts e : Var ts e -> Post oplike ts e.
Proof.
  intros V. destruct (proj1 V) as (t & r & X). destruct (var_plain_ts ts (ex_intro _ t (ex_intro _ r X))) as [Pl Un].
  split; [exact Un|]. intros toks L p l H C. eapply other_plain; eauto using hd_app.
  unfold parse_variable_expression. apply wpx_catch. eapply wpx_use; [apply (var_whole ts e V toks L p l H (oplike_var l C))|].
  intros a q (A1 & A2 & A3). apply assign_none with l; auto. apply okq_i; auto.
Qed.
Lemma var_operand ts e : Var ts e -> Operand oplike ts e.
Proof. intros V. apply post_operand; auto. apply var_post; auto. Qed.
Lemma var_incdec (c : list token -> Prop) ts e k o : (k, o) = (KIncrement, UPostInc) \/ (k, o) = (KDecrement, UPostDec) ->
  Var ts e -> Operand c (ts ++ [Kw k]) (Ex (EUnary o e) span_new).
Proof.
  intros KO V. apply post_incdec; auto. destruct (proj1 V) as (t & r & X). destruct (var_plain_ts ts (ex_intro _ t (ex_intro _ r X))) as [Pl Un].
  split; [exact Un|]. intros toks L p l H (r' & ->). eapply other_plain; eauto using hd_app.
  unfold parse_variable_expression. apply wpx_catch. eapply wpx_use; [apply (var_whole ts e V toks L p _ H)|].
  { destruct KO as [KO|KO]; injection KO as -> ->; reflexivity. }
  intros a q (A1 & A2 & A3). unfold parse_assign. px L. 
  replace (assign_of (Some (Kw k, sp_at toks q))) with (@None op) by (destruct KO as [KO|KO]; injection KO as -> ->; reflexivity). px L. apply okq_i; auto.
Qed.

(** ** Assignments *)
Lemma psub_le toks p l : here toks p l -> 1 <= p -> p - 1 < List.length toks.
Proof. intros [H _] ?. lia. Qed.
Lemma assign_run toks a v te e k o p l : late2 toks -> same a v -> here toks p (Kw k :: te ++ l) -> closing l -> Full te e ->
  assign_of (Some (Kw k, span_new)) = Some o -> hd_ok (fun t => negb (tok_in [KAmpersand] t)) te -> te <> [] ->
  wpx (parse_assign toks (PE toks) a) p (okq toks (Ex (match o with OEq => EAssign v e | o => ECompound v o e end) span_new) p l) nofail.
Proof.
  intros L [S1 S2] H C F A HA NE. unfold parse_assign. px L.
  replace (assign_of (Some (Kw k, sp_at toks p))) with (Some o) by (rewrite <- A; reflexivity). px L.
  assert (HA' : hd_ok (fun t => negb (tok_in [KAmpersand] t)) (te ++ l)) by (destruct te; [congruence|exact HA]).
  assert (X : wpx (match o with OEq => look toks KAmpersand (fun _ => pret true) (pret false) | _ => pret false end) (S p) (fun b q => b = false /\ q = S p) nofail).
  { destruct o; px L; auto. }
  eapply wpx_use; [exact X|]. intros b q [-> ->]. px L. eapply wpx_use; [exact (F toks L (S p) l HS C)|]. intros e' q (E1 & E2 & E3 & E4).
  px L. okk. split; [|exact S2]. unfold strip_expr in *. destruct o; cbn; congruence.
Qed.
Definition no_amp (ts : list token) : Prop := ts <> [] /\ hd_ok (fun t => negb (tok_in [KAmpersand] t)) ts.
Lemma var_assign tv v te e k o : Var tv v -> Full te e -> no_amp te -> assign_of (Some (Kw k, span_new)) = Some o ->
  Post closing (tv ++ Kw k :: te) (Ex (match o with OEq => EAssign v e | o => ECompound v o e end) span_new).
Proof.
  intros V F [N1 N2] A. destruct (proj1 V) as (t & r & X). destruct (var_plain_ts tv (ex_intro _ t (ex_intro _ r X))) as [Pl Un].
  split. { destruct Un as (t' & r' & -> & U). exists t', (r' ++ Kw k :: te). auto. }
  intros toks L p l H C. rewrite app_cons_assoc in H. eapply other_plain; eauto using hd_app.
  unfold parse_variable_expression. apply wpx_catch. eapply wpx_use; [apply (var_whole tv v V toks L p _ H)|].
  { destruct k; try discriminate A; reflexivity. }
  intros a q (A1 & A2 & A3). eapply wpx_use; [eapply (assign_run toks a v te e k o q l); eauto|].
  intros a' q' (B1 & B2 & B3). apply okq_i; auto. lia.
Qed.
Lemma var_assign_ref tv v te e : Var tv v -> Full te e ->
  Post closing (tv ++ Kw KEqual :: Kw KAmpersand :: te) (Ex (EAssignRef v e) span_new).
Proof.
  intros V F. destruct (proj1 V) as (t & r & X). destruct (var_plain_ts tv (ex_intro _ t (ex_intro _ r X))) as [Pl Un].
  split. { destruct Un as (t' & r' & -> & U). exists t', (r' ++ Kw KEqual :: Kw KAmpersand :: te). auto. }
  intros toks L p l H C. rewrite app_cons_assoc in H. eapply other_plain; eauto using hd_app.
  unfold parse_variable_expression. apply wpx_catch. eapply wpx_use; [apply (var_whole tv v V toks L p _ H); reflexivity|].
  intros a q (A1 & A2 & A3 & A4). unfold parse_assign. cbn [app] in A1. px L. cbn [assign_of]. px L.
  eapply wpx_use; [exact (F toks L _ l HS0 C)|]. intros e' q' (E1 & E2 & E3 & E4). px L. okk.
  split; [|exact A4]. unfold strip_expr in *. cbn. congruence.
Qed.

(** ** Tokens that start no variable, no expression *)
Definition novar_tok (t : token) : bool := negb (var_head t) && negb (tok_in [KDollar] t).
Lemma novar_noname t : novar_tok t = true -> no_name t = true.
Proof. destruct t as [k| | | | | | | |]; try reflexivity; try discriminate. destruct k; try reflexivity; discriminate. Qed.
Definition fails {A} (m : P A) (p : nat) : Prop := wpx m p (fun _ _ => False) (fun _ q => q = p).
Lemma simple_fail toks p l : late2 toks -> here toks p l -> hd_ok (fun t => match t with Kw KDollar | TVariable _ => false | _ => true end) l ->
  fails (parse_simple_variable_expr toks) p.
Proof. intros L H C. unfold fails, parse_simple_variable_expr, parse_simple_variable. px L. reflexivity. Qed.
Lemma deref_fail toks p l : late2 toks -> here toks p l -> hd_ok (fun t => match t with Kw KArray | Kw KSquareBracketOpen | TCes _ => false | _ => true end) l ->
  fails (parse_dereferencable_scalar toks (PE toks)) p.
Proof. intros L H C. unfold fails, parse_dereferencable_scalar. px L. reflexivity. Qed.
Ltac weak1 C := eapply hd_weak; [|exact C]; intros [[]| | | | | | | |]; try discriminate; auto.
Ltac weak := eapply hd_weak; [|eassumption]; intros [[]| | | | | | | |]; try discriminate; auto.
Lemma base_fail toks p l : late2 toks -> here toks p l ->
  hd_ok (fun t => match t with Kw KDollar | TVariable _ | Kw KArray | Kw KSquareBracketOpen | Kw KParenthesesOpen | TCes _ => false | _ => true end) l ->
  fails (parse_base_variable toks (PE toks) false) p.
Proof.
  intros L H C. unfold fails, parse_base_variable. px L. eapply wpx_mono; [apply (simple_fail toks p l L H); weak|intros ? ? []|].
  intros e q ->. px L. eapply wpx_mono; [apply (deref_fail toks p l L H); weak|intros ? ? []|]. intros e' q ->. px L. reflexivity.
Qed.
Lemma scoped_fail toks p l : late2 toks -> here toks p l -> hd_ok (fun t => match t with TString _ | Kw KNsSeparator | Kw KStatic => false | _ => true end) l ->
  fails (parse_const_scoped toks false) p /\ fails (parse_fn_call_base_item toks false) p.
Proof.
  intros L H C. assert (N : hd_ok no_name l) by weak. split.
  - unfold fails, parse_const_scoped, parse_class_name, parse_name_as_expr. px L.
    eapply wpx_mono; [apply (name_fail toks L p l H N)|intros ? ? []|]. intros e q ->. px L. reflexivity.
  - unfold fails, parse_fn_call_base_item, parse_name_as_expr. px L.
    eapply wpx_mono; [apply (name_fail toks L p l H N)|intros ? ? []|]. intros e q ->. px L. reflexivity.
Qed.
Lemma var_fail toks p l : late2 toks -> here toks p l -> hd_ok novar_tok l -> fails (parse_variable toks (PE toks) false None) p.
Proof.
  intros L H C. unfold fails, parse_variable, variable_base. px L.
  destruct (scoped_fail toks p l L H) as [F1 F2]; [weak|].
  eapply wpx_mono; [exact F1|intros ? ? []|]. intros e q ->. px L.
  eapply wpx_mono; [exact F2|intros ? ? []|]. intros e' q ->. px L.
  eapply wpx_mono; [apply (base_fail toks p l L H); weak|intros ? ? []|]. intros e'' q ->. px L. reflexivity.
Qed.
(** no expression starts with such a token *)
Definition fail_tok (t : token) : bool :=
  novar_tok t && plain_tok t && match unop_of t, scalar_of t with None, None => true | _, _ => false end &&
  negb (tok_in [KList; KDoubleQuote; KHereDocStart] t).
Lemma scalar_fail toks p t l : late2 toks -> here toks p (t :: l) -> fail_tok t = true -> fails (parse_scalar toks (PE toks)) p.
Proof.
  intros L H C. assert (H0 := H). unfold fails, parse_scalar. px L.
  assert (X : scalar_of t = None).
  { unfold fail_tok in C. destruct (unop_of t), (scalar_of t); auto; rewrite !andb_false_r in C; discriminate. }
  rewrite X. assert (CC : hd_ok fail_tok (t :: l)) by exact C.
  assert (Y : wpx (pcatch (parse_dereferencable_scalar toks (PE toks)) pret (fun _ => parse_constant toks)) p (fun _ _ => False) (fun _ q => q = p)).
  { px L. eapply wpx_mono; [apply (deref_fail toks p _ L H); weak|intros ? ? []|]. intros e q ->.
    revert H0 CC. generalize (t :: l). intros l' H0 CC. clear H.
    unfold parse_constant, parse_class_name, parse_name_as_expr. px L. eapply wpx_mono; [apply (name_fail toks L p l' H0); weak|intros ? ? []|]. intros e' q ->. px L. reflexivity. }
  destruct t as [k| | | | | | | |]; try exact Y. destruct k; try exact Y; discriminate C.
Qed.
Lemma fail_novar t : fail_tok t = true -> novar_tok t = true /\ plain_tok t = true /\ unop_of t = None /\ tok_in [KList; KParenthesesOpen] t = false.
Proof.
  unfold fail_tok. destruct (novar_tok t) eqn:A; [|discriminate]. destruct (plain_tok t) eqn:B; [|discriminate].
  destruct (unop_of t) eqn:D; [rewrite !andb_false_r; discriminate|]. intros H.
  repeat split; auto. destruct t as [k| | | | | | | |]; try reflexivity. destruct k; try reflexivity; discriminate.
Qed.
Lemma pe_fail toks prec p l : late2 toks -> here toks p l -> hd_ok fail_tok l -> fails (PE toks prec) p.
Proof.
  intros L H C. apply wpx_head. destruct l as [|t l].
  { unfold head_expr. px L. reflexivity. }
  destruct (fail_novar t C) as (N1 & N2 & N3 & N4). eapply head_post; eauto. unfold parse_postfix_expression. px1 L.
  assert (CC : hd_ok fail_tok (t :: l)) by exact C.
  eapply other_plain; eauto. unfold parse_variable_expression. px1 L.
  eapply wpx_mono; [apply (var_fail toks p _ L H N1)|intros ? ? []|]. intros e q ->. cbv zeta beta.
  assert (S1 : fails (parse_scalar toks (PE toks)) p) by (eapply scalar_fail; eauto).
  assert (N5 : hd_ok (fun t => negb (tok_in [KList; KParenthesesOpen] t)) (t :: l)) by (cbn [hd_ok]; rewrite N4; reflexivity).
  revert H N5 S1. generalize (t :: l). intros l' H N5 S1. px L. eapply wpx_mono; [exact S1|intros ? ? []|]. intros e' q ->. px L. reflexivity.
Qed.
Lemma closer_fail t : closer t = true -> fail_tok t = true.
Proof. destruct t as [k| | | | | | | |]; try discriminate. destruct k; try reflexivity; discriminate. Qed.
Definition start_tok (t : token) : bool := negb (fail_tok t).
Lemma placed_here ts : let toks := map (fun t => (t, mk_span 2 2)) ts in late2 toks /\ here toks 0 ts.
Proof.
  intros toks. assert (A : Forall (fun t : tokspan => 2 <= sp_start (snd t)) toks).
  { apply Forall_forall. intros [t sp] I. apply in_map_iff in I. destruct I as (x & E & _). injection E as _ <-. cbn. lia. }
  split.
  - apply late_all, A.
  - split; [unfold toks; rewrite map_length; reflexivity|]. split; [|right; exact A]. cbn. unfold toks. rewrite map_map. apply map_id.
Qed.
Lemma wpx_absurd {A} (m : P A) p (Q : A -> nat -> Prop) E : fails m p -> wpx m p Q nofail -> E.
Proof. unfold fails, wpx, nofail. destruct (m p); intros; contradiction. Qed.
Lemma full_head ts e : Full ts e -> exists t r, ts = t :: r /\ start_tok t = true.
Proof.
  intros F. destruct (placed_here ts) as [L H]. assert (H' := H). rewrite <- (app_nil_r ts) in H' at 2. specialize (F _ L 0 [] H' I).
  destruct ts as [|t r]; [exfalso; eapply wpx_absurd; [|exact F]; eapply pe_fail; [exact L|exact H|exact I]|]. exists t, r. split; auto. unfold start_tok. destruct (fail_tok t) eqn:X; auto.
  exfalso. eapply wpx_absurd; [|exact F]. eapply pe_fail; eauto.
Qed.
Lemma full_no_amp ts e : Full ts e -> no_amp ts.
Proof.
  intros F. destruct (full_head ts e F) as (t & r & -> & S). split; [discriminate|]. cbn. destruct t as [k| | | | | | | |]; auto. destruct k; auto; discriminate.
Qed.

(** ** Comma separated lists *)
Fixpoint commas (l : list (list token)) : list token :=
  match l with
  | [] => []
  | [a] => a
  | a :: r => a ++ Kw KComma :: commas r
  end.
Lemma commas_cons a b r l : commas (a :: b :: r) ++ l = a ++ Kw KComma :: commas (b :: r) ++ l.
Proof. cbn [commas]. rewrite <- app_assoc. reflexivity. Qed.
Lemma commas_len a b r : List.length (commas (a :: b :: r)) = List.length a + S (List.length (commas (b :: r))).
Proof. change (commas (a :: b :: r)) with (a ++ Kw KComma :: commas (b :: r)). rewrite app_length. reflexivity. Qed.
Lemma closing_comma l : closing (Kw KComma :: l). Proof. reflexivity. Qed.
Definition sames (as_ es : list expr) : Prop := map strip_expr as_ = map strip_expr es.
Lemma sames_snoc a e as_ es : same a e -> sames as_ es -> sames (as_ ++ [a]) (es ++ [e]).
Proof. intros [A _] B. unfold sames in *. rewrite !map_app. cbn. congruence. Qed.
Definition listq (toks : list tokspan) (es : list expr) (p : nat) (l : list token) : list expr -> nat -> Prop :=
  fun r q => here toks q l /\ p < q /\ sames r es.
Definition not_comma : list token -> Prop := hd_ok (fun t => closer t && negb (tok_in [KComma] t)).
Lemma not_comma_closing l : not_comma l -> closing l.
Proof. apply hd_weak. intros t H. apply andb_prop in H. tauto. Qed.
Lemma tss_len (tss : list (list token)) es : Forall2 Full tss es -> List.length tss <= List.length (commas tss).
Proof.
  induction 1 as [|ts e tss es F _ IH]; [cbn; lia|]. destruct (full_head ts e F) as (t & r & -> & _). destruct tss as [|b tss]; [cbn; lia|].
  rewrite commas_len. cbn [List.length] in *. lia.
Qed.

Lemma exprs_run (loop : list tokspan -> nat -> list expr -> P (list expr)) :
  (forall toks n acc, loop toks (S n) acc = (e <~ PE toks PrNone ;; let acc := acc ++ [e] in look toks KComma (fun _ => loop toks n acc) (pret acc))) ->
  forall tss es, tss <> [] -> Forall2 Full tss es -> forall toks, late2 toks -> forall n acc es0 p l, here toks p (commas tss ++ l) -> not_comma l ->
  List.length tss <= n -> sames acc es0 -> wpx (loop toks n acc) p (listq toks (es0 ++ es) p l) nofail.
Proof.
  intros EQ tss es NE F. induction F as [|ts e tss es F1 F2 IH]; [congruence|]. intros toks L n acc es0 p l H C LN SA.
  destruct n as [|n]; [cbn in LN; lia|]. rewrite EQ. px L. destruct tss as [|b tss].
  - inversion F2; subst. cbn [commas] in H. eapply wpx_use; [exact (F1 toks L p l H (not_comma_closing l C))|].
    intros a q (A1 & A2 & A3). unfold not_comma in C. px L. split; auto. split; auto. apply sames_snoc; auto.
  - rewrite commas_cons in H. eapply wpx_use; [exact (F1 toks L p _ H (closing_comma _))|].
    intros a q (A1 & A2 & A3). px L. eapply wpx_use; [apply (IH ltac:(discriminate) toks L n (acc ++ [a]) (es0 ++ [e]) (S q) l HS C)|].
    + cbn in *; lia.
    + apply sames_snoc; auto.
    + intros r q' (B1 & B2 & B3). split; auto. split; [lia|]. rewrite <- app_assoc in B3. exact B3.
Qed.
Lemma expression_list_run tss es : tss <> [] -> Forall2 Full tss es -> forall toks, late2 toks -> forall p l, here toks p (commas tss ++ l) -> not_comma l ->
  wpx (parse_expression_list toks (PE toks)) p (listq toks es p l) nofail.
Proof.
  intros NE F toks L p l H C. unfold parse_expression_list.
  apply (exprs_run (fun toks => expression_list toks (PE toks))) with (es0 := []) (tss := tss); auto; [|reflexivity].
  pose proof (tss_len tss es F). destruct H as [H _]. rewrite app_length in H. unfold lf. lia.
Qed.
Lemma isset_run tss es : tss <> [] -> Forall2 Full tss es -> forall toks, late2 toks -> forall p l, here toks p (commas tss ++ l) -> not_comma l ->
  wpx (isset_args toks (PE toks) (lf toks) true []) p (listq toks es p l) nofail.
Proof.
  intros NE F toks L p l H C.
  apply (exprs_run (fun toks n acc => isset_args toks (PE toks) n true acc)) with (es0 := []) (tss := tss); auto; [|reflexivity].
  pose proof (tss_len tss es F). destruct H as [H _]. rewrite app_length in H. unfold lf. lia.
Qed.

(** arguments of a call *)
Definition Arg (ts : list token) (e : expr) : Prop :=
  Full ts e \/ exists ts' e', ts = Kw KEllipsis :: ts' /\ Full ts' e' /\ e = Ex (EUnpack e') span_new.
Lemma arg_nonempty ts e : Arg ts e -> exists t r, ts = t :: r /\ tok_in [KParenthesesClose] t = false.
Proof.
  intros [F|(ts' & e' & -> & _)]; [|eauto]. destruct (full_head ts e F) as (t & r & -> & S). exists t, r. split; auto.
  destruct t as [k| | | | | | | |]; auto. destruct k; auto; discriminate.
Qed.
Lemma args_len (tss : list (list token)) es : Forall2 Arg tss es -> List.length tss <= List.length (commas tss).
Proof.
  induction 1 as [|ts e tss es F _ IH]; [cbn; lia|]. destruct (arg_nonempty ts e F) as (t & r & -> & _). destruct tss as [|b tss]; [cbn; lia|].
  rewrite commas_len. cbn [List.length] in *. lia.
Qed.
Lemma arg_run ts e toks (K : expr -> P (list expr)) p l Q : Arg ts e -> late2 toks -> here toks p (ts ++ l) -> closing l ->
  (forall a q, here toks q l -> p < q -> strip_expr a = strip_expr e -> wpx (K a) q Q nofail) ->
  wpx (start_pos <~ look toks KEllipsis (fun sp => pret (Some (sp_start sp))) (pret None) ;;
       arg <~ PE toks PrNone ;;
       K (match start_pos with Some st => Ex (EUnpack arg) (set_start st (espan arg)) | None => arg end)) p Q nofail.
Proof.
  intros A L H C KK. destruct A as [F|(ts' & e' & -> & F & ->)].
  - destruct (full_head ts e F) as (t & r & E & S). assert (HE : hd_ok start_tok (ts ++ l)) by (subst ts; exact S).
    px L. eapply wpx_use; [exact (F toks L p l H C)|]. intros a q (A1 & A2 & A3 & A4). apply KK; auto.
  - cbn [app] in H. px L. eapply wpx_use; [exact (F toks L _ l HS C)|]. intros a q (A1 & A2 & A3 & A4). apply KK; auto; [lia|].
    unfold strip_expr in *. cbn. congruence.
Qed.
Lemma arguments_run tss es : tss <> [] -> Forall2 Arg tss es -> forall toks, late2 toks -> forall n acc es0 p l, here toks p (commas tss ++ l) -> not_comma l ->
  List.length tss <= n -> sames acc es0 -> wpx (argument_list toks (PE toks) n acc) p (listq toks (es0 ++ es) p l) nofail.
Proof.
  intros NE F. induction F as [|ts e tss es F1 F2 IH]; [congruence|]. intros toks L n acc es0 p l H C LN SA.
  destruct n as [|n]; [cbn in LN; lia|]. cbn [argument_list]. destruct tss as [|b tss].
  - inversion F2; subst. cbn [commas] in H. eapply (arg_run ts e toks (fun a => let acc := acc ++ [a] in look toks KComma (fun _ => argument_list toks (PE toks) n acc) (pret acc))); eauto using not_comma_closing.
    intros a q A1 A2 A3. unfold not_comma in C. px L. split; auto. split; auto. unfold sames in *. rewrite !map_app. cbn. congruence.
  - rewrite commas_cons in H. eapply (arg_run ts e toks (fun a => let acc := acc ++ [a] in look toks KComma (fun _ => argument_list toks (PE toks) n acc) (pret acc))); eauto using closing_comma.
    intros a q A1 A2 A3. px L. eapply wpx_use; [apply (IH ltac:(discriminate) toks L n (acc ++ [a]) (es0 ++ [e]) (S q) l HS C)|].
    + cbn in *; lia.
    + unfold sames in *. rewrite !map_app. cbn. congruence.
    + intros r q' (B1 & B2 & B3). split; auto. split; [lia|]. rewrite <- app_assoc in B3. exact B3.
Qed.
Definition call_toks (tss : list (list token)) : list token := Kw KParenthesesOpen :: commas tss ++ [Kw KParenthesesClose].
Lemma call_app tss l : call_toks tss ++ l = Kw KParenthesesOpen :: commas tss ++ Kw KParenthesesClose :: l.
Proof. unfold call_toks. cbn [app]. rewrite <- app_assoc. reflexivity. Qed.
Lemma argument_list_run tss es : Forall2 Arg tss es -> forall toks, late2 toks -> forall p l, here toks p (call_toks tss ++ l) ->
  wpx (parse_argument_list toks (PE toks)) p (listq toks es p l) nofail.
Proof.
  intros F toks L p l H. rewrite call_app in H. unfold parse_argument_list. px L. destruct tss as [|ts tss].
  - inversion F; subst. cbn [commas app] in HS. px L. split; auto. split; [lia|]. reflexivity.
  - assert (HX : hd_ok (fun t => negb (tok_in [KParenthesesClose] t)) (commas (ts :: tss) ++ Kw KParenthesesClose :: l)).
    { inversion F; subst. destruct (arg_nonempty _ _ H2) as (t & r & -> & S). destruct tss; cbn; rewrite S; reflexivity. }
    px L. eapply wpx_use; [apply (arguments_run (ts :: tss) es ltac:(discriminate) F toks L (lf toks) [] [] (S p) (Kw KParenthesesClose :: l) HS); try reflexivity|].
    + pose proof (args_len _ _ F). destruct HS as [X _]. rewrite app_length in X. unfold lf. lia.
    + intros r q (A1 & A2 & A3). px L. split; auto. split; [lia|]. exact A3.
Qed.

(** array elements *)
Definition Pair (ts : list token) (kv : option expr * expr) : Prop :=
  match fst kv with
  | None => Full ts (snd kv)
  | Some k => exists tk tv, ts = tk ++ Kw KDoubleArrow :: tv /\ Full tk k /\ Full tv (snd kv)
  end.
Definition strip_pair (kv : option expr * expr) : option expr * expr := match kv with (k, v) => (option_map strip_expr k, strip_expr v) end.
Lemma pair_head ts kv : Pair ts kv -> exists t r, ts = t :: r /\ start_tok t = true.
Proof.
  destruct kv as [[k|] v]; unfold Pair; cbn [fst snd].
  - intros (tk & tv & -> & F & _). destruct (full_head tk k F) as (t & r & -> & S). cbn. eauto.
  - apply full_head.
Qed.
Lemma pairs_len (tss : list (list token)) es : Forall2 Pair tss es -> List.length tss <= List.length (commas tss).
Proof.
  induction 1 as [|ts e tss es F _ IH]; [cbn; lia|]. destruct (pair_head ts e F) as (t & r & -> & _). destruct tss as [|b tss]; [cbn; lia|].
  rewrite commas_len. cbn [List.length] in *. lia.
Qed.
Definition pairq (toks : list tokspan) (es : list (option expr * expr)) (p : nat) (l : list token) : list (option expr * expr) -> nat -> Prop :=
  fun r q => here toks q l /\ p <= q /\ map strip_pair r = map strip_pair es.
Definition not_arrow : list token -> Prop := hd_ok (fun t => closer t && negb (tok_in [KDoubleArrow] t)).
Lemma pair_run ts kv toks (K : option expr * expr -> P (list (option expr * expr))) er p l Q : Pair ts kv -> late2 toks -> here toks p (ts ++ l) -> not_arrow l ->
  (forall a q, here toks q l -> p < q -> strip_pair a = strip_pair kv -> wpx (K a) q Q nofail) ->
  wpx (pcatch (PE toks PrNone) (fun e =>
         kv <~ look toks KDoubleArrow (fun _ => v <~ PE toks PrNone ;; pret (Some e, v)) (pret (None, e)) ;; K kv) er) p Q nofail.
Proof.
  intros A L H C KK. assert (CL : closing l) by (eapply hd_weak; [|exact C]; intros t T; apply andb_prop in T; tauto).
  destruct kv as [[k|] v]; unfold Pair in A; cbn [fst snd] in A.
  - destruct A as (tk & tv & -> & F1 & F2). rewrite app_cons_assoc in H. px L. eapply wpx_use; [exact (F1 toks L p _ H eq_refl)|].
    intros a q (A1 & A2 & A3 & A4). px L. eapply wpx_use; [exact (F2 toks L _ l HS CL)|]. intros b q' (B1 & B2 & B3 & B4). px L. apply KK; auto; [lia|]. cbn. congruence.
  - px L. eapply wpx_use; [exact (A toks L p l H CL)|].
    intros a q (A1 & A2 & A3 & A4). unfold not_arrow in C. px L. apply KK; auto. cbn. congruence.
Qed.
Definition pairs_end : list token -> Prop := hd_ok (tok_in [KParenthesesClose; KSquareBracketClose]).
Lemma array_pairs_run tss es : Forall2 Pair tss es -> forall toks, late2 toks -> forall n acc es0 p l, here toks p (commas tss ++ l) -> pairs_end l ->
  List.length tss < n -> map strip_pair acc = map strip_pair es0 -> wpx (array_pairs toks (PE toks) n acc) p (pairq toks (es0 ++ es) p l) nofail.
Proof.
  intros F. induction F as [|ts e tss es F1 F2 IH]; intros toks L n acc es0 p l H C LN SA; (destruct n as [|n]; [cbn in LN; lia|]); cbn [array_pairs].
  - cbn [commas app] in H. px L. eapply wpx_mono; [apply (pe_fail toks PrNone p l L H); weak|intros ? ? []|]. intros e q ->. px L.
    split; auto. split; auto. rewrite app_nil_r. exact SA.
  - destruct tss as [|b tss].
    + inversion F2; subst. cbn [commas] in H. unfold pairs_end in C.
      eapply (pair_run ts e toks (fun kv => let acc := acc ++ [kv] in look toks KComma (fun _ => array_pairs toks (PE toks) n acc) (pret acc))); eauto; [weak|].
      intros a q A1 A2 A3. px L. split; auto. split; [lia|]. rewrite !map_app. cbn. congruence.
    + rewrite commas_cons in H.
      eapply (pair_run ts e toks (fun kv => let acc := acc ++ [kv] in look toks KComma (fun _ => array_pairs toks (PE toks) n acc) (pret acc))); eauto; [reflexivity|].
      intros a q A1 A2 A3. px L. eapply wpx_use; [apply (IH toks L n (acc ++ [a]) (es0 ++ [e]) (S q) l HS C)|].
      * cbn in *; lia.
      * rewrite !map_app. cbn. congruence.
      * intros r q' (B1 & B2 & B3). split; auto. split; [lia|]. rewrite <- app_assoc in B3. exact B3.
Qed.
Lemma pair_list_run tss es : Forall2 Pair tss es -> forall toks, late2 toks -> forall p l, here toks p (commas tss ++ l) -> pairs_end l ->
  wpx (parse_array_pair_list toks (PE toks)) p (pairq toks es p l) nofail.
Proof.
  intros F toks L p l H C. apply (array_pairs_run tss es F toks L (lf toks) [] [] p l H C); auto.
  pose proof (pairs_len _ _ F). destruct H as [X _]. rewrite app_length in X. unfold lf. lia.
Qed.

(** ** Names *)
Definition Cls (ts : list token) (pa : path) : Prop :=
  (exists abs fs, fs <> [] /\ ts = path_toks abs fs /\ pa = path_of abs fs) \/
  (ts = [Kw KStatic] /\ pa = path_identifier false (s2l "static")).
Definition Ident (t : token) (s : str) : Prop :=
  t = TString s \/ exists k r, t = Kw k /\ is_reserved_non_modifier k = true /\ repr k = Some r /\ s = s2l r.
Definition name_tok (t : token) : bool := match t with TString _ | Kw KNsSeparator => true | _ => false end.
Lemma path_head abs fs : fs <> [] -> exists t r, path_toks abs fs = t :: r /\ name_tok t = true.
Proof.
  intros NE. destruct (frag_head fs [] NE) as (a & r & X). rewrite app_nil_r in X. unfold path_toks.
  rewrite X. destruct abs; cbn [abs_tokens app]; eauto.
Qed.
Lemma cls_head ts pa : Cls ts pa -> exists t r, ts = t :: r /\ (name_tok t || tok_in [KStatic] t)%bool = true.
Proof.
  intros [(abs & fs & NE & -> & _)|(-> & _)]; [|eauto]. destruct (path_head abs fs NE) as (t & r & -> & H). exists t, r. rewrite H. auto.
Qed.
Lemma cls_var_head ts pa : Cls ts pa -> exists t r, ts = t :: r /\ var_head t = true.
Proof.
  intros H. destruct (cls_head ts pa H) as (t & r & -> & X). exists t, r. split; auto.
  destruct t as [k| | | | | | | |]; auto; try discriminate. destruct k; auto; discriminate.
Qed.
Lemma path_expr_run abs fs toks p l : fs <> [] -> late2 toks -> here toks p (path_toks abs fs ++ l) -> hd_ok no_sep l ->
  wpx (parse_name_as_expr toks) p (okq toks (Ex (EPath (path_of abs fs)) span_new) p l) nofail.
Proof.
  intros NE L H C. unfold parse_name_as_expr. px L. eapply wpx_use; [apply (name_run toks L abs fs p l NE H C)|].
  intros r q (A1 & A2 & A3 & A4). px L. apply okq_i; auto. rewrite A3. split; [reflexivity|exact A4].
Qed.
Lemma cls_run ts pa toks p l : Cls ts pa -> late2 toks -> here toks p (ts ++ l) -> hd_ok no_sep l ->
  wpx (parse_class_name toks) p (okq toks (Ex (EPath pa) span_new) p l) nofail.
Proof.
  intros [(abs & fs & NE & -> & ->)|(-> & ->)] L H C; unfold parse_class_name.
  - destruct (path_head abs fs NE) as (t & r & X & NT).
    assert (HX : hd_ok name_tok (path_toks abs fs ++ l)) by (rewrite X; exact NT). px L. apply path_expr_run; auto.
  - cbn [app] in H. px L. apply okq_i; auto. apply same_span. lia.
Qed.
Lemma ident_run t s toks p l : Ident t s -> late2 toks -> here toks p (t :: l) ->
  wpx (parse_identifier_as_expr toks) p (okq toks (Ex (EPath (path_identifier false s)) span_new) p l) nofail.
Proof.
  intros I L H. unfold parse_identifier_as_expr, parse_identifier. px L.
  destruct I as [->|(k & r & -> & R1 & R2 & ->)].
  - px L. apply okq_i; auto. apply same_span. cbn. lia.
  - rewrite R1, R2. px L. apply okq_i; auto. apply same_span. cbn. lia.
Qed.
Lemma ident_simple_fail t s toks p l : Ident t s -> late2 toks -> here toks p (t :: l) -> fails (parse_simple_variable_expr toks) p.
Proof.
  intros I L H. apply (simple_fail toks p _ L H). destruct I as [->|(k & r & -> & R1 & R2 & ->)]; [reflexivity|].
  destruct k; auto; discriminate.
Qed.
Lemma same_static_member c v c' v' sp : same c c' -> strip_expr v = strip_expr v' ->
  same (Ex (EStaticMember c [v]) (mk_span (estart c) sp)) (Ex (EStaticMember c' [v']) span_new).
Proof. intros [A1 A2] B. split; [|exact A2]. unfold strip_expr in *. cbn. congruence. Qed.
(** what [::$v], [::name(] and [(] do behind a class name *)
Lemma scoped_var_run so ts pa v toks p l : Cls ts pa -> late2 toks -> here toks p (ts ++ Kw KScopeOp :: TVariable v :: l) ->
  wpx (parse_const_scoped toks so) p (okq toks (Ex (EStaticMember (Ex (EPath pa) span_new) [Ex (EVar (VName v)) span_new]) span_new) p l) nofail.
Proof.
  intros I L H. unfold parse_const_scoped. px L. eapply wpx_use; [apply (cls_run ts pa toks p _ I L H); reflexivity|].
  intros c q (A1 & A2 & A3). unfold parse_simple_variable_expr, parse_simple_variable. px L. okk. apply same_static_member; auto.
Qed.
Lemma scoped_call_run ts pa t s toks p l : Cls ts pa -> Ident t s -> late2 toks -> here toks p (ts ++ Kw KScopeOp :: t :: Kw KParenthesesOpen :: l) ->
  wpx (parse_const_scoped toks false) p
   (okq toks (Ex (EStaticMember (Ex (EPath pa) span_new) [Ex (EPath (path_identifier false s)) span_new]) span_new) p (Kw KParenthesesOpen :: l)) nofail.
Proof.
  intros I J L H. unfold parse_const_scoped. px L. eapply wpx_use; [apply (cls_run ts pa toks p _ I L H); reflexivity|].
  intros c q (A1 & A2 & A3). px L. eapply wpx_mono; [apply (ident_simple_fail t s toks _ _ J L HS)|intros ? ? []|]. intros e q' ->. px L.
  eapply wpx_use; [apply (ident_run t s toks _ _ J L HS)|]. intros i q' (B1 & B2 & B3 & B4). px L. okk. apply same_static_member; auto.
Qed.
Definition no_call : token -> bool := fun t => negb (tok_in [KParenthesesOpen] t).
Lemma scoped_const_fail ts pa t s toks p l : Cls ts pa -> Ident t s -> late2 toks -> here toks p (ts ++ Kw KScopeOp :: t :: l) -> hd_ok no_call l ->
  fails (parse_const_scoped toks false) p.
Proof.
  intros I J L H C. unfold fails, parse_const_scoped. px L. eapply wpx_use; [apply (cls_run ts pa toks p _ I L H); reflexivity|].
  intros c q (A1 & A2 & A3). px L. eapply wpx_mono; [apply (ident_simple_fail t s toks _ _ J L HS)|intros ? ? []|]. intros e q' ->. px L.
  eapply wpx_use; [apply (ident_run t s toks _ _ J L HS)|]. intros i q' (B1 & B2 & B3 & B4). px L. reflexivity.
Qed.
Definition no_name_end : token -> bool := fun t => negb (tok_in [KScopeOp; KNsSeparator] t).
Lemma scoped_name_fail so ts pa toks p l : Cls ts pa -> late2 toks -> here toks p (ts ++ l) -> hd_ok no_name_end l ->
  fails (parse_const_scoped toks so) p.
Proof.
  intros I L H C. unfold fails, parse_const_scoped. px L. eapply wpx_use; [apply (cls_run ts pa toks p _ I L H); weak|].
  intros c q (A1 & A2 & A3). px L. reflexivity.
Qed.
Lemma fn_call_fail ts pa toks p l : Cls ts pa -> late2 toks -> here toks p (ts ++ l) -> hd_ok no_sep l -> hd_ok no_call l ->
  fails (parse_fn_call_base_item toks false) p.
Proof.
  intros [(abs & fs & NE & -> & ->)|(-> & ->)] L H C C'; unfold fails, parse_fn_call_base_item.
  - px L. eapply wpx_use; [apply (path_expr_run abs fs toks p l NE L H C)|]. intros c q (A1 & A2 & A3). px L. reflexivity.
  - px L. unfold parse_name_as_expr. px L. eapply wpx_mono; [apply (name_fail toks L p _ H); reflexivity|intros ? ? []|]. intros e q ->. px L. reflexivity.
Qed.
Lemma cls_base_fail ts pa toks p l : Cls ts pa -> late2 toks -> here toks p (ts ++ l) -> fails (parse_base_variable toks (PE toks) false) p.
Proof.
  intros I L H. apply (base_fail toks p _ L H). destruct (cls_head ts pa I) as (t & r & -> & X). destruct t as [k| | | | | | | |]; try reflexivity; try discriminate X.
  destruct k; try reflexivity; discriminate X.
Qed.
Lemma name_novar ts pa toks p l : Cls ts pa -> late2 toks -> here toks p (ts ++ l) -> hd_ok no_name_end l -> hd_ok no_call l ->
  fails (parse_variable toks (PE toks) false None) p.
Proof.
  intros I L H C C'. unfold fails, parse_variable, variable_base. px L.
  eapply wpx_mono; [apply (scoped_name_fail false ts pa toks p l I L H C)|intros ? ? []|]. intros e q ->. px L.
  eapply wpx_mono; [apply (fn_call_fail ts pa toks p l I L H); [weak1 C|exact C']|intros ? ? []|]. intros e' q ->. px L.
  eapply wpx_mono; [apply (cls_base_fail ts pa toks p l I L H)|intros ? ? []|]. intros e'' q ->. px L. reflexivity.
Qed.
Lemma const_novar ts pa t s toks p l : Cls ts pa -> Ident t s -> late2 toks -> here toks p (ts ++ Kw KScopeOp :: t :: l) -> hd_ok no_call l ->
  fails (parse_variable toks (PE toks) false None) p.
Proof.
  intros I J L H C. unfold fails, parse_variable, variable_base. px L.
  eapply wpx_mono; [apply (scoped_const_fail ts pa t s toks p l I J L H C)|intros ? ? []|]. intros e q ->. px L.
  eapply wpx_mono; [apply (fn_call_fail ts pa toks p _ I L H); reflexivity|intros ? ? []|]. intros e' q ->. px L.
  eapply wpx_mono; [apply (cls_base_fail ts pa toks p _ I L H)|intros ? ? []|]. intros e'' q ->. px L. reflexivity.
Qed.

(** ** Bases of variables *)
Lemma var_simple so s : VarS so [TVariable s] (Ex (EVar (VName s)) span_new).
Proof.
  split; [eauto|]. intros toks L p l H R E K. cbn [app] in H. unfold parse_variable, variable_base. px L.
  assert (F1 : fails (parse_const_scoped toks so) p).
  { unfold fails, parse_const_scoped, parse_class_name, parse_name_as_expr. px L.
    eapply wpx_mono; [apply (name_fail toks L p _ H); reflexivity|intros ? ? []|]. intros e q ->. px L. reflexivity. }
  assert (F2 : fails (parse_fn_call_base_item toks so) p).
  { destruct so; [cbn; unfold fails, parse_fn_call_base_item; px L; reflexivity|]. destruct (scoped_fail toks p _ L H) as [_ F2]; [reflexivity|exact F2]. }
  eapply wpx_mono; [exact F1|intros ? ? []|]. intros e q ->. px L.
  eapply wpx_mono; [exact F2|intros ? ? []|]. intros e' q ->. px L.
  unfold parse_base_variable, parse_simple_variable_expr, parse_simple_variable. destruct so; px L.
  all: apply K; auto; [apply same_span; cbn; lia|]. all: apply (lf_gt toks (S p) l HS).
Qed.
(** bases that start with a bracket, [array] or a string *)
Lemma base_var ts e : (exists t r, ts = t :: r /\ var_head t = true /\ tok_in [KStatic; KNsSeparator] t = false /\ match t with TString _ => False | _ => True end) ->
  (forall toks, late2 toks -> forall p l, here toks p (ts ++ l) -> wpx (parse_base_variable toks (PE toks) false) p (okq toks e p l) nofail) -> Var ts e.
Proof.
  intros (t & r & -> & T1 & T2 & T3) K. split; [eauto|]. intros toks L p l H R E KR. unfold parse_variable, variable_base. px1 L; cbv beta; px1 L; cbv beta; px1 L; cbv beta.
  destruct (scoped_fail toks p _ L H) as [F1 F2].
  { destruct t as [k| | | | | | | |]; try reflexivity; try contradiction. destruct k; try reflexivity; discriminate T2. }
  px1 L. eapply wpx_mono; [exact F1|intros ? ? []|]. intros e' q ->. px1 L.
  eapply wpx_mono; [exact F2|intros ? ? []|]. intros e'' q ->. px1 L.
  eapply wpx_use; [exact (K toks L p l H)|]. intros a q (A1 & A2 & A3). px1 L. apply KR; auto. apply (lf_gt toks q l A1).
Qed.
Lemma respan_same a e sp : same a e -> 1 <= sp_start sp -> same (Ex (enode a) sp) e.
Proof. intros [A1 A2] B. split; [|exact B]. rewrite <- A1. destruct a. reflexivity. Qed.
Lemma var_paren ts e : Full ts e -> Var (Kw KParenthesesOpen :: ts ++ [Kw KParenthesesClose]) e.
Proof.
  intros F. apply base_var; [exists (Kw KParenthesesOpen); eexists; repeat split|]. intros toks L p l H.
  cbn [app] in H. rewrite <- app_assoc in H. cbn [app] in H. unfold parse_base_variable. px L.
  eapply wpx_use; [exact (F toks L _ _ HS eq_refl)|]. intros a q (A1 & A2 & A3). px L. okk. apply respan_same; auto. cbn. lia.
Qed.
Lemma var_string s : Var [TCes s] (Ex (EString s) span_new).
Proof.
  apply base_var; [exists (TCes s); eexists; repeat split|]. intros toks L p l H.
  cbn [app] in H. unfold parse_base_variable. px L. eapply wpx_mono; [apply (simple_fail toks p _ L H); reflexivity|intros ? ? []|]. intros e q ->. px L.
  unfold parse_dereferencable_scalar. px L. apply okq_i; auto. apply same_span. cbn. lia.
Qed.
Lemma same_array r es sp sp' : map strip_pair r = map strip_pair es -> 1 <= sp_start sp -> same (Ex (EArray r) sp) (Ex (EArray es) sp').
Proof. intros E B. split; [|exact B]. unfold strip_expr. cbn. f_equal. f_equal. exact E. Qed.
Lemma var_array (tss : list (list token)) es : Forall2 Pair tss es -> Var (Kw KSquareBracketOpen :: commas tss ++ [Kw KSquareBracketClose]) (Ex (EArray es) span_new).
Proof.
  intros F. apply base_var; [exists (Kw KSquareBracketOpen); eexists; repeat split|]. intros toks L p l H.
  cbn [app] in H. rewrite <- app_assoc in H. cbn [app] in H. unfold parse_base_variable. px L.
  eapply wpx_mono; [apply (simple_fail toks p _ L H); reflexivity|intros ? ? []|]. intros e q ->. px L.
  unfold parse_dereferencable_scalar. px L. eapply wpx_use; [apply (pair_list_run tss es F toks L _ _ HS); reflexivity|].
  intros r q (A1 & A2 & A3). px L. okk. apply same_array; auto. cbn. lia.
Qed.
Lemma var_array_word (tss : list (list token)) es : Forall2 Pair tss es ->
  Var (Kw KArray :: Kw KParenthesesOpen :: commas tss ++ [Kw KParenthesesClose]) (Ex (EArray es) span_new).
Proof.
  intros F. apply base_var; [exists (Kw KArray); eexists; repeat split|]. intros toks L p l H.
  cbn [app] in H. rewrite <- app_assoc in H. cbn [app] in H. unfold parse_base_variable. px L.
  eapply wpx_mono; [apply (simple_fail toks p _ L H); reflexivity|intros ? ? []|]. intros e q ->. px L.
  unfold parse_dereferencable_scalar. px L. eapply wpx_use; [apply (pair_list_run tss es F toks L _ _ HS0); reflexivity|].
  intros r q (A1 & A2 & A3). px L. okk. apply same_array; auto. cbn. lia.
Qed.

(** ** Extending variables *)
Definition as_idx (n : expr_) : option (expr * list (option expr)) := match n with EArrayIdx b l => Some (b, l) | _ => None end.
Lemma as_idx_map n : as_idx (map_expr_ no_spans n) = option_map (fun bl => (strip_expr (fst bl), map (option_map strip_expr) (snd bl))) (as_idx n).
Proof. destruct n; reflexivity. Qed.
Lemma push_idx_as v i e : push_idx v i e =
  match as_idx (enode v) with Some (b, l) => Ex (EArrayIdx b (l ++ [i])) (set_end e (espan v)) | None => Ex (EArrayIdx v [i]) (mk_span (estart v) e) end.
Proof. destruct v as [[] sp]; reflexivity. Qed.
Lemma push_idx_same a v i j e : same a v -> option_map strip_expr i = option_map strip_expr j -> same (push_idx a i e) (push_idx v j 0).
Proof.
  intros [S1 S2] E. rewrite !push_idx_as.
  assert (X : as_idx (map_expr_ no_spans (enode a)) = as_idx (map_expr_ no_spans (enode v))).
  { destruct a, v. exact (f_equal (fun x => as_idx (enode x)) S1). }
  rewrite !as_idx_map in X. destruct (as_idx (enode a)) as [[b l]|], (as_idx (enode v)) as [[b' l']|]; try discriminate X.
  - cbn in X. injection X as X1 X2. split; [|exact S2]. unfold strip_expr in *. cbn. rewrite !map_app. cbn. congruence.
  - split; [|exact S2]. unfold strip_expr in *. cbn. congruence.
Qed.
Definition as_prop (n : expr_) : option (expr * list (expr)) := match n with EObjMember b l => Some (b, l) | _ => None end.
Lemma as_prop_map n : as_prop (map_expr_ no_spans n) = option_map (fun bl => (strip_expr (fst bl), map (strip_expr) (snd bl))) (as_prop n).
Proof. destruct n; reflexivity. Qed.
Lemma push_prop_as v i e : push_prop v i e =
  match as_prop (enode v) with Some (b, l) => Ex (EObjMember b (l ++ [i])) (set_end e (espan v)) | None => Ex (EObjMember v [i]) (mk_span (estart v) e) end.
Proof. destruct v as [[] sp]; reflexivity. Qed.
Lemma push_prop_same a v i j e : same a v -> strip_expr i = strip_expr j -> same (push_prop a i e) (push_prop v j 0).
Proof.
  intros [S1 S2] E. rewrite !push_prop_as.
  assert (X : as_prop (map_expr_ no_spans (enode a)) = as_prop (map_expr_ no_spans (enode v))).
  { destruct a, v. exact (f_equal (fun x => as_prop (enode x)) S1). }
  rewrite !as_prop_map in X. destruct (as_prop (enode a)) as [[b l]|], (as_prop (enode v)) as [[b' l']|]; try discriminate X.
  - cbn in X. injection X as X1 X2. split; [|exact S2]. unfold strip_expr in *. cbn. rewrite !map_app. cbn. congruence.
  - split; [|exact S2]. unfold strip_expr in *. cbn. congruence.
Qed.
Definition as_static (n : expr_) : option (expr * list (expr)) := match n with EStaticMember b l => Some (b, l) | _ => None end.
Lemma as_static_map n : as_static (map_expr_ no_spans n) = option_map (fun bl => (strip_expr (fst bl), map (strip_expr) (snd bl))) (as_static n).
Proof. destruct n; reflexivity. Qed.
Lemma push_static_as v i e : push_static v i e =
  match as_static (enode v) with Some (b, l) => Ex (EStaticMember b (l ++ [i])) (set_end e (espan v)) | None => Ex (EStaticMember v [i]) (mk_span (estart v) e) end.
Proof. destruct v as [[] sp]; reflexivity. Qed.
Lemma push_static_same a v i j e : same a v -> strip_expr i = strip_expr j -> same (push_static a i e) (push_static v j 0).
Proof.
  intros [S1 S2] E. rewrite !push_static_as.
  assert (X : as_static (map_expr_ no_spans (enode a)) = as_static (map_expr_ no_spans (enode v))).
  { destruct a, v. exact (f_equal (fun x => as_static (enode x)) S1). }
  rewrite !as_static_map in X. destruct (as_static (enode a)) as [[b l]|], (as_static (enode v)) as [[b' l']|]; try discriminate X.
  - cbn in X. injection X as X1 X2. split; [|exact S2]. unfold strip_expr in *. cbn. rewrite !map_app. cbn. congruence.
  - split; [|exact S2]. unfold strip_expr in *. cbn. congruence.
Qed.
Lemma var_head_app ts ts' : (exists t r, ts = t :: r /\ var_head t = true) -> exists t r, ts ++ ts' = t :: r /\ var_head t = true.
Proof. intros (t & r & -> & H). cbn. eauto. Qed.
Ltac len_ := repeat (rewrite ?app_length in *; cbn [List.length] in *); lia.
Lemma var_idx so ts v ti i : VarS so ts v -> Full ti i ->
  VarS so (ts ++ Kw KSquareBracketOpen :: ti ++ [Kw KSquareBracketClose]) (push_idx v (Some i) 0).
Proof.
  intros [V1 V2] F. split; [apply var_head_app; auto|]. intros toks L p l H R E K. rewrite app_cons_assoc in H. rewrite <- app_assoc in H. cbn [app] in H.
  apply (V2 toks L p _ H). intros a q n A1 A2 A3 A4. destruct n as [|n]; [lia|]. cbn [appendixes]. px L. unfold parse_opt_expression. px1 L.
  eapply wpx_use; [exact (F toks L _ _ HS eq_refl)|]. intros i' q' (B1 & B2 & B3 & B4). px L. apply K; auto; [lia| |len_].
  apply push_idx_same; auto. cbn. congruence.
Qed.
Lemma var_idx_none so ts v : VarS so ts v -> VarS so (ts ++ [Kw KSquareBracketOpen; Kw KSquareBracketClose]) (push_idx v None 0).
Proof.
  intros [V1 V2]. split; [apply var_head_app; auto|]. intros toks L p l H R E K. rewrite app_cons_assoc in H. cbn [app] in H.
  apply (V2 toks L p _ H). intros a q n A1 A2 A3 A4. destruct n as [|n]; [lia|]. cbn [appendixes]. px L. unfold parse_opt_expression. px1 L.
  eapply wpx_mono; [apply (pe_fail toks PrNone _ _ L HS); reflexivity|intros ? ? []|]. intros e' q' ->. px L. apply K; auto; [|len_].
  apply push_idx_same; auto.
Qed.
(** property names *)
Definition Prop_ (ts : list token) (e : expr) : Prop :=
  (exists v, ts = [TVariable v] /\ e = Ex (EVar (VName v)) span_new) \/
  (exists s, ts = [TString s] /\ e = Ex (EPath (path_identifier false s)) span_new) \/
  (exists te, ts = Kw KCurlyBracesOpen :: te ++ [Kw KCurlyBracesClose] /\ Full te e).
Lemma prop_run ts e toks p l : Prop_ ts e -> late2 toks -> here toks p (ts ++ l) ->
  wpx (parse_property_name toks (PE toks)) p (fun a q => here toks q l /\ p < q /\ strip_expr a = strip_expr e) nofail.
Proof.
  intros P L H. unfold parse_property_name. destruct P as [(v & -> & ->)|[(s & -> & ->)|(te & -> & F)]]; cbn [app] in H.
  - unfold parse_simple_variable_expr, parse_simple_variable. px L. auto.
  - px L. eapply wpx_mono; [apply (simple_fail toks p _ L H); reflexivity|intros ? ? []|]. intros e' q ->. px L. auto.
  - px L. eapply wpx_mono; [apply (simple_fail toks p _ L H); reflexivity|intros ? ? []|]. intros e' q ->. px L.
    rewrite <- app_assoc in HS. cbn [app] in HS. eapply wpx_use; [exact (F toks L _ _ HS eq_refl)|]. intros a q (A1 & A2 & A3 & A4). px L. split; [auto|split; [lia|auto]].
Qed.
Lemma prop_len ts e : Prop_ ts e -> 1 <= List.length ts.
Proof. intros [(v & -> & _)|[(s & -> & _)|(te & -> & _)]]; cbn; lia. Qed.
Lemma var_prop so ts v tp e : VarS so ts v -> Prop_ tp e -> VarS so (ts ++ Kw KObjectOp :: tp) (push_prop v e 0).
Proof.
  intros [V1 V2] PR. split; [apply var_head_app; auto|]. intros toks L p l H R E K. rewrite app_cons_assoc in H.
  apply (V2 toks L p _ H). intros a q n A1 A2 A3 A4. destruct n as [|n]; [lia|]. cbn [appendixes]. px L.
  eapply wpx_use; [exact (prop_run tp e toks _ _ PR L HS)|]. intros i' q' (B1 & B2 & B3). px L. apply K; auto; [lia| |len_].
  apply push_prop_same; auto.
Qed.
Lemma var_static so ts v s : VarS so ts v -> VarS so (ts ++ [Kw KScopeOp; TVariable s]) (push_static v (Ex (EVar (VName s)) span_new) 0).
Proof.
  intros [V1 V2]. split; [apply var_head_app; auto|]. intros toks L p l H R E K. rewrite app_cons_assoc in H. cbn [app] in H.
  apply (V2 toks L p _ H). intros a q n A1 A2 A3 A4. destruct n as [|n]; [lia|]. cbn [appendixes]. px L.
  unfold parse_simple_variable_expr, parse_simple_variable. px L. apply K; auto; [|len_].
  apply push_static_same; auto.
Qed.
Lemma same_call a v r es sp : same a v -> sames r es -> same (Ex (ECall a r) (mk_span (estart a) sp)) (Ex (ECall v es) span_new).
Proof. intros [A1 A2] B. split; [|exact A2]. unfold sames, strip_expr in *. cbn. congruence. Qed.
Lemma call_step toks tss es n a v p l (R : expr -> nat -> Prop) (E : perror -> nat -> Prop) : late2 toks -> Forall2 Arg tss es -> here toks p (call_toks tss ++ l) -> same a v ->
  List.length (call_toks tss ++ l) < n ->
  (forall a q n, here toks q l -> p < q -> same a (Ex (ECall v es) span_new) -> List.length l < n -> wpx (appendixes toks (PE toks) n false a) q R E) ->
  wpx (appendixes toks (PE toks) n false a) p R E.
Proof.
  intros L F H S LN K. destruct n as [|n]; [lia|]. cbn [appendixes].
  assert (H' := H). rewrite call_app in H'. px L. eapply wpx_use; [exact (argument_list_run tss es F toks L p l H)|].
  intros r q (A1 & A2 & A3). px L. apply K; auto; [apply same_call; auto|]. rewrite call_app in LN. len_.
Qed.
Lemma var_call ts v tss es : Var ts v -> Forall2 Arg tss es -> Var (ts ++ call_toks tss) (Ex (ECall v es) span_new).
Proof.
  intros [V1 V2] F. split; [apply var_head_app; auto|]. intros toks L p l H R E K. rewrite <- app_assoc in H.
  apply (V2 toks L p _ H). intros a q n A1 A2 A3 A4. eapply call_step; eauto. intros. apply K; auto. lia.
Qed.
Lemma var_fn abs fs tss es : fs <> [] -> Forall2 Arg tss es -> Var (path_toks abs fs ++ call_toks tss) (Ex (ECall (Ex (EPath (path_of abs fs)) span_new) es) span_new).
Proof.
  intros NE F. assert (CL : Cls (path_toks abs fs) (path_of abs fs)) by (left; eauto).
  split; [apply var_head_app; eapply cls_var_head; eauto|].
  intros toks L p l H R E K. rewrite <- app_assoc in H. unfold parse_variable, variable_base. px L.
  eapply wpx_mono; [apply (scoped_name_fail false _ _ toks p _ CL L H); reflexivity|intros ? ? []|]. intros e q ->. px L.
  unfold parse_fn_call_base_item. px L. eapply wpx_use; [apply (path_expr_run abs fs toks p _ NE L H); reflexivity|].
  intros a q (A1 & A2 & A3). assert (A1' := A1). rewrite call_app in A1'. px L. eapply call_step; eauto; [apply (lf_gt toks q _ A1)|]. intros. apply K; auto. lia.
Qed.
Lemma var_scoped_call ts pa t s tss es : Cls ts pa -> Ident t s -> Forall2 Arg tss es ->
  Var (ts ++ Kw KScopeOp :: t :: call_toks tss)
    (Ex (ECall (Ex (EStaticMember (Ex (EPath pa) span_new) [Ex (EPath (path_identifier false s)) span_new]) span_new) es) span_new).
Proof.
  intros CL I F. split; [apply var_head_app; eapply cls_var_head; eauto|].
  intros toks L p l H R E K. rewrite app_cons_assoc in H. cbn [app] in H. unfold parse_variable, variable_base. px L.
  assert (H' := H). change (call_toks tss ++ l) with (Kw KParenthesesOpen :: (commas tss ++ [Kw KParenthesesClose]) ++ l) in H'.
  eapply wpx_use; [apply (scoped_call_run ts pa t s toks p _ CL I L H')|]. intros a q (A1 & A2 & A3). px L.
  assert (A1' : here toks q (call_toks tss ++ l)) by exact A1. eapply call_step; eauto; [apply (lf_gt toks q _ A1')|]. intros. apply K; auto. lia.
Qed.
Lemma var_scoped_var ts pa s : Cls ts pa ->
  Var (ts ++ [Kw KScopeOp; TVariable s]) (Ex (EStaticMember (Ex (EPath pa) span_new) [Ex (EVar (VName s)) span_new]) span_new).
Proof.
  intros CL. split; [apply var_head_app; eapply cls_var_head; eauto|].
  intros toks L p l H R E K. rewrite app_cons_assoc in H. cbn [app] in H. unfold parse_variable, variable_base. px L.
  eapply wpx_use; [apply (scoped_var_run false ts pa s toks p _ CL L H)|]. intros a q (A1 & A2 & A3). px L. apply K; auto. apply (lf_gt toks q l A1).
Qed.

(** ** Operands that are no variables *)
Lemma op_noname l : oplike l -> hd_ok no_name_end l /\ hd_ok no_call l /\ hd_ok no_sep l.
Proof. intros H. repeat split; weak. Qed.
(** the way to [parse_scalar] *)
Lemma to_scalar toks p l Q : late2 toks -> here toks p l -> hd_ok (fun t => plain_tok t && negb (tok_in [KList; KParenthesesOpen] t))%bool l ->
  fails (parse_variable toks (PE toks) false None) p -> wpx (parse_scalar toks (PE toks)) p Q nofail ->
  wpx (parse_other_expression toks (PE toks) (PS toks)) p Q nofail.
Proof.
  intros L H C F K. eapply other_plain; eauto.
  { eapply hd_weak; [|exact C]. intros t X. apply andb_prop in X. tauto. }
  unfold parse_variable_expression. px1 L. eapply wpx_mono; [exact F|intros ? ? []|]. intros e q ->. px L. eapply wpx_use; [exact K|auto].
Qed.
Lemma post_scalar t n : scalar_of t = Some n -> Post oplike [t] (Ex n span_new).
Proof.
  intros S. split. { exists t, []. split; auto. destruct t as [k| | | | | | | |]; auto. destruct k; auto; discriminate. }
  intros toks L p l H C. cbn [app] in H. eapply to_scalar; eauto.
  - destruct t as [k| | | | | | | |]; try discriminate S; try reflexivity. destruct k; try reflexivity; discriminate S.
  - apply (var_fail toks p _ L H). destruct t as [k| | | | | | | |]; try discriminate S; try reflexivity. destruct k; try reflexivity; discriminate S.
  - unfold parse_scalar. px L. rewrite S. px L. apply okq_i; auto. apply same_span. lia.
Qed.
Lemma constant_scalar toks p l Q t r : late2 toks -> here toks p l -> l = t :: r -> (name_tok t || tok_in [KStatic] t)%bool = true ->
  wpx (parse_constant toks) p Q nofail -> wpx (parse_scalar toks (PE toks)) p Q nofail.
Proof.
  intros L H -> T K. unfold parse_scalar. px L.
  assert (S : scalar_of t = None) by (destruct t as [k| | | | | | | |]; try discriminate T; try reflexivity; destruct k; try reflexivity; discriminate T).
  rewrite S. assert (X : wpx (pcatch (parse_dereferencable_scalar toks (PE toks)) pret (fun _ => parse_constant toks)) p Q nofail).
  { apply wpx_catch. eapply wpx_mono; [apply (deref_fail toks p _ L H)|intros ? ? []|].
    - destruct t as [k| | | | | | | |]; try discriminate T; try reflexivity; destruct k; try reflexivity; discriminate T.
    - intros e q ->. exact K. }
  destruct t as [k| | | | | | | |]; try exact X. destruct k; try exact X; discriminate T.
Qed.
Lemma resolve_same c c' : same c c' -> same (resolve_constant c) (resolve_constant c').
Proof.
  intros [S1 S2]. destruct c as [n sp], c' as [n' sp']. unfold strip_expr in S1. unfold same, strip_expr. cbn in S1. injection S1 as S1.
  assert (X : forall n, (exists pa, n = EPath pa) \/ (forall sp, resolve_constant (Ex n sp) = Ex n sp /\ match map_expr_ no_spans n with EPath _ => False | _ => True end)).
  { intros m. destruct m; try (right; intros; split; [reflexivity|exact I]). left; eauto. }
  destruct (X n) as [(pa & ->)|X1], (X n') as [(pa' & ->)|X2].
  - cbn in S1. injection S1 as <-. cbn. destruct (namespace pa); [cbn; auto|]. repeat (destruct (str_eqb _ _); [cbn; auto|]). cbn. auto.
  - exfalso. destruct (X2 span_new) as [_ Y]. rewrite <- S1 in Y. exact Y.
  - exfalso. destruct (X1 span_new) as [_ Y]. rewrite S1 in Y. exact Y.
  - rewrite (proj1 (X1 sp)), (proj1 (X2 sp')). split; [|exact S2]. cbn. congruence.
Qed.
Lemma cls_plain ts pa l : Cls ts pa -> hd_ok (fun t => plain_tok t && negb (tok_in [KList; KParenthesesOpen] t))%bool (ts ++ l).
Proof. intros I. destruct (cls_head ts pa I) as (t & r & -> & T). cbn. destruct t as [k| | | | | | | |]; try discriminate T; try reflexivity. destruct k; try reflexivity; discriminate T. Qed.
Lemma cls_unop ts pa ts' : Cls ts pa -> exists t r, ts ++ ts' = t :: r /\ unop_of t = None.
Proof. intros I. destruct (cls_head ts pa I) as (t & r & -> & T). cbn. exists t. eexists. split; eauto. destruct t as [k| | | | | | | |]; try discriminate T; try reflexivity. destruct k; try reflexivity; discriminate T. Qed.
Lemma post_name ts pa : Cls ts pa -> Post oplike ts (resolve_constant (Ex (EPath pa) span_new)).
Proof.
  intros I. split; [rewrite <- (app_nil_r ts); eapply cls_unop; eauto|]. intros toks L p l H C. destruct (op_noname l C) as (C1 & C2 & C3).
  eapply to_scalar; eauto using cls_plain, name_novar. destruct (cls_head ts pa I) as (t & r & E & T).
  eapply constant_scalar; [exact L|exact H|rewrite E; reflexivity|exact T|]. unfold parse_constant. px L. eapply wpx_use; [apply (cls_run ts pa toks p l I L H C3)|].
  intros a q (A1 & A2 & A3). px L. apply okq_i; auto. apply resolve_same; auto.
Qed.
Lemma post_const ts pa t s : Cls ts pa -> Ident t s ->
  Post oplike (ts ++ [Kw KScopeOp; t]) (Ex (EStaticMember (resolve_constant (Ex (EPath pa) span_new)) [Ex (EPath (path_identifier false s)) span_new]) span_new).
Proof.
  intros I J. split; [eapply cls_unop; eauto|]. intros toks L p l H C. destruct (op_noname l C) as (C1 & C2 & C3). rewrite app_cons_assoc in H. cbn [app] in H.
  eapply to_scalar; eauto using cls_plain, const_novar. destruct (cls_head ts pa I) as (t' & r & E & T).
  eapply constant_scalar; [exact L|exact H|rewrite E; reflexivity|exact T|]. unfold parse_constant. px L. eapply wpx_use; [apply (cls_run ts pa toks p _ I L H); reflexivity|].
  intros a q (A1 & A2 & A3). px L. eapply wpx_use; [exact (ident_run t s toks _ _ J L HS)|]. intros i q' (B1 & B2 & B3 & B4). px L. okk.
  pose proof (resolve_same a _ A3) as [R1 R2]. apply same_static_member; auto. split; auto.
Qed.

(** ** Prefix operators, casts, keywords *)
Lemma operand_unop (c : list token -> Prop) t o ts e : (forall l, c l -> oplike l) -> unop_of t = Some o -> Operand c ts e ->
  Operand c (t :: ts) (Ex (EUnary o e) span_new).
Proof.
  intros CC U O toks L p l H C. cbn [app] in H. unfold head_expr. px1 L. eapply (wpx_peek toks L); [exact H|]. cbv beta iota. rewrite U. px L.
  apply wpx_head. eapply wpx_use; [exact (O toks L _ l HS C)|]. intros a q (A1 & A2 & A3 & A4).
  apply loop_stop with l; auto; [|unfold lf; lia|].
  - pose proof (CC l C) as CO. unfold prec_le. destruct l as [|[k| | | | | | | |] l]; auto. unfold PrUnary. destruct k; cbn; auto; lia.
  - px L. okk. split; [|cbn; lia]. unfold strip_expr in *. cbn. congruence.
Qed.
Lemma post_cast (c : list token -> Prop) k ct ts e : (forall l, c l -> oplike l) -> cast_ty k = Some ct -> Operand c ts e ->
  Post c (Kw k :: ts) (Ex (ECast ct e) span_new).
Proof.
  intros CC U O. split; [eexists; eexists; split; [reflexivity|destruct k; try discriminate U; reflexivity]|]. intros toks L p l H C. cbn [app] in H.
  assert (NK : tok_in [KNew; KClone; KExit; KYield; KFunction] (Kw k) = false) by (destruct k; try discriminate U; reflexivity).
  assert (HX : hd_ok (fun t => negb (tok_in [KNew; KClone; KExit; KYield; KFunction] t)) (Kw k :: ts ++ l)) by (unfold hd_ok; rewrite NK; reflexivity).
  unfold parse_other_expression.
  do 5 (eapply (wpx_look_cls toks L); [exact H|exact HX|reflexivity|]).
  unfold parse_internal. px L. rewrite U. px L.
  apply wpx_head. eapply wpx_use; [exact (O toks L _ l HS C)|]. intros a q (A1 & A2 & A3 & A4).
  apply loop_stop with l; auto; [|unfold lf; lia|].
  - unfold prec_le. destruct l as [|[k'| | | | | | | |] l]; auto. unfold PrUnary. destruct k'; cbn; auto; lia.
  - px L. okk. split; [|cbn; lia]. unfold strip_expr in *. cbn. congruence.
Qed.
Lemma post_include k it ts e : include_of k = Some it -> Full ts e -> Post closing (Kw k :: ts) (Ex (EInclude it e) span_new).
Proof.
  intros U O. split; [eexists; eexists; split; [reflexivity|destruct k; try discriminate U; reflexivity]|]. intros toks L p l H C. cbn [app] in H.
  assert (NK : tok_in [KNew; KClone; KExit; KYield; KFunction] (Kw k) = false) by (destruct k; try discriminate U; reflexivity).
  assert (HX : hd_ok (fun t => negb (tok_in [KNew; KClone; KExit; KYield; KFunction] t)) (Kw k :: ts ++ l)) by (unfold hd_ok; rewrite NK; reflexivity).
  unfold parse_other_expression.
  do 5 (eapply (wpx_look_cls toks L); [exact H|exact HX|reflexivity|]).
  unfold parse_internal. px L. replace (cast_ty k) with (@None ty) by (destruct k; try discriminate U; reflexivity). rewrite U. px L.
  eapply wpx_use; [exact (O toks L _ l HS C)|]. intros a q (A1 & A2 & A3 & A4). px L. okk. split; [|cbn; lia]. unfold strip_expr in *. cbn. congruence.
Qed.
Lemma post_isset (c : list token -> Prop) tss es : tss <> [] -> Forall2 Full tss es ->
  Post c (Kw KIsset :: Kw KParenthesesOpen :: commas tss ++ [Kw KParenthesesClose]) (Ex (EIsset es) span_new).
Proof.
  intros NE F. split; [eexists; eexists; split; reflexivity|]. intros toks L p l H _. cbn [app] in H. rewrite <- app_assoc in H. cbn [app] in H.
  unfold parse_other_expression, parse_internal. px L. cbn [cast_ty include_of]. px L.
  eapply wpx_use; [apply (isset_run tss es NE F toks L _ _ HS0); reflexivity|]. intros r q (A1 & A2 & A3). px L. okk.
  split; [|cbn; lia]. unfold sames, strip_expr in *. cbn. congruence.
Qed.
Lemma post_empty (c : list token -> Prop) ts e : Full ts e ->
  Post c (Kw KEmpty :: Kw KParenthesesOpen :: ts ++ [Kw KParenthesesClose]) (Ex (EEmpty e) span_new).
Proof.
  intros F. split; [eexists; eexists; split; reflexivity|]. intros toks L p l H _. cbn [app] in H. rewrite <- app_assoc in H. cbn [app] in H.
  unfold parse_other_expression, parse_internal. px L. cbn [cast_ty include_of]. px L. unfold lf. cbn [isset_args]. px L.
  eapply wpx_use; [apply (F toks L _ _ HS0); reflexivity|]. intros r q (A1 & A2 & A3 & A4). px L. okk.
  split; [|cbn; lia]. unfold strip_expr in *. cbn. congruence.
Qed.
Lemma post_exit (c : list token -> Prop) ts e : Full ts e ->
  Post c (Kw KExit :: Kw KParenthesesOpen :: ts ++ [Kw KParenthesesClose]) (Ex (EExit (Some e)) span_new).
Proof.
  intros F. split; [eexists; eexists; split; reflexivity|]. intros toks L p l H _. cbn [app] in H. rewrite <- app_assoc in H. cbn [app] in H.
  unfold parse_other_expression. px L. 
  eapply wpx_use; [apply (F toks L _ _ HS0); reflexivity|]. intros r q (A1 & A2 & A3 & A4). px L. okk.
  split; [|cbn; lia]. unfold strip_expr in *. cbn. congruence.
Qed.
Lemma post_exit_none : Post oplike [Kw KExit] (Ex (EExit None) span_new).
Proof.
  split; [eexists; eexists; split; reflexivity|]. intros toks L p l H C. cbn [app] in H. unfold oplike in C.
  unfold parse_other_expression. px L. okk. apply same_span; cbn; lia.
Qed.
Lemma post_clone ts e : Full ts e -> Post closing (Kw KClone :: ts) (Ex (EClone e) span_new).
Proof.
  intros F. split; [eexists; eexists; split; reflexivity|]. intros toks L p l H C. cbn [app] in H.
  unfold parse_other_expression. px L.
  eapply wpx_use; [apply (F toks L _ _ HS C)|]. intros r q (A1 & A2 & A3 & A4). px L. okk.
  split; [|unfold estart; cbn [espan sp_start mk_span]; lia]. unfold strip_expr in *. cbn. congruence.
Qed.
Lemma post_yield ts e : Full ts e -> Post closing (Kw KYield :: ts) (Ex (EYield (Some e)) span_new).
Proof.
  intros F. split; [eexists; eexists; split; reflexivity|]. intros toks L p l H C. cbn [app] in H.
  unfold parse_other_expression. px L. unfold parse_opt_expression. px1 L.
  eapply wpx_use; [apply (F toks L _ _ HS C)|]. intros r q (A1 & A2 & A3 & A4). px L. okk.
  split; [|cbn; lia]. unfold strip_expr in *. cbn. congruence.
Qed.
Lemma post_yield_none : Post closing [Kw KYield] (Ex (EYield None) span_new).
Proof.
  split; [eexists; eexists; split; reflexivity|]. intros toks L p l H C. cbn [app] in H.
  unfold parse_other_expression. px L. unfold parse_opt_expression. px1 L.
  eapply wpx_mono; [apply (pe_fail toks PrNone _ _ L HS); eapply hd_weak; [|exact C]; apply closer_fail|intros ? ? []|]. intros e' q' ->. px L. okk. apply same_span; cbn; lia.
Qed.
Lemma list_assign tss es te e : Forall2 Pair tss es -> Full te e ->
  Post closing (Kw KList :: Kw KParenthesesOpen :: commas tss ++ Kw KParenthesesClose :: Kw KEqual :: te) (Ex (EAssign (Ex (EList es) span_new) e) span_new).
Proof.
  intros F1 F2. split; [eexists; eexists; split; reflexivity|]. intros toks L p l H C. cbn [app] in H. rewrite app_cons_assoc in H. cbn [app] in H.
  eapply other_plain; eauto; [reflexivity|]. unfold parse_variable_expression. px1 L. eapply wpx_mono; [apply (var_fail toks p _ L H); reflexivity|intros ? ? []|]. intros x q ->. px L.
  eapply wpx_use; [apply (pair_list_run tss es F1 toks L _ _ HS0); reflexivity|]. intros r q (A1 & A2 & A3). px L.
  eapply wpx_use; [apply (assign_run toks _ (Ex (EList es) span_new) te e KEqual OEq _ l L); auto; [|apply (full_no_amp te e F2)|apply (full_no_amp te e F2)]|].
  - split; [|cbn; lia]. unfold strip_expr. cbn. f_equal. f_equal. exact A3.
  - intros a q' (B1 & B2 & B3). okk. exact B3.
Qed.

(** ** [new] and [instanceof] *)
Definition ClsRef (ts : list token) (e : expr) : Prop :=
  (exists pa, Cls ts pa /\ e = Ex (EPath pa) span_new) \/ (VarS true ts e /\ exists v r, ts = TVariable v :: r).
Lemma clsref_run ts e toks p l : ClsRef ts e -> late2 toks -> here toks p (ts ++ l) -> hd_ok (fun t => negb (tok_in [KSquareBracketOpen; KObjectOp; KScopeOp; KNsSeparator] t)) l ->
  wpx (parse_class_name_reference toks (PE toks)) p (okq toks e p l) nofail.
Proof.
  intros [(pa & I & ->)|((_ & V) & v & r & E)] L H C; unfold parse_class_name_reference.
  - px L. eapply wpx_use; [apply (cls_run ts pa toks p l I L H); weak|]. auto.
  - unfold parse_class_name, parse_name_as_expr. px1 L. subst ts. assert (H' := H). cbn [app] in H'. px L.
    eapply wpx_mono; [apply (name_fail toks L p _ H'); reflexivity|intros ? ? []|]. intros e' q ->.
    apply (V toks L p l H). intros a q n A1 A2 A3 A4. destruct n as [|n]; [lia|]. cbn [appendixes]. px L. okk. exact A3.
Qed.
Lemma post_new (c : list token -> Prop) tc x tss es : ClsRef tc x -> Forall2 Arg tss es -> Post c (Kw KNew :: tc ++ call_toks tss) (Ex (ENew x es) span_new).
Proof.
  intros I F. split; [eexists; eexists; split; reflexivity|]. intros toks L p l H C. cbn [app] in H. rewrite <- app_assoc in H.
  unfold parse_other_expression. px L. eapply wpx_use; [apply (clsref_run tc x toks _ _ I L HS); reflexivity|]. intros a q (A1 & A2 & A3 & A4).
  assert (A1' := A1). rewrite call_app in A1'. px L. eapply wpx_use; [exact (argument_list_run tss es F toks L q l A1)|]. intros r q' (B1 & B2 & B3). px L. okk.
  split; [|cbn; lia]. unfold sames, strip_expr in *. cbn. congruence.
Qed.
Lemma chain_instanceof ma fa ta a tb b : 16 <= ma -> 16 <= fa -> Chain ma fa ta a -> (forall x y, enode a <> EInstanceOf x y) -> ClsRef tb b ->
  Chain 16 15 (ta ++ Kw KInstanceOf :: tb) (Ex (EInstanceOf a b) span_new).
Proof.
  intros M F CA NI I toks L p l prec PR H C PL R K. rewrite app_cons_assoc in H.
  apply (CA toks L p (Kw KInstanceOf :: tb ++ l) prec); [lia|exact H|reflexivity|cbn; lia|].
  intros a' q n A1 A2 [A3 A3'] A4. destruct n as [|n]; [lia|]. cbn [binary_loop]. apply wpx_catch. unfold parse_binary_expression. px L.
  cbn [precedence]. destruct (Nat.leb_spec 16 prec); [lia|]. px L.
  assert (NI' : forall x y, enode a' <> EInstanceOf x y).
  { intros x y E. destruct a' as [n' sp'], a as [n0 sp0]. cbn in E. subst n'. unfold strip_expr in A3. cbn in A3. injection A3 as A3. destruct n0; try discriminate A3. eapply NI. reflexivity. }
  assert (X : wpx (right <~ parse_class_name_reference toks (PE toks);; pret (Some (Ex (EInstanceOf a' right) (mk_span (estart a') (eend right))))) (S q)
    (fun o q2 => match o with Some l0 => wpx (binary_loop toks (PE toks) n prec l0) q2 R nofail | None => False end) nofail).
  { px L. eapply wpx_use; [apply (clsref_run tb b toks _ l I L HS); weak1 C|]. intros b' q2 (B1 & B2 & B3 & B4). px L. apply K; auto; [lia| |len_].
    split; [|exact A3']. unfold strip_expr in *. cbn. congruence. }
  destruct a' as [n' sp']. destruct n'; try (eapply wpx_use; [exact X|]; intros [w0|] q20 W; [exact W|contradiction]). exfalso; eapply NI'; reflexivity.
Qed.
Lemma chain_ternary mc fc me fe tc c tt th te e : 4 <= mc -> 4 <= fc -> 4 < me -> 4 <= fe -> Chain mc fc tc c ->
  match th with Some t => exists mt ft, 4 < mt /\ Chain mt ft tt t | None => tt = [] end -> Chain me fe te e ->
  Chain 4 4 (tc ++ Kw KQuestionMark :: tt ++ Kw KColon :: te) (Ex (ETernary c th e) span_new).
Proof.
  intros M1 F1 M2 F2 CC CT CE toks L p l prec PR H C PL R K. rewrite app_cons_assoc in H. rewrite <- app_assoc in H. cbn [app] in H.
  apply (CC toks L p _ prec ltac:(lia) H eq_refl); [cbn; lia|].
  intros a' q n A1 A2 [A3 A3'] A4. destruct n as [|n]; [lia|]. cbn [binary_loop]. apply wpx_catch. unfold parse_binary_expression. px L.
  cbn [precedence]. destruct (Nat.leb_spec 4 prec); [lia|]. px L.
  assert (X : wpx (parse_opt_expression (PE toks) 4) (S q) (fun o q2 => here toks q2 (Kw KColon :: te ++ l) /\ q < q2 /\ option_map strip_expr o = option_map strip_expr th) nofail).
  { unfold parse_opt_expression. px1 L. destruct th as [t|].
    - destruct CT as (mt & ft & M & CT). eapply wpx_use; [apply (chain_at mt ft tt t CT toks L 4 _ _ M HS); [reflexivity|exact I|exact I]|].
      intros b q2 (B1 & B2 & B3 & B4). px L. split; [auto|split; [lia|cbn; congruence]].
    - subst tt. cbn [app] in HS. eapply wpx_mono; [apply (pe_fail toks 4 _ _ L HS); reflexivity|intros ? ? []|]. intros e' q' ->. px L. auto. }
  eapply wpx_use; [exact X|]. intros o q2 (B1 & B2 & B3). px L.
  eapply wpx_use; [apply (chain_at me fe te e CE toks L 4 _ l M2 HS0 C); [eapply precle_weak; eauto|exact PL]|]. intros e' q3 (D1 & D2 & D3 & D4). px L.
  apply K; auto; [lia| |len_]. split; [|exact A3']. unfold strip_expr in *. cbn. congruence.
Qed.
(** greedy operands may end a chain *)
Lemma full_closing (c : list token -> Prop) ts e : (forall l, closing l -> c l) -> Operand c ts e -> Full ts e.
Proof. intros CC O toks L p l H C. eapply operand_full; eauto. Qed.
