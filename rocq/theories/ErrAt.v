(** * ErrAt: where the parser reports that nothing starts here *)
From Verif Require Import Base Tokens Ast AstMap AstInd Lexer Parser Driver Wp ParserTermination ParserMono ParserRel ParseRun ParseTac ParseExpr ParseStmt.
From Coq Require Import String.

Definition at_ (p : nat) : perror -> nat -> Prop := fun e q => q = p /\ err_pos e = p.
Definition halts {A} (m : P A) (p : nat) : Prop := wpx m p (fun _ _ => False) (at_ p).
Definition dat (p : nat) (d : deep) : Prop := match d with Some (_, e) => err_pos e = p | None => True end.
Lemma dat_upd p d e : dat p d -> err_pos e = p -> dat p (deep_upd d e).
Proof. intros H K. destruct d as [[x e']|]; unfold deep_upd; [destruct (x <? err_pos e)|]; cbn; auto. Qed.
Lemma dat_none p : dat p None. Proof. exact I. Qed.
Lemma unpack_halts {A} d p : dat p d -> halts (deepest_unpack (A := A) d) p.
Proof. destruct d as [[x e]|]; intros H; split; auto. Qed.
Lemma wpx_err_at {A} ts p (Q : A -> nat -> Prop) (E : perror -> nat -> Prop) : E (mkErr ts p) p -> wpx (perr ts) p Q E.
Proof. exact (fun h => h). Qed.
(** as [px], but the position of errors is kept *)
Ltac hx1 L :=
  lazymatch goal with
  | |- wpx (perr _) _ _ _ => apply wpx_err_at
  | |- wpx (deepest_unpack _) _ _ _ => eapply wpx_mono; [apply unpack_halts; eauto using dat_upd, dat_none|intros ? ? []|intros ? ? [-> ?]]
  | _ => px1 L
  end.
Ltac hx L := next_here L; repeat (hx1 L; cbv beta).
Ltac dn := split; [reflexivity|first [reflexivity|assumption]].
(** the first parser of an alternative gives up *)
Ltac halt H := eapply wpx_mono; [apply H|intros ? ? []|]; intros ?e ?q [-> ?].

Lemma halts_fails {A} (m : P A) p : halts m p -> fails m p.
Proof. intros H. eapply wpx_mono; [exact H|auto|]. intros e q []. auto. Qed.
Section At.
Variable toks : list tokspan.
Hypothesis L : late2 toks.
Notation here := (here toks).
Lemma name_halts p l : here p l -> hd_ok no_name l -> halts (parse_name toks) p.
Proof. intros H C. unfold halts, parse_name, parse_namespace_name. hx L. unfold lf. cbn [ns_fragments]. hx L. dn. Qed.
Lemma simple_halts p l : here p l -> hd_ok (fun t => match t with Kw KDollar | TVariable _ => false | _ => true end) l -> halts (parse_simple_variable_expr toks) p.
Proof. intros H C. unfold halts, parse_simple_variable_expr, parse_simple_variable. hx L. dn. Qed.
Lemma deref_halts p l : here p l -> hd_ok (fun t => match t with Kw KArray | Kw KSquareBracketOpen | TCes _ => false | _ => true end) l ->
  halts (parse_dereferencable_scalar toks (PE toks)) p.
Proof. intros H C. unfold halts, parse_dereferencable_scalar. hx L. dn. Qed.
Lemma base_halts p l : here p l ->
  hd_ok (fun t => match t with Kw KDollar | TVariable _ | Kw KArray | Kw KSquareBracketOpen | Kw KParenthesesOpen | TCes _ => false | _ => true end) l ->
  halts (parse_base_variable toks (PE toks) false) p.
Proof.
  intros H C. unfold halts, parse_base_variable. hx L. eapply wpx_mono; [apply (simple_halts p l H); weak|intros ? ? []|]. intros e q [-> E1].
  hx L. eapply wpx_mono; [apply (deref_halts p l H); weak|intros ? ? []|]. intros e' q [-> E2]. hx L. dn.
Qed.
Lemma scoped_halts p l : here p l -> hd_ok (fun t => match t with TString _ | Kw KNsSeparator | Kw KStatic => false | _ => true end) l ->
  halts (parse_const_scoped toks false) p /\ halts (parse_fn_call_base_item toks false) p.
Proof.
  intros H C. assert (N : hd_ok no_name l) by weak. split.
  - unfold halts, parse_const_scoped, parse_class_name, parse_name_as_expr. hx L. halt (name_halts p l H N). hx L. dn.
  - unfold halts, parse_fn_call_base_item, parse_name_as_expr. hx L. halt (name_halts p l H N). hx L. dn.
Qed.
Lemma var_halts p l : here p l -> hd_ok novar_tok l -> halts (parse_variable toks (PE toks) false None) p.
Proof.
  intros H C. unfold halts, parse_variable, variable_base. hx L.
  destruct (scoped_halts p l H) as [F1 F2]; [weak|].
  halt F1. hx L. halt F2. hx L. eapply wpx_mono; [apply (base_halts p l H); weak|intros ? ? []|]. intros e1 q [-> E1]. hx L. split; auto.
Qed.
Lemma scalar_halts p t l : here p (t :: l) -> fail_tok t = true -> halts (parse_scalar toks (PE toks)) p.
Proof.
  intros H C. assert (H0 := H). unfold halts, parse_scalar. hx L.
  assert (X : scalar_of t = None).
  { unfold fail_tok in C. destruct (unop_of t), (scalar_of t); auto; rewrite !andb_false_r in C; discriminate. }
  rewrite X. assert (CC : hd_ok fail_tok (t :: l)) by exact C.
  assert (Y : halts (pcatch (parse_dereferencable_scalar toks (PE toks)) pret (fun _ => parse_constant toks)) p).
  { unfold halts. hx L. eapply wpx_mono; [apply (deref_halts p _ H); weak|intros ? ? []|]. intros e q [-> E1].
    revert H0 CC. generalize (t :: l). intros l' H0 CC. clear H.
    unfold parse_constant, parse_class_name, parse_name_as_expr. hx L. eapply wpx_mono; [apply (name_halts p l' H0); weak|intros ? ? []|]. intros e' q [-> E2]. hx L. dn. }
  destruct t as [k| | | | | | | |]; try exact Y. destruct k; try exact Y; discriminate C.
Qed.
Lemma pe_halts prec p l : here p l -> hd_ok fail_tok l -> halts (PE toks prec) p.
Proof.
  intros H C. apply wpx_head. destruct l as [|t l].
  { unfold head_expr. hx L. dn. }
  destruct (fail_novar t C) as (N1 & N2 & N3 & N4). eapply head_post; eauto. unfold parse_postfix_expression. hx1 L.
  assert (CC : hd_ok fail_tok (t :: l)) by exact C.
  eapply other_plain; eauto. unfold parse_variable_expression. hx1 L.
  halt (var_halts p _ H N1). cbv zeta beta.
  assert (S1 : halts (parse_scalar toks (PE toks)) p) by (eapply scalar_halts; eauto).
  assert (N5 : hd_ok (fun t => negb (tok_in [KList; KParenthesesOpen] t)) (t :: l)) by (cbn [hd_ok]; rewrite N4; reflexivity).
  revert H N5 S1. generalize (t :: l). intros l' H N5 S1. hx L. eapply wpx_mono; [exact S1|intros ? ? []|]. intros e' q [-> E2]. hx L. dn.
Qed.
Lemma oo_halts p l : here p l -> hd_ok (fun t => negb (tok_in [KTrait; KInterface; KAbstract; KFinal; KClass] t)) l ->
  halts (parse_oo_declaration toks (PE toks) (PS toks)) p.
Proof. intros H C. unfold halts, parse_oo_declaration. hx L. unfold lf. cbn [class_mods]. hx L. unfold expect. hx L. dn. Qed.
End At.
