(** * RoundTrip: printing and parsing give the tree back (C20) *)
From Verif Require Import Base Tokens Ast AstMap AstInd Lexer Parser Printer Driver Spec SpecProg SpecRT SmallFacts ParserRel ParserFacts LexBase LexSteps LexTok LexWords LexNum LexFacts LexRun LexCrash ParseRun ParseTac ParseExpr ParseStmt ParseDecl Emit ProgNames RTBase RTExpr RTStmt RTStm2 LexMono.
From Coq Require Import String Ascii.

(** ** Forgetting positions twice *)
Definition id2 {A} (mp : maps -> A -> A) (x : A) : Prop := mp no_spans (mp no_spans x) = mp no_spans x.
Ltac eqs2 :=
  repeat first
  [ reflexivity
  | match goal with H : id2 _ ?x |- _ => apply H end
  | rewrite map_map
  | match goal with H : Forall _ ?l |- map _ ?l = map _ ?l => apply map_ext_F; eapply Forall_impl; [|exact H];
      let a := fresh "a" in intros a ?;
      repeat match goal with
      | x : _ * _ |- _ => destruct x; cbn [fst snd option_map] in *
      | H : _ /\ _ |- _ => destruct H
      | H : optP _ ?o |- _ => destruct o; cbn [optP option_map] in *
      end
    | |- map _ ?l = map _ ?l => apply map_ext; let a := fresh "a" in intros a; repeat match goal with x : _ * _ |- _ => destruct x end
    end
  | f_equal ].
Lemma strip_twice :
  (forall x, id2 map_expr x) /\ (forall x, id2 map_expr_ x) /\ (forall x, id2 map_variable x) /\ (forall x, id2 map_fundecl x) /\ (forall x, id2 map_param x) /\
  (forall x, id2 map_stmt x) /\ (forall x, id2 map_stmt_ x) /\ (forall x, id2 map_decl x) /\ (forall x, id2 map_member x) /\
  (forall x, id2 map_catch x) /\ (forall x, id2 map_swcase x).
Proof.
  apply ast_ind; intros; unfold id2;
  repeat match goal with H : optP _ ?o |- _ => destruct o; cbn [optP] in * end;
  cbn [map_expr map_expr_ map_variable map_fundecl map_param map_stmt map_stmt_ map_decl map_member map_catch map_swcase option_map
       no_spans m_sp m_var m_int m_dbl m_str];
  unfold id;
  eqs2.
Qed.
Lemma strip_idem l : strip (strip l) = strip l.
Proof. unfold strip. rewrite map_map. apply map_ext. intros s. destruct strip_twice as (_ & _ & _ & _ & _ & H & _). apply H. Qed.

(** ** The induction *)
Section Sf.
Variable sf : str -> str.
Local Notation GE := (RTExpr.GE sf).
Local Notation GEx := (RTExpr.GEx sf).
Local Notation GS := (RTStmt.GS sf).
(** an expression, and what is inside a reference, an unpacking or a list *)
Definition inside (x : expr_) : Prop :=
  match x with EUnpack e | ERef e => GE e | EList l => Forall (pairp sf) l | _ => True end.
Definition QE (e : expr) : Prop := GE e /\ inside (enode e).
Definition QN (x : expr_) : Prop := (forall sp, GE (Ex x sp)) /\ inside x.
Lemma qe_all l : Forall QE l -> Forall GE l.
Proof. intros H. eapply Forall_impl; [|exact H]. intros e [A _]. exact A. Qed.
Lemma qe_opt o : optP QE o -> optP GE o.
Proof. destruct o; [intros [A _]; exact A|auto]. Qed.
Lemma qe_opts l : Forall (optP QE) l -> Forall (optP GE) l.
Proof. intros H. eapply Forall_impl; [|exact H]. apply qe_opt. Qed.
Lemma qe_args l : Forall QE l -> Forall (argp sf) l.
Proof. intros H. eapply Forall_impl; [|exact H]. intros [x sp] [A B]. unfold argp. destruct x; auto. Qed.
Lemma qe_tg e : QE e -> tgp sf e.
Proof. destruct e as [x sp]. intros [A B]. unfold tgp. destruct x; auto. Qed.
Lemma qe_otg o : optP QE o -> optP (tgp sf) o.
Proof. destruct o; [apply qe_tg|auto]. Qed.
Lemma qe_pairs l : Forall (fun kv => optP QE (fst kv) /\ QE (snd kv)) l -> Forall (pairp sf) l.
Proof. intros H. eapply Forall_impl; [|exact H]. intros kv [A [B _]]. split; [apply qe_opt, A|exact B]. Qed.
Ltac ands := repeat match goal with H : _ && _ = true |- _ => apply andb_prop in H; destruct H end.
Ltac negs := repeat match goal with H : negb _ = true |- _ => apply negb_true_iff in H end.
Ltac gets := repeat match goal with
  | H : QE ?e |- _ => let A := fresh "P" in let B := fresh "N" in destruct H as [A B]
  | P : RTExpr.GE sf ?e, G : good sf ?e = true |- _ =>
    let ts := fresh "ts" in let T := fresh "T" in destruct (P G) as (ts & T); clear G
  end.
Ltac args H := let tss := fresh "tss" in let A := fresh "A" in destruct (ge_args sf _ (qe_args _ H)) as (tss & A); [assumption|].
Lemma good_args l : forallb (fun e : expr => match e with Ex (EUnpack e') _ => good sf e' | e => good sf e end) l = forallb (good_arg sf) l.
Proof. reflexivity. Qed.

Lemma all_good :
  (forall x, QE x) /\ (forall x, QN x) /\ (forall x : variable, True) /\ (forall x, PFn sf x) /\ (forall x, GP sf x) /\ (forall x, GS x) /\ (forall x sp, GS (St x sp)) /\ (forall x, GD sf x) /\ (forall x, GM sf x) /\
  (forall x, GC sf x) /\ (forall x, GW sf x).
Proof.
  apply ast_ind; intros; auto;
    try (split; [|solve [cbn [inside]; auto; try apply qe_pairs; auto; match goal with H : QE _ |- _ => apply H end]]; intros sp G; try discriminate G).
  - destruct H as [A B]. split; auto.
  - (* EPath *) exists (path_tokens x0). apply ge_path, G.
  - (* EConst *) apply ge_const, G.
  - eexists. apply ge_string, G.
  - eexists. apply ge_int, G.
  - eexists. apply ge_double, G.
  - apply ge_array; [apply qe_pairs, H|exact G].
  - destruct x0; [|discriminate]. eexists. apply ge_vname, G.
  - change (good sf x0 = true) in G. gets. eexists. apply ge_clone; eauto.
  - change (some_list x0 && forallb (good sf) x0 = true) in G. ands. destruct (ge_all sf x0 (qe_all _ H)) as (tss & A); [assumption|]. eexists. eapply ge_isset; eauto.
  - change (good sf x0 = true) in G. gets. eexists. apply ge_empty; eauto.
  - destruct x0 as [e|]; [|discriminate]. change (good sf e = true) in G. cbn [optP] in H. gets. eexists. apply ge_exit; eauto.
  - change (good sf x1 = true) in G. gets. eapply ge_include; eauto.
  - change (good sf x0 && base_ok (enode x0) && negb (is_idx (enode x0)) && some_list x1 && forallb (fun i : option expr => match i with Some e => good sf e | None => true end) x1 = true) in G.
    ands. negs. gets. destruct (ge_base sf _ _ T) as (tb & B); [assumption|]. eapply ge_arrayidx; eauto. apply qe_opts. assumption.
  - change (good sf x0 && base_ok (enode x0) && negb (is_prop (enode x0)) && some_list x1 && forallb (good_prop sf) x1 = true) in G.
    ands. negs. gets. destruct (ge_base sf _ _ T) as (tb & B); [assumption|]. eapply ge_objmember; eauto. apply qe_all. assumption.
  - (* EStaticMember *) destruct x0 as [b sb]. change (some_list x1 && match b with
      | EPath p => match x1 with [Ex (EPath m) _] => const_class_ok p && member_name_ok m | _ => class_ok p && forallb (sv sf) x1 end
      | _ => good_ sf b && base_ok b && negb (is_smember b) && forallb (sv sf) x1 end = true) in G. apply andb_prop in G. destruct G as [N G].
    assert (D : (exists p, b = EPath p) \/ (good sf (Ex b sb) && base_ok b && negb (is_smember b) && forallb (sv sf) x1 = true /\ is_const_member b x1 = false)) by (destruct b; eauto).
    destruct D as [[p ->]|[D C]].
    + assert (D : (exists m sm, x1 = [Ex (EPath m) sm] /\ const_class_ok p && member_name_ok m = true) \/ class_ok p && forallb (sv sf) x1 = true).
      { destruct x1 as [|[i si] [|? ?]]; auto; destruct i; eauto. }
      destruct D as [(m & sm & -> & D)|D]; ands; [apply ge_const_member|apply ge_class_vars]; auto.
    + clear G. ands. negs. gets. destruct (ge_base sf _ _ T) as (tb & B); [assumption|]. eapply ge_base_vars; eauto.
  - (* ECall *) destruct x0 as [b sb]. change (forallb (good_arg sf) x1 && match b with
      | EPath p => path_ok p
      | EStaticMember (Ex (EPath p) _) [Ex (EPath m) _] => class_ok p && member_name_ok m
      | _ => good_ sf b && varlike b end = true) in G. apply andb_prop in G. destruct G as [GA G]. args H0.
    assert (D : (exists p, b = EPath p /\ path_ok p = true) \/ (exists p m s1 s2, b = EStaticMember (Ex (EPath p) s1) [Ex (EPath m) s2] /\ class_ok p && member_name_ok m = true) \/ (good sf (Ex b sb) && varlike b = true)).
    { destruct b; try (right; right; exact G); [left; eauto|]. destruct e as [y ?]. destruct y; try (right; right; exact G).
      destruct l as [|[i si] [|? ?]]; try (right; right; exact G); destruct i; try (right; right; exact G). right. left. do 4 eexists. split; [reflexivity|exact G]. }
    clear G. destruct D as [(p & -> & D)|[(p & m & s1 & s2 & -> & D)|D]]; ands.
    + eapply ge_call_fn; eauto.
    + eapply ge_call_static; eauto.
    + gets. eapply ge_call; eauto.
  - (* ENew *) change (class_ref x0 && forallb (good_arg sf) x1 = true) in G. ands. args H0. eapply ge_new; eauto.
  - (* EUnary *) change (good sf x1 && match x0 with UPreInc | UPreDec | UPostInc | UPostDec => varlike (enode x1) | _ => wrapped (enode x1) || atomic (enode x1) end = true) in G.
    apply andb_prop in G. destruct G as [G1 G2]. gets. destruct x0; first [solve [eapply ge_preinc; eauto] | solve [eapply ge_postinc; eauto] | destruct (ge_un sf _ _ T G2) as (tu & U); eapply ge_unary; eauto].
  - (* EBinary *) change (good sf x1 && good sf x2 && operand_ok (enode x1) && operand_ok (enode x2) && concat_ok x0 (enode x1) (enode x2) = true) in G. ands. gets.
    destruct (ge_op sf _ _ T) as (ta & A); [assumption|]. destruct (ge_op sf _ _ T0) as (tb & B); [assumption|]. eapply ge_binary; eauto.
  - (* EInstanceOf *) change (good sf x0 && atomic (enode x0) && negb (is_number (enode x0)) && class_ref x1 = true) in G. clear H0. ands. negs. gets. eapply ge_instanceof; eauto.
  - (* ECast *) change (castable x0 && good sf x1 = true) in G. ands. gets. eapply ge_cast; eauto.
  - (* EYield *) destruct x0 as [e|]; [|discriminate]. change (good sf e && negb (from_first e) = true) in G. cbn [optP] in H. ands. negs. gets. eexists. eapply ge_yield; eauto.
  - (* EFunction *) apply ge_function; auto.
  - (* EAssign *) destruct x0 as [a sa]. change (match a with EList l => forallb (good_pair sf) l | _ => good_ sf a && varlike a end && good sf x1 = true) in G. apply andb_prop in G. destruct G as [G1 G2].
    assert (D : (exists l, a = EList l /\ forallb (good_pair sf) l = true) \/ good sf (Ex a sa) && varlike a = true) by (destruct a; eauto). clear G1. destruct D as [(l & -> & D)|D].
    + destruct H as [_ I]. cbn [inside enode] in I. gets. eapply ge_list_assign; eauto.
    + ands. gets. eapply ge_assign; eauto.
  - change (good sf x0 && varlike (enode x0) && compound_ok x1 && good sf x2 = true) in G. ands. gets. eapply ge_compound; eauto.
  - change (good sf x0 && varlike (enode x0) && good sf x1 = true) in G. ands. gets. eapply ge_assign_ref; eauto.
  - (* ETernary *) change (good sf x0 && operand_ok (enode x0) && match x1 with Some t => good sf t && operand_ok (enode t) | None => true end && good sf x2 && operand_ok (enode x2) = true) in G. ands. gets.
    destruct (ge_op sf _ _ T) as (ta & A); [assumption|]. destruct (ge_op sf _ _ T0) as (tb & B); [assumption|]. eapply ge_ternary; eauto.
    destruct x1 as [e|]; [|exact Logic.I]. cbn [optP] in *. ands. gets. eapply ge_op; eauto.
  - apply pf_fun; auto.
  - apply gp_param. apply qe_opt; auto.
  - apply gs_none.
  - apply gs_blk; auto.
  - intros G. discriminate G.
  - apply gs_expr. apply H.
  - apply gs_echo. apply qe_all; auto.
  - apply gs_return, qe_opt; auto.
  - apply gs_break, qe_opt; auto.
  - apply gs_continue, qe_opt; auto.
  - apply gs_unset, qe_all; auto.
  - apply gs_if; auto. apply H.
  - apply gs_while; auto. apply H.
  - apply gs_do; auto. apply H0.
  - apply gs_for; auto; apply qe_opt; auto.
  - apply gs_foreach; auto; [apply H|apply qe_otg; auto|apply qe_tg; auto].
  - apply gs_try; auto.
  - apply gs_throw. apply H.
  - apply gs_switch; auto. apply H.
  - intros G. discriminate G.
  - apply gd_function; auto.
  - apply gd_class; auto.
  - apply gd_interface; auto.
  - apply gd_trait; auto.
  - apply gd_static. eapply Forall_impl; [|exact H]. intros kv. apply qe_opt.
  - intros G. discriminate G.
  - apply gm_const. apply H.
  - apply gm_prop. apply qe_opt; auto.
  - apply gm_method; auto.
  - apply gm_use.
  - apply gc_catch; auto.
  - apply gw_case; auto. apply qe_all; auto.
Qed.
End Sf.

(** ** Whole programs *)
Lemma top_good sf s : good_top sf s = true -> exists ts, Top ts (strip_stmt s) /\ sby (out_str (pr_stmt sf 0 s)) ts.
Proof.
  intros G. destruct s as [x sp].
  assert (D : (exists p, x = SDecl (DNamespace p) /\ path_ok p && negb (is_absolute p) = true) \/ (exists p a, x = SUse [QualifiedName p a] /\ path_ok p && opt_all SpecProg.plain_word a = true) \/ good_stmt sf (St x sp) = true).
  { unfold good_top in G. destruct x as [| |d|us| | | | | | | | | | | | | |]; auto.
    - destruct d; auto. left. eauto.
    - destruct us as [|[p a] [|]]; auto. right. left. eauto. }
  clear G. destruct D as [(p & -> & G)|[(p & a & -> & G)|G]].
  - apply andb_prop in G. destruct G as [G1 G2]. apply negb_true_iff in G2. exists (Kw KNamespace :: frag_tokens (frags p) ++ [Kw KSemiColon]). split.
    + pose proof (top_namespace (frags p) (frags_ne p)) as T. pose proof (path_frags p) as E. rewrite G2 in E. rewrite E in T. exact T.
    + intros st r vs R. cbn [pr_stmt pr_stmt_ pr_decl]. change (indent 0) with (@nil piece). outs. rewrite out_path. apps. do 2 lx.
      assert (E : frag_tokens (frags p) = path_tokens p) by (unfold path_tokens; rewrite G2; reflexivity). rewrite E. apply seen_path; [exact G1|reflexivity|]. do 2 lx. exact R.
  - apply andb_prop in G. destruct G as [G1 G2]. exists (Kw KUse :: commas [path_tokens p ++ match a with Some a => [Kw KAs; TString a] | None => [] end] ++ [Kw KSemiColon]). split.
    + apply (top_use _ [QualifiedName p a]); [discriminate|]. constructor; [|constructor]. exists (is_absolute p), (frags p), (match a with Some a => [Kw KAs; TString a] | None => [] end).
      split; [apply frags_ne|]. split; [reflexivity|]. split; [symmetry; apply path_frags|reflexivity].
    + intros st r vs R. cbn [pr_stmt pr_stmt_]. unfold pr_use. cbn [flat_map]. change (indent 0) with (@nil piece). cbn [uc_path uc_alias]. outs. rewrite out_path. cbn [commas]. apps. do 2 lx. destruct a as [a|].
      * outs. apply seen_path; [exact G1|reflexivity|]. cbn [opt_all] in G2. apps. do 3 lx. apply seen_plain; [exact G2|reflexivity|]. do 2 lx. exact R.
      * outs. apply seen_path; [exact G1|reflexivity|]. do 2 lx. exact R.
  - destruct (all_good sf) as (_ & _ & _ & _ & _ & S & _). destruct (S (St x sp) G) as (ts & T1 & T2). exists ts. split; [apply top_stm, T1|apply T2].
Qed.
Lemma tops_good sf l : forallb (good_top sf) l = true -> exists tss, Forall2 Top tss (strip l) /\ sby (out_str (flat_map (pr_stmt sf 0) l)) (List.concat tss).
Proof.
  induction l as [|s l IH]; intros G; [exists []; split; [constructor|intros st r vs R; exact R]|]. cbn [forallb] in G. apply andb_prop in G. destruct G as [G1 G2].
  destruct (top_good sf s G1) as (ts & T1 & T2). destruct (IH G2) as (tss & S1 & S2). exists (ts :: tss). split; [constructor; auto|]. intros st r vs R. cbn [flat_map List.concat].
  rewrite out_app, <- !app_assoc. apply T2, S2, R.
Qed.
Lemma round_trip sf l : l <> [] -> forallb (good_top sf) l = true -> survives sf l.
Proof.
  intros N G. destruct (tops_good sf l G) as (tss & S1 & S2).
  assert (P : parses_to (around (out_str (flat_map (pr_stmt sf 0) l))) l).
  { apply (parses_strip _ (strip l) l (strip_idem l)). unfold around. change [10%N] with newl. apply (program_parses _ tss); [|intros ->; inversion S1; destruct l; [congruence|discriminate]|exact S1].
    apply seen_nl. rewrite <- (app_nil_r (List.concat tss)). apply S2. apply seen_nl. change (s2l "?>") with (s2l "?>" ++ []). apply seen_close_tag, seen_html_end. }
  destruct P as (F & P). destruct (P F (le_n F)) as (l' & P1 & P2). destruct (parsed_source_printable sf F _ l' P1) as (s & X). exists s. rewrite (strip_print sf l' l P2) in X. split; [exact X|].
  unfold print_statements in X. apply render_out in X. subst s. exists F. exact P.
Qed.

Lemma print_injective sf l l' : l <> [] -> l' <> [] -> forallb (good_top sf) l = true -> forallb (good_top sf) l' = true ->
  (print_statements sf l = print_statements sf l' <-> strip l = strip l').
Proof.
  intros N N' G G'. split; [|apply strip_print]. intros E. destruct (round_trip sf l N G) as (s & P & F & R). destruct (round_trip sf l' N' G') as (s' & P' & F' & R'). rewrite E, P' in P. injection P as ->.
  destruct (R (F + F')) as (a & A & B); [lia|]. destruct (R' (F + F')) as (a' & A' & B'); [lia|]. rewrite A in A'. injection A' as <-. congruence.
Qed.

(** ** The tester *)
Lemma round_trip_file sf f src l : parse_str f src = DOk l -> l <> [] -> forallb (good_top sf) l = true ->
  exists s, parse_file sf f src = TfWritten s /\ parses_to s l /\ exists F, forall f', F <= f' -> parse_file sf f' s = TfWritten s.
Proof.
  intros P N G. destruct (round_trip sf l N G) as (s & E & F & R). exists (around s). unfold parse_file at 1. rewrite P, E. split; [reflexivity|]. split; [exists F; exact R|].
  exists F. intros f' L. destruct (R f' L) as (l' & P' & S). unfold parse_file. rewrite P'. rewrite (strip_print sf l' l S), E. reflexivity.
Qed.

(** ** Trees that do not survive *)
Lemma misprint f sf src l :
  match parse_str f (s2l src) with DOk l' => strip l' = strip l | _ => False end ->
  match print_statements sf l with
  | Some s => match parse_str f (around s) with DOk l2 => strip l2 <> strip l | DFuel => False | _ => True end
  | None => False
  end -> misprinted sf src l.
Proof.
  intros P Q. split.
  - destruct (parse_str f (s2l src)) as [l'| | |] eqn:E; try contradiction. exact (run_parses f _ l l' E P).
  - destruct (print_statements sf l) as [s|]; [|contradiction]. exists s. split; [reflexivity|]. intros X.
    destruct (parses_run f _ l _ X eq_refl) as (l2 & E & S2); [intros E; rewrite E in Q; exact Q|]. rewrite E in Q. exact (Q S2).
Qed.
Ltac misp := apply (misprint 300); vm_compute; first [exact Logic.I|reflexivity|discriminate].
Section Outside.
Local Open Scope string_scope. Local Open Scope list_scope.
Let x (e : expr_) : expr := Ex e span_new.
Let v (s : string) : expr := x (EVar (VName (s2l s))).
Let nm (s : string) : expr := x (EPath (mkPath false None (s2l s))).
Lemma outside_the_class : forall sf,
  misprinted sf "<?php 'a\\\\b';" (expr_program (EString (s2l "a\\b"))) /\
  misprinted sf "<?php global $a;" [St (SDecl (DGlobalVars [VName (s2l "a")])) span_new] /\
  misprinted sf "<?php ($a += 1) + 2;" (expr_program (EBinary OAdd (x (ECompound (v "a") OAdd (x (EInt 1)))) (x (EInt 2)))) /\
  misprinted sf "<?php exit;" (expr_program (EExit None)) /\
  misprinted sf "<?php !($a instanceof B);" (expr_program (EUnary UNot (x (EInstanceOf (v "a") (nm "B"))))) /\
  misprinted sf "<?php $a &= $b;" (expr_program (ECompound (v "a") OAnd (v "b"))) /\
  misprinted sf "<?php 1 . 2;" (expr_program (EBinary OConcat (x (EInt 1)) (x (EInt 2)))) /\
  misprinted sf "<?php $a . 1;" (expr_program (EBinary OConcat (v "a") (x (EInt 1)))) /\
  misprinted sf "<?php (clone $a) + 1;" (expr_program (EBinary OAdd (x (EClone (v "a"))) (x (EInt 1)))) /\
  misprinted sf "<?php __line__;" (expr_program (EConst CMagicLine)) /\
  misprinted sf "<?php $a->{'b'};" (expr_program (EObjMember (v "a") [x (EString (s2l "b"))])) /\
  misprinted sf "<?php ((int)$a)[0];" (expr_program (EArrayIdx (x (ECast TyInt (v "a"))) [Some (x (EInt 0))])) /\
  misprinted sf "<?php yield (fromage());" (expr_program (EYield (Some (x (ECall (nm "fromage") []))))) /\
  misprinted sf "<?php use A, B;" [St (SUse [QualifiedName (mkPath false None (s2l "A")) None; QualifiedName (mkPath false None (s2l "B")) None]) span_new].
Proof. intros sf. repeat (apply conj; [misp|]); misp. Qed.
End Outside.

(** the text of a negative number is the one of a minus and its absolute value *)
Lemma negative sf z : (0 < z <= Z.of_N i64_max)%Z ->
  exists s, print_statements sf (expr_program (EInt (- z))) = Some s /\ parses_to (around s) (expr_program (EUnary UNegative (Ex (EInt z) span_new))).
Proof.
  intros Z. destruct (round_trip sf (expr_program (EUnary UNegative (Ex (EInt z) span_new)))) as (s & A & B); [discriminate| |exists s; split; [rewrite <- A; destruct z; try lia; reflexivity|exact B]].
  assert (O : int_ok z = true) by (unfold int_ok; lia). cbn. rewrite O. reflexivity.
Qed.

Lemma adaptation sf v w : In (v, w) [(MPublic, "public"%string); (MProtected, "protected"%string); (MPrivate, "private"%string)] ->
  print_statements sf (adapted v) = Some (adapted_text w) /\ panics (around (adapted_text w)).
Proof.
  intros [E|[E|[E|[]]]]; injection E as <- <-; (split; [vm_compute; reflexivity|]; exists 200; intros f L; eexists; rewrite (LexMono.parse_str_mono 200 f _ L); [vm_compute; reflexivity|vm_compute; discriminate]).
Qed.
