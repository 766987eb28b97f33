(** * Ctl: chains of conditions and switches *)
From Verif Require Import Base Tokens Ast AstMap AstInd Lexer Parser Printer Driver Spec SpecProg SpecRT SpecMixed SpecCtl SmallFacts ParserRel ParserFacts LexBase LexSteps LexTok LexWords LexNum LexMore LexFacts LexStr LexRun LexParse LexCrash ParseRun ParseTac ParseExpr ParseStmt ParseDecl Emit ProgNames RTBase RTExpr RTStmt RTStm2 LexMono RoundTrip Mixed.
From Coq Require Import String Ascii.

Section Sf.
Variable sf : str -> str.
Local Notation GEx := (RTExpr.GEx sf).
Lemma written_by e t : written sf e t -> exists te, Full te (strip_expr e) /\ text hfull aft t te.
Proof.
  intros [G P]. destruct (all_good sf) as (GA & _). destruct (proj1 (GA e) G) as (te & T). exists te. split; [apply (ge_full sf), T|].
  unfold print_statements in P. apply render_out in P. cbn [flat_map pr_stmt pr_stmt_] in P. change (indent 0) with (@nil piece) in P. rewrite app_nil_r in P. revert P. outs. intros P.
  apply app_inv_tail in P. subst t. exact (ge_text sf _ _ 0 T).
Qed.
Lemma stmts_by b t : stmts_written sf b t -> exists tss, Forall2 Stm tss (strip b) /\ sby t (List.concat tss).
Proof.
  intros [G P]. destruct (all_good sf) as (_ & _ & _ & _ & _ & S & _). destruct (gs_all sf b) as (tss & T1 & T2); [apply Forall_forall; intros x _; apply S|exact G|].
  exists tss. split; [exact T1|]. unfold print_statements in P. apply render_out in P. subst t. apply (T2 0).
Qed.

(** ** Chains of conditions *)
Lemma branch_by x : branch_ok sf x -> exists ta, Arm ta (strip_expr (cond x), strip (body x)) /\ sby (branch_text x) ta.
Proof.
  intros [W B]. destruct (written_by _ _ W) as (te & F & T). destruct (stmts_by _ _ B) as (tss & S1 & S2).
  exists (cond_toks te ++ Kw KCurlyBracesOpen :: List.concat tss ++ [Kw KCurlyBracesClose]). split.
  - exists te, (Kw KCurlyBracesOpen :: List.concat tss ++ [Kw KCurlyBracesClose]). split; [reflexivity|]. split; [exact F|apply braced_all, S1].
  - intros st r vs R. unfold branch_text, cond_toks. apps. apply seen_paren; [eapply text_uncast; [exact T|reflexivity]|]. apply (text_seen _ _ _ _ _ _ _ T); [reflexivity|]. do 3 lx. rewrite <- app_assoc. apply S2. lx. exact R.
Qed.
Fixpoint rest_toks (l : list (bool * list token)) (te : list token) : list token :=
  match l with
  | [] => te
  | (false, ta) :: r => Kw KElseIf :: ta ++ rest_toks r te
  | (true, ta) :: r => Kw KElse :: Kw KIf :: ta ++ rest_toks r te
  end.
Fixpoint tree (a : expr * list stmt) (l : list (bool * (expr * list stmt))) (el : list stmt) : stmt :=
  St (SIf (fst a) (snd a) (match l with [] => el | (_, b) :: r => [tree b r el] end)) span_new.
Lemma chain_stm l arms : Forall2 (fun x y => fst x = fst y /\ Arm (snd x) (snd y)) l arms -> forall ta a te el pre tpre, Arm ta a -> Forall2 Arm tpre pre -> Else te el ->
  Stm (Kw KIf :: ta ++ elseifs tpre ++ rest_toks l te) (tree a (map (fun x => (false, x)) pre ++ arms) el).
Proof.
  assert (I : forall pre a el, if_chain (a :: pre) el = tree a (map (fun x => (false, x)) pre) el).
  { intros pre. induction pre as [|[c b] pre IH]; intros [c' b'] el; [reflexivity|]. cbn [map tree if_chain if_tree fst snd]. specialize (IH (c, b) el). cbn [if_chain] in IH. rewrite IH. reflexivity. }
  induction 1 as [|[w t] [w' x] l arms [E A] F IH]; intros ta a te el pre tpre A0 FP EL.
  - rewrite app_nil_r, <- I. apply stm_if; auto.
  - cbn [fst snd] in E, A. subst w'. destruct w; cbn [rest_toks].
    + specialize (IH t x te el [] [] A ltac:(constructor) EL). cbn [elseifs flat_map app map] in IH.
      assert (X : tree a (map (fun x => (false, x)) pre ++ (true, x) :: arms) el = tree a (map (fun x => (false, x)) pre) [tree x arms el]).
      { clear. revert a. induction pre as [|b pre IH]; intros a; [reflexivity|]. cbn [map app tree]. rewrite IH. reflexivity. }
      rewrite X, <- I. apply (stm_if ta a tpre pre (Kw KElse :: Kw KIf :: t ++ rest_toks l te)); auto. right. eexists. split; [reflexivity|]. right. eexists. split; [reflexivity|]. split; [exact IH|].
      destruct arms as [|[? ?] ?]; exact Logic.I.
    + specialize (IH ta a te el (pre ++ [x]) (tpre ++ [t]) A0). rewrite map_app in IH. cbn [map] in IH. rewrite <- app_assoc in IH. cbn [app] in IH.
      assert (X : elseifs (tpre ++ [t]) = elseifs tpre ++ Kw KElseIf :: t) by (unfold elseifs; rewrite flat_map_app; cbn; rewrite app_nil_r; reflexivity).
      rewrite X, <- app_assoc in IH. cbn [app] in IH. apply IH; auto. apply Forall2_app; auto.
Qed.
Lemma chain_parses x l el : branch_ok sf x -> Forall (branch_ok sf) l -> else_ok sf el ->
  parses_to (s2l "<?php " ++ chain_text x l el) [nested x l (match el with Some (b, _) => b | None => [] end)].
Proof.
  intros X F E. destruct (branch_by x X) as (ta & A & S).
  assert (EL : exists te, Else te (strip (match el with Some (b, _) => b | None => [] end)) /\ sby (match el with Some (_, t) => s2l " else {" ++ t ++ s2l "}" | None => [] end) te).
  { destruct el as [[b t]|]; [|exists []; split; [left; auto|intros st r vs R; exact R]]. destruct (stmts_by _ _ E) as (tss & T1 & T2).
    exists (Kw KElse :: Kw KCurlyBracesOpen :: List.concat tss ++ [Kw KCurlyBracesClose]). split; [right; eexists; split; [reflexivity|left; apply braced_all, T1]|].
    intros st r vs R. apps. do 4 lx. rewrite <- ?app_assoc. apply T2. lx. exact R. }
  destruct EL as (te & EL & SE).
  assert (Y : exists tl, Forall2 (fun x y => fst x = fst y /\ Arm (snd x) (snd y)) tl (map (fun y => (else_if y, (strip_expr (cond y), strip (body y)))) l) /\
    sby (flat_map (fun y => s2l (if else_if y then " else if " else " elseif ") ++ branch_text y) l ++ match el with Some (_, t) => s2l " else {" ++ t ++ s2l "}" | None => [] end) (rest_toks tl te)).
  { clear A S X. induction F as [|y l B F (tl & T1 & T2)]; [exists []; split; [constructor|exact SE]|]. destruct (branch_by y B) as (tb & B1 & B2). exists ((else_if y, tb) :: tl). split; [constructor; auto|].
    intros st r vs R. cbn [flat_map rest_toks]. destruct (else_if y); apps.
    - do 5 lx. apply B2. apps. specialize (T2 st r vs R). rewrite <- app_assoc in T2. exact T2.
    - do 3 lx. apply B2. apps. specialize (T2 st r vs R). rewrite <- app_assoc in T2. exact T2. }
  destruct Y as (tl & T1 & T2). pose proof (chain_stm _ _ T1 ta _ te _ [] [] A ltac:(constructor) EL) as Z. cbn [map app elseifs flat_map] in Z.
  apply (parses_strip _ [tree (strip_expr (cond x), strip (body x)) (map (fun y => (else_if y, (strip_expr (cond y), strip (body y)))) l) (strip (match el with Some (b, _) => b | None => [] end))]).
  - clear. set (e := match el with Some (b, _) => b | None => [] end). cbn [strip map]. f_equal. revert x. induction l as [|y l IH]; intros x.
    + cbn [tree nested map]. transitivity (St (SIf (strip_expr (strip_expr (cond x))) (strip (strip (body x))) (strip (strip e))) span_new); [reflexivity|]. rewrite !strip_idem.
      destruct strip_twice as (H & _). rewrite (H (cond x) : strip_expr (strip_expr (cond x)) = strip_expr (cond x)). reflexivity.
    + cbn [tree nested map fst snd]. transitivity (St (SIf (strip_expr (strip_expr (cond x))) (strip (strip (body x))) [strip_stmt (tree (strip_expr (cond y), strip (body y)) (map (fun y => (else_if y, (strip_expr (cond y), strip (body y)))) l) (strip e))]) span_new); [reflexivity|].
      rewrite IH, !strip_idem. destruct strip_twice as (H & _). rewrite (H (cond x) : strip_expr (strip_expr (cond x)) = strip_expr (cond x)). reflexivity.
  - change (s2l "<?php ") with (s2l "<?php" ++ s2l " "). rewrite <- app_assoc. eapply (program_parses _ [_]); [|discriminate|constructor; [apply top_stm, Z|constructor]].
    cbn [List.concat]. unfold chain_text. apps. do 3 lx. apply S. specialize (T2 [] [] [] seen_end). rewrite !app_nil_r in T2. rewrite app_nil_r. exact T2.
Qed.

(** ** Switches *)
Definition label_item (x : label) : option expr * list stmt := (option_map fst (value x), stmts x).
Definition strip_item (x : option expr * list stmt) : option expr * list stmt := (option_map strip_expr (fst x), strip (snd x)).
Lemma sw_strip xs : forall conds, sw_cases (map strip_expr conds) (map strip_item xs) = map strip_case (sw_cases conds xs).
Proof.
  induction xs as [|[lab b] xs IH]; intros conds; cbn [map strip_item sw_cases fst snd].
  - rewrite !map_map. reflexivity.
  - assert (E : match option_map strip_expr lab with Some e => map strip_expr conds ++ [e] | None => map strip_expr conds end = map strip_expr (match lab with Some e => conds ++ [e] | None => conds end)).
    { destruct lab; cbn; [rewrite map_app|]; reflexivity. }
    rewrite E. destruct b as [|y b]; cbn [strip map]; [apply IH|]. f_equal; [|apply (IH [])]. destruct lab; reflexivity.
Qed.
Lemma cases_more g : Forall (fun y => stmts y = []) g -> forall conds l, sw_cases conds (map label_item (g ++ l)) = sw_cases (conds ++ flat_map label_exprs g) (map label_item l).
Proof.
  induction 1 as [|y g E F IH]; intros conds l; [cbn; rewrite app_nil_r; reflexivity|]. cbn [app map flat_map label_item sw_cases]. rewrite E. rewrite IH. f_equal.
  unfold label_exprs at 2. destruct (value y) as [[e t]|]; cbn [option_map fst]; [rewrite <- app_assoc|]; reflexivity.
Qed.
Lemma grouped_cases l cs : grouped l cs -> sw_cases [] (map label_item l) = cs.
Proof.
  induction 1 as [rest F|g x rest cs F NE G IH].
  - rewrite <- (app_nil_r rest), cases_more by exact F. cbn [map sw_cases app]. rewrite app_nil_r. reflexivity.
  - rewrite cases_more by exact F. cbn [map label_item sw_cases app]. destruct (stmts x) as [|y b] eqn:E; [congruence|]. rewrite IH. f_equal. unfold one_case. rewrite E, flat_map_app. cbn [flat_map]. unfold label_exprs at 4.
    destruct (value x) as [[e t]|]; cbn [option_map fst app]; rewrite ?app_nil_r; reflexivity.
Qed.
Lemma grouped_exists l : exists cs, grouped l cs.
Proof.
  assert (H : forall l g, Forall (fun y => stmts y = []) g -> exists cs, grouped (g ++ l) cs).
  { clear. induction l as [|x l IH]; intros g F.
    - rewrite app_nil_r. eexists. apply grouped_last. exact F.
    - destruct (stmts x) as [|y b] eqn:E.
      + destruct (IH (g ++ [x])) as (cs & G); [apply Forall_app; auto|]. rewrite <- app_assoc in G. eauto.
      + destruct (IH [] ltac:(constructor)) as (cs & G). eexists. apply grouped_case; [exact F|congruence|exact G]. }
  apply (H l []). constructor.
Qed.
Lemma grouped_all l cs : grouped l cs -> flat_map case_exprs cs = flat_map label_exprs l /\ flat_map case_body cs = flat_map stmts l.
Proof.
  assert (Z : forall g, Forall (fun y => stmts y = []) g -> flat_map stmts g = []) by (clear; induction 1 as [|y g E F IH]; cbn; [|rewrite E]; auto).
  induction 1 as [rest F|g x rest cs F NE G (A & B)].
  - rewrite (Z _ F). split; induction (flat_map label_exprs rest); cbn; auto. f_equal. assumption.
  - cbn [flat_map one_case case_exprs case_body]. rewrite A, B, !flat_map_app, (Z g F). cbn [flat_map]. rewrite app_nil_r, <- app_assoc. auto.
Qed.
Lemma label_by x : label_ok sf x -> exists ti, Item ti (strip_item (label_item x)) /\ sby (label_text x) ti.
Proof.
  intros [V B]. destruct (stmts_by _ _ B) as (tss & S1 & S2). unfold label_text, label_item, strip_item. cbn [fst snd].
  set (k := if semicolon x then KSemiColon else KColon).
  assert (K : k = KColon \/ k = KSemiColon) by (unfold k; destruct (semicolon x); auto).
  destruct (value x) as [[e t]|]; cbn [option_map fst].
  - destruct (written_by _ _ V) as (te & F & T). exists ((Kw KCase :: te ++ [Kw k]) ++ List.concat tss). split.
    + exists (Kw KCase :: te ++ [Kw k]), tss. split; [reflexivity|]. split; [exact S1|]. exists te, k. auto.
    + intros st r vs R. unfold k. apps. do 2 lx. apply (text_seen _ _ _ _ _ _ _ T); [destruct (semicolon x); reflexivity|]. destruct (semicolon x); do 2 lx; apply S2, R.
  - exists ([Kw KDefault; Kw k] ++ List.concat tss). split.
    + exists [Kw KDefault; Kw k], tss. split; [reflexivity|]. split; [exact S1|]. exists k. auto.
    + intros st r vs R. unfold k. apps. destruct (semicolon x); do 3 lx; apply S2, R.
Qed.
Lemma switch_parses e t l cs : written sf e t -> Forall (label_ok sf) l -> grouped l cs ->
  parses_to (s2l "<?php " ++ switch_text t l) [St (SSwitch e cs) span_new].
Proof.
  intros W F G. destruct (written_by _ _ W) as (te & FE & T).
  assert (X : exists tis, Forall2 Item tis (map strip_item (map label_item l)) /\ sby (flat_map label_text l) (List.concat tis)).
  { clear G. induction F as [|x l H F (tis & A & B)]; [exists []; split; [constructor|intros st r vs R; exact R]|]. destruct (label_by x H) as (ti & C & D).
    exists (ti :: tis). split; [constructor; auto|]. intros st r vs R. cbn [flat_map List.concat]. rewrite <- !app_assoc. apply D, B, R. }
  destruct X as (tis & IT & SY). pose proof (stm_any stm_end _ _ (stm_switch te _ tis _ FE IT)) as Z. change (@nil expr) with (map strip_expr []) in Z. rewrite sw_strip, (grouped_cases l cs G) in Z.
  eapply parses_strip; [exact (strip_idem [St (SSwitch e cs) span_new])|].
  change (s2l "<?php ") with (s2l "<?php" ++ s2l " "). rewrite <- app_assoc. eapply (program_parses _ [_]); [|discriminate|constructor; [apply top_stm; exact Z|constructor]].
  cbn [List.concat]. unfold switch_text, cond_toks. apps. do 3 lx. apply seen_paren; [eapply text_uncast; [exact T|reflexivity]|]. apply (text_seen _ _ _ _ _ _ _ T); [reflexivity|]. do 3 lx.
  rewrite app_nil_r. apply SY. change (s2l "}") with (s2l "}" ++ []). apply seen_curly_close, seen_end.
Qed.
Lemma empty_default_lost l cs : grouped l cs -> grouped (filter (fun x => negb (empty_default x)) l) cs.
Proof.
  assert (Z : forall g, Forall (fun y => stmts y = []) g -> Forall (fun y => stmts y = []) (filter (fun x => negb (empty_default x)) g) /\ flat_map label_exprs (filter (fun x => negb (empty_default x)) g) = flat_map label_exprs g).
  { clear. induction 1 as [|y g E F (A & B)]; [split; constructor|]. cbn [filter flat_map]. destruct (empty_default y) eqn:D; cbn [negb].
    - split; [exact A|]. rewrite B. unfold empty_default in D. unfold label_exprs at 2. destruct (value y); [discriminate|reflexivity].
    - cbn [flat_map]. rewrite B. split; [constructor; auto|reflexivity]. }
  induction 1 as [rest F|g x rest cs F NE G IH].
  - destruct (Z rest F) as [A B]. rewrite <- B. apply grouped_last. exact A.
  - destruct (Z g F) as [A B]. rewrite filter_app. cbn [filter]. assert (D : empty_default x = false) by (unfold empty_default; destruct (value x), (stmts x); congruence || reflexivity). rewrite D. cbn [negb].
    assert (E : one_case g x = one_case (filter (fun x => negb (empty_default x)) g) x) by (unfold one_case; rewrite !flat_map_app, B; reflexivity). rewrite E. apply grouped_case; auto.
Qed.
End Sf.
