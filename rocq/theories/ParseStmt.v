(** * ParseStmt: grammar rules for statements and declarations *)
From Verif Require Import Base Tokens Ast AstMap AstInd Lexer Parser Driver Wp ParserTermination ParserMono ParserRel ParseRun ParseTac ParseExpr.
From Coq Require Import String.

(** ** Statements *)
(** what a statement starts with *)
Definition stm_start (t : token) : bool :=
  negb (tok_in [KElse; KElseIf; KCatch; KFinally; KCurlyBracesClose; KCase; KDefault; KNamespace; KUse] t).
(** what follows a statement *)
Definition stm_end : list token -> Prop := hd_ok (fun t => negb (tok_in [KElse; KElseIf; KCatch; KFinally] t)).
Definition okst (toks : list tokspan) (s : stmt) (p : nat) (l : list token) : stmt -> nat -> Prop :=
  fun a q => here toks q l /\ p < q /\ strip_stmt a = strip_stmt s.
Definition starts (ts : list token) : Prop := exists t r, ts = t :: r /\ stm_start t = true.
Definition StmC (c : list token -> Prop) (ts : list token) (s : stmt) : Prop :=
  starts ts /\ forall toks, late2 toks -> forall p l, here toks p (ts ++ l) -> c l -> wpx (PS toks) p (okst toks s p l) nofail.
Definition Stm : list token -> stmt -> Prop := StmC stm_end.
Definition any (l : list token) : Prop := True.
Lemma stm_weak (c c' : list token -> Prop) ts s : (forall l, c' l -> c l) -> StmC c ts s -> StmC c' ts s.
Proof. intros H [S K]. split; auto. Qed.
Lemma stm_any c ts s : StmC any ts s -> StmC c ts s.
Proof. apply stm_weak. intros; exact I. Qed.
Ltac oks := split; [assumption|split; [lia|]].
Ltac strips := unfold sames, strip_stmt, strip_expr in *; cbn; congruence.
Ltac head1 := eexists; eexists; split; [reflexivity|reflexivity].

(** ** Lists of statements *)
Definition list_end : token -> bool := tok_in [KCurlyBracesClose; KCase; KDefault].
Lemma oo_fail toks p l : late2 toks -> here toks p l -> hd_ok (fun t => negb (tok_in [KTrait; KInterface; KAbstract; KFinal; KClass] t)) l ->
  fails (parse_oo_declaration toks (PE toks) (PS toks)) p.
Proof.
  intros L H C. unfold fails, parse_oo_declaration. px L. unfold lf. cbn [class_mods]. px L. unfold expect. px L. reflexivity.
Qed.
Lemma ps_fail toks p t l : late2 toks -> here toks p (t :: l) -> list_end t = true -> fails (PS toks) p.
Proof.
  intros L H C. assert (F : fail_tok t = true) by (destruct t as [k| | | | | | | |]; try discriminate; destruct k; try reflexivity; discriminate).
  assert (X : hd_ok (fun t => fail_tok t && list_end t)%bool (t :: l)) by (cbn; rewrite F, C; reflexivity).
  apply wpx_PS. unfold parse_statement_body, look_restore.
  repeat (first [eapply (wpx_look_cls toks L); [exact H|exact X|reflexivity|]|px1 L]; cbv beta).
  eapply wpx_mono; [apply (oo_fail toks p _ L H); weak1 C|intros ? ? []|]. intros e q ->.
  unfold parse_other_stmt. px1 L. px1 L. replace (simple_stmt toks (PE toks) t (sp_at toks p)) with (@None (P stmt_)).
  2:{ destruct t as [k| | | | | | | |]; try discriminate. destruct k; try reflexivity; discriminate. }
  px1 L. px1 L. cbv beta. unfold parse_expr_stmt. px1 L. eapply wpx_mono; [apply (pe_fail toks PrNone p _ L H); exact F|intros ? ? []|].
  intros e' q ->. px L. reflexivity.
Qed.
Lemma starts_app ts l : starts ts -> exists t r, ts ++ l = t :: r /\ stm_start t = true.
Proof. intros (t & r & -> & H). cbn. eauto. Qed.
Lemma starts_end t : stm_start t = true -> negb (tok_in [KElse; KElseIf; KCatch; KFinally] t) = true.
Proof. destruct t as [k| | | | | | | |]; auto. destruct k; auto; discriminate. Qed.
Lemma stms_follow tss ss t l : Forall2 Stm tss ss -> list_end t = true -> stm_end (List.concat tss ++ t :: l).
Proof.
  intros F T. destruct F as [|ts s tss ss [S _] _].
  - cbn. destruct t as [k| | | | | | | |]; auto. destruct k; auto; discriminate.
  - cbn [List.concat]. rewrite <- app_assoc. destruct (starts_app ts (List.concat tss ++ t :: l) S) as (t' & r & -> & H). apply starts_end in H. exact H.
Qed.
Lemma here_lt toks p t l : here toks p (t :: l) -> p < List.length toks.
Proof. intros [H _]. cbn in H. lia. Qed.
Definition stms_q (toks : list tokspan) (ss : list stmt) (p : nat) (l : list token) : list stmt * option perror -> nat -> Prop :=
  fun r q => here toks q l /\ p <= q /\ map strip_stmt (fst r) = map strip_stmt ss.
Lemma stms_run tss ss : Forall2 Stm tss ss -> forall toks, late2 toks -> forall n acc ss0 p t l, here toks p (List.concat tss ++ t :: l) -> list_end t = true ->
  List.length tss < n -> map strip_stmt acc = map strip_stmt ss0 ->
  wpx (inner_statements toks (PS toks) n acc) p (stms_q toks (ss0 ++ ss) p (t :: l)) nofail.
Proof.
  induction 1 as [|ts s tss ss S F IH]; intros toks L n acc ss0 p t l H T N A; (destruct n as [|n]; [cbn in N; lia|]); cbn [inner_statements]; px1 L; px1 L.
  - cbn [List.concat app] in H. destruct (Nat.ltb_spec p (List.length toks)) as [X|X]; [|apply here_lt in H; lia]. px1 L.
    eapply wpx_mono; [apply (ps_fail toks p t l L H T)|intros ? ? []|]. intros e q ->. px1 L. unfold stms_q. rewrite app_nil_r. auto.
  - cbn [List.concat] in H. rewrite <- app_assoc in H. assert (SF := stms_follow tss ss t l F T). destruct S as [S K].
    destruct (starts_app ts (List.concat tss ++ t :: l) S) as (t' & r & X & _). rewrite X in H. pose proof (here_lt _ _ _ _ H) as Y. rewrite <- X in H.
    destruct (Nat.ltb_spec p (List.length toks)) as [_|Z]; [|lia]. px1 L. eapply wpx_use; [exact (K toks L p _ H SF)|]. intros a q (A1 & A2 & A3). cbv beta.
    eapply wpx_use; [apply (IH toks L n (acc ++ [a]) (ss0 ++ [s]) q t l A1 T); [cbn in N; lia|rewrite !map_app; cbn; congruence]|].
    unfold stms_q. rewrite <- app_assoc. intros r' q' (B1 & B2 & B3). split; [assumption|split; [lia|assumption]].
Qed.
Lemma stms_len tss ss : Forall2 Stm tss ss -> List.length tss <= List.length (List.concat tss).
Proof. induction 1 as [|ts s tss ss [(t & r & -> & _) _] _ IH]; cbn; auto. rewrite app_length. lia. Qed.
Lemma inner_run tss ss toks p t l : Forall2 Stm tss ss -> late2 toks -> here toks p (List.concat tss ++ t :: l) -> list_end t = true ->
  wpx (parse_inner_statement_list toks (PS toks)) p (stms_q toks ss p (t :: l)) nofail.
Proof.
  intros F L H T. unfold parse_inner_statement_list. pose proof (stms_len tss ss F) as N. assert (HL := proj1 H). rewrite app_length in HL. cbn in HL.
  assert (X : wpx (inner_statements toks (PS toks) (lf toks) []) p (stms_q toks ss p (t :: l)) nofail).
  { apply (stms_run tss ss F toks L (lf toks) [] [] p t l H T); auto. unfold lf. lia. }
  destruct toks; [cbn in HL; lia|exact X].
Qed.
(** tokens that are no statement: the parser reads them, misses something and stops at the closing brace *)
Definition Unf (u : list token) : Prop :=
  (u = [] \/ starts u) /\ forall toks, late2 toks -> forall p l, here toks p (u ++ Kw KCurlyBracesClose :: l) ->
  wpx (PS toks) p (fun _ _ => False) (fun _ q => here toks q (Kw KCurlyBracesClose :: l) /\ p <= q).
Lemma unf_nil : Unf [].
Proof. split; [auto|]. intros toks L p l H. eapply wpx_mono; [apply (ps_fail toks p _ l L H); reflexivity|intros ? ? []|]. intros e q ->. auto. Qed.
Definition Stms (ts : list token) (b : list stmt) : Prop := exists tss u, ts = List.concat tss ++ u /\ Forall2 Stm tss b /\ Unf u.
Lemma stms_all tss b : Forall2 Stm tss b -> Stms (List.concat tss) b.
Proof. intros F. exists tss, []. rewrite app_nil_r. auto using unf_nil. Qed.
Lemma unf_follow u l : Unf u -> stm_end (u ++ Kw KCurlyBracesClose :: l).
Proof.
  intros [[-> |S] _]; [reflexivity|]. destruct (starts_app u (Kw KCurlyBracesClose :: l) S) as (t' & r & -> & H). apply starts_end in H. exact H.
Qed.
Lemma stms_follow_u tss ss u l : Forall2 Stm tss ss -> Unf u -> stm_end (List.concat tss ++ u ++ Kw KCurlyBracesClose :: l).
Proof.
  intros F U. destruct F as [|ts s tss ss [S _] _]; [apply unf_follow, U|].
  cbn [List.concat]. rewrite <- app_assoc. destruct (starts_app ts (List.concat tss ++ u ++ Kw KCurlyBracesClose :: l) S) as (t' & r & -> & H). apply starts_end in H. exact H.
Qed.
Lemma here_lt_app toks p u t l : here toks p (u ++ t :: l) -> p < List.length toks.
Proof. intros [H _]. rewrite app_length in H. cbn in H. lia. Qed.
Lemma stms_run_u tss ss u : Forall2 Stm tss ss -> Unf u -> forall toks, late2 toks -> forall n acc ss0 p l, here toks p (List.concat tss ++ u ++ Kw KCurlyBracesClose :: l) ->
  List.length tss < n -> map strip_stmt acc = map strip_stmt ss0 ->
  wpx (inner_statements toks (PS toks) n acc) p (stms_q toks (ss0 ++ ss) p (Kw KCurlyBracesClose :: l)) nofail.
Proof.
  intros F U. induction F as [|ts s tss ss S F IH]; intros toks L n acc ss0 p l H N A; (destruct n as [|n]; [cbn in N; lia|]); cbn [inner_statements]; px1 L; px1 L.
  - cbn [List.concat app] in H. destruct (Nat.ltb_spec p (List.length toks)) as [X|X]; [|apply here_lt_app in H; lia]. px1 L.
    eapply wpx_mono; [apply (proj2 U toks L p l H)|intros ? ? []|]. intros e q (B1 & B2). px1 L. unfold stms_q. rewrite app_nil_r. auto.
  - cbn [List.concat] in H. rewrite <- app_assoc in H. assert (SF := stms_follow_u tss ss u l F U). destruct S as [S K].
    destruct (starts_app ts (List.concat tss ++ u ++ Kw KCurlyBracesClose :: l) S) as (t' & r & X & _). rewrite X in H. pose proof (here_lt _ _ _ _ H) as Y. rewrite <- X in H.
    destruct (Nat.ltb_spec p (List.length toks)) as [_|Z]; [|lia]. px1 L. eapply wpx_use; [exact (K toks L p _ H SF)|]. intros a q (A1 & A2 & A3). cbv beta.
    eapply wpx_use; [apply (IH toks L n (acc ++ [a]) (ss0 ++ [s]) q l A1); [cbn in N; lia|rewrite !map_app; cbn; congruence]|].
    unfold stms_q. rewrite <- app_assoc. intros r' q' (B1 & B2 & B3). split; [assumption|split; [lia|assumption]].
Qed.
Lemma block_run tb ss toks p l : Stms tb ss -> late2 toks -> here toks p (tb ++ Kw KCurlyBracesClose :: l) ->
  wpx (parse_inner_statement_list toks (PS toks)) p (stms_q toks ss p (Kw KCurlyBracesClose :: l)) nofail.
Proof.
  intros (tss & u & -> & F & U) L H. rewrite <- app_assoc in H. unfold parse_inner_statement_list. pose proof (stms_len tss ss F) as N. assert (HL := proj1 H). rewrite !app_length in HL. cbn in HL.
  assert (X : wpx (inner_statements toks (PS toks) (lf toks) []) p (stms_q toks ss p (Kw KCurlyBracesClose :: l)) nofail).
  { apply (stms_run_u tss ss u F U toks L (lf toks) [] [] p l H); auto. unfold lf. lia. }
  destruct toks; [cbn in HL; lia|exact X].
Qed.
(** a list of statements in braces *)
Definition Braced (ts : list token) (b : list stmt) : Prop :=
  exists tb, ts = Kw KCurlyBracesOpen :: tb ++ [Kw KCurlyBracesClose] /\ Stms tb b.
Lemma braced_all tss b : Forall2 Stm tss b -> Braced (Kw KCurlyBracesOpen :: List.concat tss ++ [Kw KCurlyBracesClose]) b.
Proof. intros F. eexists. split; [reflexivity|apply stms_all, F]. Qed.
Lemma braced_app tb l : (Kw KCurlyBracesOpen :: tb ++ [Kw KCurlyBracesClose]) ++ l = Kw KCurlyBracesOpen :: tb ++ Kw KCurlyBracesClose :: l.
Proof. cbn [app]. rewrite <- app_assoc. reflexivity. Qed.
Lemma wpx_expect_or toks k e p l (Q : span -> nat -> Prop) E : late2 toks -> here toks p (Kw k :: l) -> Q (sp_at toks p) (S p) -> wpx (expect_or toks k e) p Q E.
Proof. intros L H K. unfold expect_or. eapply (wpx_look toks L); [exact H|]. cbv beta iota. unfold kind_eqb. rewrite N.eqb_refl. exact K. Qed.
Definition blk_q (toks : list tokspan) (b : list stmt) (p : nat) (l : list token) : list stmt * span -> nat -> Prop :=
  fun r q => here toks q l /\ p < q /\ map strip_stmt (fst r) = map strip_stmt b.
Lemma braced_run ts b toks p l : Braced ts b -> late2 toks -> here toks p (ts ++ l) -> wpx (parse_braced toks (PS toks)) p (blk_q toks b p l) nofail.
Proof.
  intros (tss & -> & F) L H. rewrite braced_app in H. unfold parse_braced. px L.
  eapply wpx_use; [apply (block_run tss b toks _ l F L HS)|]. intros r q (A1 & A2 & A3). next_here L. px1 L.
  eapply wpx_expect_or; [exact L|exact A1|]. cbv beta. px L. unfold blk_q. oks. exact A3.
Qed.
Lemma stm_block ts b : Braced ts b -> StmC any ts (St (SBlock b) span_new).
Proof.
  intros (tss & -> & F). split; [head1|]. intros toks L p l H _. rewrite braced_app in H. apply wpx_PS. unfold parse_statement_body. px L.
  eapply wpx_use; [apply (block_run tss b toks _ l F L HS)|]. intros r q (A1 & A2 & A3). next_here L. px1 L.
  eapply wpx_expect_or; [exact L|exact A1|]. cbv beta. px L. oks. unfold strip_stmt in *. cbn. congruence.
Qed.
(** the body of a control structure: a list of statements in braces or one other statement *)
Definition BodyC (c : list token -> Prop) (ts : list token) (b : list stmt) : Prop :=
  Braced ts b \/ exists s, b = [s] /\ StmC c ts s /\ match snode s with SBlock _ => False | _ => True end.
Definition Body : list token -> list stmt -> Prop := BodyC stm_end.
Lemma body_run c ts b toks p l : BodyC c ts b -> late2 toks -> here toks p (ts ++ l) -> c l ->
  wpx (parse_statement_extract_block (PS toks)) p (blk_q toks b p l) nofail.
Proof.
  intros B L H C. unfold parse_statement_extract_block. px1 L. destruct B as [B|(s & -> & S & NB)].
  - eapply wpx_use; [exact (proj2 (stm_block ts b B) toks L p l H I)|]. intros a q (A1 & A2 & A3). destruct a as [n sp].
    destruct n; try discriminate A3. px L. unfold blk_q. oks. unfold strip_stmt in *. cbn in A3. injection A3 as A3. exact A3.
  - eapply wpx_use; [exact (proj2 S toks L p l H C)|]. intros a q (A1 & A2 & A3). destruct a as [n sp]. destruct s as [m sp']. cbn in NB.
    assert (X : wpx (pret ([St n sp], sp)) q (blk_q toks [St m sp'] p l) nofail).
    { px L. unfold blk_q. oks. cbn. f_equal. exact A3. }
    destruct n; try exact X. destruct m; try discriminate A3. contradiction.
Qed.

(** ** Simple statements *)
Lemma start_stm t : start_tok t = true -> stm_start t = true /\
  tok_in [KSemiColon; KCurlyBracesOpen; KTry; KUnset; KForeach; KFor; KSwitch; KIf; KWhile; KDo; KGlobal; KTrait; KInterface; KAbstract; KFinal; KClass] t = false /\
  (forall toks pe sp, simple_stmt toks pe t sp = None).
Proof. destruct t as [k| | | | | | | |]; try discriminate; try (repeat split; reflexivity). destruct k; try discriminate; repeat split; reflexivity. Qed.
Definition expr_stm (e : expr) : stmt := St (SExpr e) span_new.
Lemma fun_decl_fail toks p l sp : late2 toks -> here toks p l ->
  (hd_ok (fun t => match t with Kw KParenthesesOpen => true | _ => false end) l \/ exists l', l = Kw KAmpersand :: Kw KParenthesesOpen :: l') ->
  wpx (parse_function_declaration toks (PE toks) (PS toks) sp false false) p (fun _ _ => False) (fun _ _ => True).
Proof.
  intros L H C. unfold parse_function_declaration, parse_is_ref. destruct C as [C|(l' & ->)].
  - px L. unfold expect_string. px L. exact I.
  - px L. unfold expect_string. px L. exact I.
Qed.
Lemma static_fail toks p t l sp : late2 toks -> here toks p (t :: l) -> match t with TVariable _ => False | _ => True end ->
  wpx (parse_static_var_decl toks (PE toks) sp) p (fun _ _ => False) (fun _ _ => True).
Proof.
  intros L H C. unfold parse_static_var_decl, lf. cbn [static_vars]. px1 L. px1 L. unfold expect_var. eapply (wpx_look_var toks L); [exact H|].
  destruct t as [k| | | | | | | |]; try contradiction; exact I.
Qed.
(** the head of an expression used as a statement *)
Definition stm_expr_head (ts : list token) : Prop :=
  match ts with
  | Kw KStatic :: TVariable _ :: _ | [Kw KStatic] | [Kw KFunction] => False
  | Kw KFunction :: t :: r => t = Kw KParenthesesOpen \/ (t = Kw KAmpersand /\ hd_ok (tok_in [KParenthesesOpen]) r /\ r <> [])
  | _ => True
  end.
(** what becomes of an expression at the beginning of a statement *)
Definition finish_expr (toks : list tokspan) (e : expr) : P stmt :=
  sp2 <~ expect toks KSemiColon ;; pret (St (SExpr e) (mk_span (estart e) (sp_end sp2))).
Lemma ps_expr_at ts e toks p l (Q : stmt -> nat -> Prop) E : (exists t r, ts = t :: r /\ start_tok t = true) -> stm_expr_head ts -> late2 toks -> here toks p (ts ++ l) ->
  wpx (PE toks 0) p (okq toks e p l) nofail -> (forall a q, okq toks e p l a q -> wpx (finish_expr toks a) q Q E) -> wpx (PS toks) p Q E.
Proof.
  intros (t & r & EQ & S) SH L H F K. destruct (start_stm t S) as (S1 & S2 & S3).
  assert (HT := H). rewrite EQ in HT. cbn [app] in HT.
  assert (X : hd_ok (fun t => negb (tok_in [KSemiColon; KCurlyBracesOpen; KTry; KUnset; KForeach; KFor; KSwitch; KIf; KWhile; KDo; KGlobal; KTrait; KInterface; KAbstract; KFinal; KClass] t)) (t :: r ++ l)).
  { unfold hd_ok. rewrite S2. reflexivity. }
  (* the last alternative *)
  assert (G : forall d, wpx (deepest d (parse_oo_declaration toks (PE toks) (PS toks)) (parse_other_stmt toks (PE toks))) p Q E).
  { intros d. px1 L. eapply wpx_mono; [apply (oo_fail toks p _ L HT); weak1 X|intros ? ? []|]. intros er q ->. unfold parse_other_stmt. px1 L.
    eapply (wpx_peek toks L); [exact HT|]. cbv beta iota. rewrite S3. px1 L. px1 L. cbv beta. unfold parse_expr_stmt. px1 L.
    eapply wpx_use; [exact F|]. intros a q A. exact (K a q A). }
  apply wpx_PS. unfold parse_statement_body.
  do 10 (eapply (wpx_look_cls toks L); [exact HT|exact X|reflexivity|]).
  unfold look_restore. px1 L. px1 L. cbv beta.
  assert (GL : forall d, wpx (look_restore toks KGlobal d (parse_global_var_decl toks) (fun d => look_restore toks KFunction d
    (fun sp => parse_function_declaration toks (PE toks) (PS toks) sp false false) (fun d => deepest d (parse_oo_declaration toks (PE toks) (PS toks)) (parse_other_stmt toks (PE toks)))))
    p Q E).
  { intros d. unfold look_restore. px1 L. px1 L. cbv beta. eapply (wpx_look_cls toks L); [exact HT|exact X|reflexivity|]. px1 L. px1 L. cbv beta.
    eapply (wpx_look toks L); [exact HT|]. destruct t as [k| | | | | | | |]; try apply G. destruct (kind_eqb KFunction k) eqn:EK; [|apply G].
    apply kind_eqb_eq in EK. subst k. px1 L. destruct (here_cons toks L p _ _ HT) as (_ & H2 & _).
    eapply wpx_mono; [apply (fun_decl_fail toks _ _ _ L H2)|intros ? ? []|].
    - subst ts. cbn [stm_expr_head] in SH. destruct r as [|t2 r]; [contradiction|]. destruct SH as [-> | (-> & SH1 & SH2)]; [left; reflexivity|].
      destruct r as [|t3 r]; [congruence|]. cbn in SH1. right. exists (r ++ l).
      destruct t3 as [k3| | | | | | | |]; try discriminate. destruct k3; try discriminate. reflexivity.
    - intros e' q _. cbv beta. px1 L. px1 L. cbv beta. apply G. }
  change (wpx (look toks KStatic (fun sp => deepest None (parse_static_var_decl toks (PE toks) sp) (fun d' => setpos p;~ look_restore toks KGlobal d' (parse_global_var_decl toks)
   (fun d => look_restore toks KFunction d
    (fun sp => parse_function_declaration toks (PE toks) (PS toks) sp false false) (fun d => deepest d (parse_oo_declaration toks (PE toks) (PS toks)) (parse_other_stmt toks (PE toks))))))
   (look_restore toks KGlobal None (parse_global_var_decl toks) (fun d => look_restore toks KFunction d
    (fun sp => parse_function_declaration toks (PE toks) (PS toks) sp false false) (fun d => deepest d (parse_oo_declaration toks (PE toks) (PS toks)) (parse_other_stmt toks (PE toks)))))
   ) p Q E).
  eapply (wpx_look toks L); [exact HT|]. destruct t as [k| | | | | | | |]; try apply GL. destruct (kind_eqb KStatic k) eqn:EK; [|apply GL].
  apply kind_eqb_eq in EK. subst k. px1 L. destruct (here_cons toks L p _ _ HT) as (_ & H2 & _). subst ts. cbn [stm_expr_head] in SH.
  destruct r as [|t2 r]; [contradiction|]. cbn [app] in H2.
  eapply wpx_mono; [apply (static_fail toks _ _ _ _ L H2); destruct t2; auto|intros ? ? []|]. intros e' q _. cbv beta. px1 L. px1 L. cbv beta. apply GL.
Qed.
Lemma ps_expr ts e toks p l (Q : stmt -> nat -> Prop) E : Full ts e -> stm_expr_head ts -> late2 toks -> here toks p (ts ++ l) -> closing l ->
  (forall a q, okq toks e p l a q -> wpx (finish_expr toks a) q Q E) -> wpx (PS toks) p Q E.
Proof. intros F SH L H CL. apply (ps_expr_at ts e toks p l Q E (full_head ts e F) SH L H). exact (F toks L p l H CL). Qed.
Lemma stm_expr ts e : Full ts e -> stm_expr_head ts -> StmC any (ts ++ [Kw KSemiColon]) (expr_stm e).
Proof.
  intros F SH. destruct (full_head ts e F) as (t & r & E & S). destruct (start_stm t S) as (S1 & _).
  split; [exists t; exists (r ++ [Kw KSemiColon]); rewrite E; auto|]. intros toks L p l H _. rewrite <- app_assoc in H. cbn [app] in H.
  eapply (ps_expr ts e toks p); [exact F|exact SH|exact L|exact H|reflexivity|]. intros a q (A1 & A2 & A3 & A4). unfold finish_expr. px L. oks. strips.
Qed.

(** the statements introduced by one token *)
Definition finish_simple (toks : list tokspan) (sp : span) (r : stmt_) : P stmt :=
  expect toks KSemiColon ;~ en <~ prev_end toks ;; pret (St r (mk_span (sp_start sp) en)).
Lemma ps_simple toks p l t m (Q : stmt -> nat -> Prop) E : late2 toks -> here toks p (t :: l) -> simple_stmt toks (PE toks) t (sp_at toks p) = Some m ->
  wpx m (S p) (fun r q => wpx (finish_simple toks (sp_at toks p) r) q Q E) E -> wpx (PS toks) p Q E.
Proof.
  intros L H EQ K. assert (X : hd_ok (fun t => match t with TInlineHtml _ => true | t => tok_in [KEcho; KReturn; KContinue; KBreak; KThrow] t end) (t :: l)).
  { destruct t as [k| | | | | | | |]; try discriminate; try reflexivity. destruct k; try discriminate; reflexivity. }
  apply wpx_PS. unfold parse_statement_body, look_restore.
  repeat (first [eapply (wpx_look_cls toks L); [exact H|exact X|reflexivity|]|px1 L]; cbv beta).
  eapply wpx_mono; [apply (oo_fail toks p _ L H); weak1 X|intros ? ? []|]. intros e q ->.
  unfold parse_other_stmt. px1 L. px1 L. rewrite EQ. px1 L. px1 L. cbv beta. px1 L. exact K.
Qed.
Lemma simple_run toks p l t m (Q : stmt -> nat -> Prop) : late2 toks -> here toks p (t :: l) -> simple_stmt toks (PE toks) t (sp_at toks p) = Some m ->
  wpx m (S p) (fun r q => exists l', here toks q (Kw KSemiColon :: l') /\ p < q /\ (forall sp, Q (St r sp) (S q))) nofail ->
  wpx (PS toks) p Q nofail.
Proof.
  intros L H E K. eapply ps_simple; [exact L|exact H|exact E|]. eapply wpx_use; [exact K|]. intros r q (l' & A1 & A2 & A3). unfold finish_simple. px L. apply A3.
Qed.
Lemma stm_echo tss es : tss <> [] -> Forall2 Full tss es -> StmC any (Kw KEcho :: commas tss ++ [Kw KSemiColon]) (St (SEcho es) span_new).
Proof.
  intros NE F. split; [head1|]. intros toks L p l H _. cbn [app] in H. rewrite <- app_assoc in H. cbn [app] in H.
  eapply simple_run; [exact L|exact H|reflexivity|]. px L. eapply wpx_use; [apply (expression_list_run tss es NE F toks L _ _ HS); reflexivity|].
  intros r q (A1 & A2 & A3). px L. exists l. oks. intros sp. oks. strips.
Qed.
Lemma stm_html s : StmC any [TInlineHtml s; Kw KSemiColon] (St (SEcho [Ex (EString s) span_new]) span_new).
Proof.
  split; [head1|]. intros toks L p l H _. cbn [app] in H.
  eapply simple_run; [exact L|exact H|reflexivity|]. px L. exists l. oks. intros sp. oks. reflexivity.
Qed.
Lemma stm_throw ts e : Full ts e -> StmC any (Kw KThrow :: ts ++ [Kw KSemiColon]) (St (SThrow e) span_new).
Proof.
  intros F. split; [head1|]. intros toks L p l H _. cbn [app] in H. rewrite <- app_assoc in H. cbn [app] in H.
  eapply simple_run; [exact L|exact H|reflexivity|]. px L. eapply wpx_use; [apply (F toks L _ _ HS); reflexivity|].
  intros r q (A1 & A2 & A3 & A4). px L. exists l. oks. intros sp. oks. strips.
Qed.
(** an optional expression *)
Definition OptE (ts : list token) (o : option expr) : Prop := match o with Some e => Full ts e | None => ts = [] end.
Definition opt_q (toks : list tokspan) (o : option expr) (p : nat) (l : list token) : option expr -> nat -> Prop :=
  fun a q => here toks q l /\ p <= q /\ option_map strip_expr a = option_map strip_expr o.
Lemma opt_run ts o toks p l : OptE ts o -> late2 toks -> here toks p (ts ++ l) -> closing l -> 
  wpx (parse_opt_expression (PE toks) PrNone) p (opt_q toks o p l) nofail.
Proof.
  intros O L H C. unfold parse_opt_expression. px1 L. destruct o as [e|]; cbn in O.
  - eapply wpx_use; [exact (O toks L p l H C)|]. intros a q (A1 & A2 & A3 & A4). px1 L. unfold opt_q. oks. cbn. congruence.
  - subst ts. cbn [app] in H. eapply wpx_mono; [apply (pe_fail toks PrNone p l L H); eapply hd_weak; [|exact C]; apply closer_fail|intros ? ? []|].
    intros e q ->. px1 L. unfold opt_q. oks. reflexivity.
Qed.
Lemma stm_opt k (f : option expr -> stmt_) ts o :
  (k, f) = (KReturn, SReturn) \/ (k, f) = (KContinue, SContinue) \/ (k, f) = (KBreak, SBreak) -> OptE ts o ->
  StmC any (Kw k :: ts ++ [Kw KSemiColon]) (St (f o) span_new).
Proof.
  intros K O. split; [exists (Kw k); eexists; split; [reflexivity|]; destruct K as [K|[K|K]]; injection K as -> _; reflexivity|].
  intros toks L p l H _. cbn [app] in H. rewrite <- app_assoc in H. cbn [app] in H.
  eapply simple_run with (m := o <~ parse_opt_expression (PE toks) PrNone ;; pret (f o)); [exact L|exact H| |].
  - destruct K as [K|[K|K]]; injection K as -> ->; reflexivity.
  - px L. eapply wpx_use; [apply (opt_run ts o toks _ _ O L HS); reflexivity|]. intros a q (A1 & A2 & A3). px L. exists l. oks. intros sp. oks.
    destruct K as [K|[K|K]]; injection K as -> ->; strips.
Qed.
Lemma stm_none : StmC any [Kw KSemiColon] (St SNone span_new).
Proof. split; [head1|]. intros toks L p l H _. cbn [app] in H. apply wpx_PS. unfold parse_statement_body. px L. oks. reflexivity. Qed.

(** ** Loops over lists with commas *)
Lemma commas_run {A} (toks : list tokspan) (It : list token -> A -> Prop) (R : A -> A -> Prop) (C : list token -> Prop) (item : P A) (loop : nat -> list A -> P (list A)) :
  late2 toks ->
  (forall n acc p Q, wpx item p (fun a q => wpx (look toks KComma (fun _ => loop n (acc ++ [a])) (pret (acc ++ [a]))) q Q nofail) nofail ->
     wpx (loop (S n) acc) p Q nofail) ->
  (forall ts x p l, It ts x -> here toks p (ts ++ l) -> C l -> wpx item p (fun a q => here toks q l /\ p < q /\ R a x) nofail) ->
  (forall l, C (Kw KComma :: l)) ->
  forall tss xs, tss <> [] -> Forall2 It tss xs -> forall n acc p l, here toks p (commas tss ++ l) -> C l -> hd_ok (fun t => negb (tok_in [KComma] t)) l -> List.length tss <= n ->
  wpx (loop n acc) p (fun r q => here toks q l /\ p < q /\ exists ys, r = acc ++ ys /\ Forall2 R ys xs) nofail.
Proof.
  intros L LS IS CC. induction tss as [|ts tss IH]; intros xs NE F n acc p l H CL NC N; [congruence|].
  inversion F as [|? x ? xs' I F']; subst. destruct n as [|n]; [cbn in N; lia|]. apply LS.
  destruct tss as [|ts2 tss].
  - inversion F'; subst. cbn [commas] in H. eapply wpx_use; [exact (IS ts x p l I H CL)|]. intros a q (A1 & A2 & A3). px L. oks. exists [a]. auto.
  - rewrite commas_cons in H. eapply wpx_use; [exact (IS ts x p _ I H (CC _))|]. intros a q (A1 & A2 & A3). px L.
    eapply wpx_use; [apply (IH xs' ltac:(discriminate) F' n (acc ++ [a]) (S q) l HS CL NC); cbn in N |- *; lia|].
    intros r q' (B1 & B2 & ys & -> & B3). oks. exists (a :: ys). rewrite <- app_assoc. auto.
Qed.
Lemma forall2_map {A B} (f : A -> B) xs ys : Forall2 (fun a x => f a = f x) xs ys -> map f xs = map f ys.
Proof. induction 1; cbn; congruence. Qed.
Lemma items_len {A} (It : list token -> A -> Prop) toks p tss xs l : (forall ts x, It ts x -> 1 <= List.length ts) -> Forall2 It tss xs -> here toks p (commas tss ++ l) -> List.length tss <= lf toks.
Proof.
  intros N F [H _]. rewrite app_length in H. unfold lf. assert (List.length tss <= List.length (commas tss)); [|lia].
  clear H. induction F as [|ts x tss xs I F IH]; [cbn; lia|]. apply N in I. destruct tss as [|b tss]; [cbn; lia|]. rewrite commas_len. cbn [List.length] in *. lia.
Qed.

(** unset *)
Lemma var_len so ts e : VarS so ts e -> 1 <= List.length ts.
Proof. intros [(t & r & -> & _) _]. cbn. lia. Qed.
Lemma stm_unset tss es : tss <> [] -> Forall2 Var tss es -> StmC any (Kw KUnset :: Kw KParenthesesOpen :: commas tss ++ [Kw KParenthesesClose; Kw KSemiColon]) (St (SUnset es) span_new).
Proof.
  intros NE F. split; [head1|]. intros toks L p l H _. cbn [app] in H. rewrite <- app_assoc in H. cbn [app] in H. apply wpx_PS. unfold parse_statement_body, parse_unset. px L.
  eapply wpx_use; [apply (commas_run toks Var (fun a x => strip_expr a = strip_expr x) var_end (parse_variable toks (PE toks) false None) (unset_vars toks (PE toks)) L) with (tss := tss) (xs := es) (l := Kw KParenthesesClose :: Kw KSemiColon :: l); auto|].
  - intros. cbn [unset_vars]. px1 L. exact H0.
  - intros ts x q l' V X Y. eapply wpx_use; [exact (var_whole ts x V toks L q l' X Y)|]. intros a q' (A1 & A2 & A3 & A4). oks. exact A3.
  - intros. reflexivity.
  - reflexivity.
  - reflexivity.
  - eapply items_len; eauto. apply var_len.
  - cbv beta. intros r q (A1 & A2 & ys & -> & A3). apply forall2_map in A3. px L. oks. strips.
Qed.

(** ** Loops and conditions *)
Definition cond_toks (ts : list token) : list token := Kw KParenthesesOpen :: ts ++ [Kw KParenthesesClose].
Lemma cond_app ts l : cond_toks ts ++ l = Kw KParenthesesOpen :: ts ++ Kw KParenthesesClose :: l.
Proof. unfold cond_toks. cbn [app]. rewrite <- app_assoc. reflexivity. Qed.
Lemma cond_run ts e toks p l : Full ts e -> late2 toks -> here toks p (cond_toks ts ++ l) -> wpx (parse_condition toks (PE toks)) p (okq toks e p l) nofail.
Proof.
  intros F L H. rewrite cond_app in H. unfold parse_condition. px L. eapply wpx_use; [apply (F toks L _ _ HS); reflexivity|]. intros a q (A1 & A2 & A3). px L. okk. exact A3.
Qed.
Lemma stm_while (c : list token -> Prop) tc e tb b : Full tc e -> BodyC c tb b -> StmC c (Kw KWhile :: cond_toks tc ++ tb) (St (SWhile e b) span_new).
Proof.
  intros F B. split; [head1|]. intros toks L p l H C. cbn [app] in H. rewrite <- app_assoc in H. apply wpx_PS. unfold parse_statement_body, parse_while. px L.
  eapply wpx_use; [exact (cond_run tc e toks _ _ F L HS)|]. intros a q (A1 & A2 & A3 & A4). px L. eapply wpx_use; [exact (body_run c tb b toks q l B L A1 C)|].
  intros r q' (B1 & B2 & B3). px L. oks. strips.
Qed.
Lemma stm_do (c : list token -> Prop) tc e tb b : Full tc e -> BodyC stm_end tb b -> StmC any (Kw KDo :: tb ++ Kw KWhile :: cond_toks tc ++ [Kw KSemiColon]) (St (SDoWhile b e) span_new).
Proof.
  intros F B. split; [head1|]. intros toks L p l H _. cbn [app] in H. rewrite app_cons_assoc in H. rewrite <- app_assoc in H. cbn [app] in H.
  apply wpx_PS. unfold parse_statement_body, parse_do. px L. eapply wpx_use; [apply (body_run _ tb b toks _ _ B L HS); reflexivity|]. intros r q (B1 & B2 & B3). px L.
  eapply wpx_use; [exact (cond_run tc e toks _ _ F L HS0)|]. intros a q' (A1 & A2 & A3 & A4). px L. oks. strips.
Qed.
Lemma stm_for (c : list token -> Prop) ti i tl_ cl tc co tb b : OptE ti i -> OptE tl_ cl -> OptE tc co -> BodyC c tb b ->
  StmC c (Kw KFor :: Kw KParenthesesOpen :: ti ++ Kw KSemiColon :: tl_ ++ Kw KSemiColon :: tc ++ Kw KParenthesesClose :: tb) (St (SFor i cl co b) span_new).
Proof.
  intros O1 O2 O3 B. split; [head1|]. intros toks L p l H C. cbn [app] in H. repeat (rewrite app_cons_assoc in H; cbn [app] in H).
  apply wpx_PS. unfold parse_statement_body, parse_for. px L. 
  eapply wpx_use; [apply (opt_run ti i toks _ _ O1 L HS0); reflexivity|]. intros x1 q1 (A1 & A2 & A3). px L.
  eapply wpx_use; [apply (opt_run tl_ cl toks _ _ O2 L HS1); reflexivity|]. intros x2 q2 (B1 & B2 & B3). px L.
  eapply wpx_use; [apply (opt_run tc co toks _ _ O3 L HS2); reflexivity|]. intros x3 q3 (C1 & C2 & C3). px L.
  eapply wpx_use; [apply (body_run c tb b toks _ _ B L HS3 C)|]. intros r q (D1 & D2 & D3). px L. oks. strips.
Qed.
(** the variables of a foreach *)
Definition FVar (ts : list token) (e : expr) : Prop :=
  Var ts e \/ exists ts' e', ts = Kw KAmpersand :: ts' /\ Var ts' e' /\ e = Ex (ERef e') span_new.
Lemma fvar_run ts e toks p l : FVar ts e -> late2 toks -> here toks p (ts ++ l) -> var_end l ->
  wpx (parse_foreach_variable toks (PE toks)) p (fun a q => here toks q l /\ p < q /\ strip_expr a = strip_expr e) nofail.
Proof.
  intros F L H C. unfold parse_foreach_variable, parse_is_ref. destruct F as [V|(ts' & e' & -> & V & ->)].
  - assert (X : hd_ok (fun t => negb (tok_in [KAmpersand] t)) (ts ++ l)).
    { destruct V as [(t & r & -> & V) _]. cbn. destruct t as [k| | | | | | | |]; auto. destruct k; auto; discriminate. }
    px L. eapply wpx_use; [exact (var_whole ts e V toks L p l H C)|]. intros a q (A1 & A2 & A3 & A4). px L. oks. exact A3.
  - cbn [app] in H. px L. eapply wpx_use; [exact (var_whole ts' e' V toks L _ l HS C)|]. intros a q (A1 & A2 & A3 & A4). px L. oks. strips.
Qed.
Lemma stm_foreach (c : list token -> Prop) te e tk k tv v tb b : Full te e ->
  match k with Some k => exists t, tk = t ++ [Kw KDoubleArrow] /\ FVar t k | None => tk = [] end -> FVar tv v -> BodyC c tb b ->
  StmC c (Kw KForeach :: Kw KParenthesesOpen :: te ++ Kw KAs :: tk ++ tv ++ Kw KParenthesesClose :: tb) (St (SForEach e k v b) span_new).
Proof.
  intros F K V B. split; [head1|]. intros toks L p l H C. cbn [app] in H. rewrite app_cons_assoc in H. rewrite <- !app_assoc in H. cbn [app] in H.
  apply wpx_PS. unfold parse_statement_body, parse_foreach. px L. 
  eapply wpx_use; [apply (F toks L _ _ HS0); reflexivity|]. intros x1 q1 (A1 & A2 & A3 & A4). px L.
  destruct k as [k|].
  - destruct K as (t & -> & K). rewrite <- app_assoc in HS1. cbn [app] in HS1.
    eapply wpx_use; [apply (fvar_run t k toks _ _ K L HS1); reflexivity|]. intros x2 q2 (B1 & B2 & B3). px L.
    eapply wpx_use; [apply (fvar_run tv v toks _ _ V L HS2); reflexivity|]. intros x3 q3 (C1 & C2 & C3). px L.
    eapply wpx_use; [apply (body_run c tb b toks _ _ B L HS4 C)|]. intros r q (D1 & D2 & D3). px L. oks. strips.
  - subst tk. cbn [app] in HS1.
    eapply wpx_use; [apply (fvar_run tv v toks _ _ V L HS1); reflexivity|]. intros x3 q3 (C1 & C2 & C3). px L.
    eapply wpx_use; [apply (body_run c tb b toks _ _ B L HS2 C)|]. intros r q (D1 & D2 & D3). px L. oks. strips.
Qed.
(** ** try *)
Definition Catch (ts : list token) (c : catch) : Prop :=
  exists abs fs v tb b, ts = Kw KCatch :: Kw KParenthesesOpen :: path_toks abs fs ++ TVariable v :: Kw KParenthesesClose :: tb /\
    fs <> [] /\ Braced tb b /\ c = mkCatch (path_of abs fs) v b.
Definition strip_catch := map_catch no_spans.
Lemma catches_run tss cs : Forall2 Catch tss cs -> forall toks, late2 toks -> forall n acc cs0 p l, here toks p (List.concat tss ++ l) ->
  hd_ok (fun t => negb (tok_in [KCatch] t)) l -> List.length tss < n -> map strip_catch acc = map strip_catch cs0 ->
  wpx (catch_clauses toks (PS toks) n acc) p (fun r q => here toks q l /\ p <= q /\ map strip_catch r = map strip_catch (cs0 ++ cs)) nofail.
Proof.
  induction 1 as [|ts c tss cs S F IH]; intros toks L n acc cs0 p l H C N A; (destruct n as [|n]; [cbn in N; lia|]); cbn [catch_clauses].
  - cbn [List.concat app] in H. px L. oks. rewrite app_nil_r. exact A.
  - destruct S as (abs & fs & v & tb & b & -> & NE & B & ->). cbn [List.concat] in H. rewrite <- app_assoc in H. cbn [app] in H. rewrite app_cons_assoc in H. cbn [app] in H. px L.
    eapply wpx_use; [apply (name_run toks L abs fs _ _ NE HS0); reflexivity|]. intros r q (A1 & A2 & A3 & A4). px L. unfold expect_var. px L.
    eapply wpx_use; [exact (braced_run tb b toks _ _ B L HS2)|]. intros r' q' (B1 & B2 & B3).
    eapply wpx_use; [apply (IH toks L n _ (cs0 ++ [mkCatch (path_of abs fs) v b]) q' l B1 C); [cbn in N; lia|]|].
    + rewrite !map_app. cbn. f_equal; [exact A|]. f_equal. unfold strip_catch. cbn. unfold strip_stmt in B3. congruence.
    + cbv beta. rewrite <- app_assoc. intros r2 q2 (D1 & D2 & D3). oks. exact D3.
Qed.
Lemma catches_len tss cs : Forall2 Catch tss cs -> List.length tss <= List.length (List.concat tss).
Proof. induction 1 as [|ts s tss ss (abs & fs & v & tb & b & -> & _) _ IH]; cbn; auto. rewrite app_length. lia. Qed.
Definition Fin (ts : list token) (o : option (list stmt)) : Prop :=
  match o with Some b => exists tb, ts = Kw KFinally :: tb /\ Braced tb b | None => ts = [] end.
Lemma stm_try tb b tss cs tf f : Braced tb b -> Forall2 Catch tss cs -> Fin tf f ->
  StmC stm_end (Kw KTry :: tb ++ List.concat tss ++ tf) (St (STry b cs f) span_new).
Proof.
  intros B F FI. split; [head1|]. intros toks L p l H C. cbn [app] in H. rewrite <- !app_assoc in H. apply wpx_PS. unfold parse_statement_body, parse_try. px L.
  eapply wpx_use; [exact (braced_run tb b toks _ _ B L HS)|]. intros r q (A1 & A2 & A3). px L.
  pose proof (catches_len tss cs F) as N. assert (HL := proj1 A1). rewrite app_length in HL.
  assert (X : hd_ok (fun t => negb (tok_in [KCatch] t)) (tf ++ l)).
  { destruct f as [fb|]; cbn in FI; [destruct FI as (tb' & -> & _); reflexivity|subst tf]. cbn [app]. unfold stm_end in C. weak1 C. }
  eapply wpx_use; [apply (catches_run tss cs F toks L (lf toks) [] [] q _ A1 X); [unfold lf; lia|reflexivity]|]. intros cs' q' (B1 & B2 & B3). cbv beta. cbn [app] in B3.
  destruct f as [fb|]; cbn in FI.
  - destruct FI as (tb' & -> & FB). cbn [app] in B1. px L. eapply wpx_use; [exact (braced_run tb' fb toks _ _ FB L HS0)|]. intros r2 q2 (D1 & D2 & D3). px L. oks.
    unfold strip_catch in *. strips.
  - subst tf. cbn [app] in B1. unfold stm_end in C. px L. oks. unfold strip_catch in *. strips.
Qed.

(** ** switch *)
(** a label with its statements; [None] is [default] *)
Definition Item (ts : list token) (x : option expr * list stmt) : Prop :=
  exists tl_ tss, ts = tl_ ++ List.concat tss /\ Forall2 Stm tss (snd x) /\
  match fst x with
  | Some e => exists te k, (k = KColon \/ k = KSemiColon) /\ tl_ = Kw KCase :: te ++ [Kw k] /\ Full te e
  | None => exists k, (k = KColon \/ k = KSemiColon) /\ tl_ = [Kw KDefault; Kw k]
  end.
(** the cases of a list of labels with their statements; [conds] are waiting for statements *)
Fixpoint sw_cases (conds : list expr) (l : list (option expr * list stmt)) : list swcase :=
  match l with
  | [] => map (fun c => mkCase [c] false []) conds
  | (lab, b) :: r =>
    let conds := match lab with Some e => conds ++ [e] | None => conds end in
    match b with
    | [] => sw_cases conds r
    | _ => mkCase conds (match lab with Some _ => false | None => true end) b :: sw_cases [] r
    end
  end.
Definition strip_case := map_swcase no_spans.
Definition sw_q (toks : list tokspan) (r0 : list swcase) (p : nat) (l : list token) : list swcase * list expr -> nat -> Prop :=
  fun r q => here toks q l /\ p <= q /\ map strip_case (fst r ++ map (fun c => mkCase [c] false []) (snd r)) = map strip_case r0.
Lemma item_end ts x l : Item ts x -> exists t r, ts ++ l = t :: r /\ list_end t = true.
Proof.
  intros (tl_ & tss & -> & F & X). destruct (fst x) as [e|].
  - destruct X as (te & k & _ & -> & _). cbn. eexists. eexists. split; reflexivity.
  - destruct X as (k & _ & ->). cbn. eexists. eexists. split; reflexivity.
Qed.
Lemma inner_next stss b toks q l2 u l : Forall2 Stm stss b -> late2 toks -> here toks q (List.concat stss ++ l2) ->
  ((exists t r, l2 = t :: r /\ list_end t = true) /\ u = l2 \/ exists v, Unf v /\ l2 = v ++ Kw KCurlyBracesClose :: l /\ u = Kw KCurlyBracesClose :: l) ->
  wpx (parse_inner_statement_list toks (PS toks)) q (stms_q toks b q u) nofail.
Proof.
  intros F L H [((t & r & -> & T) & ->)|(v & U & -> & ->)].
  - apply (inner_run stss b toks q t r F L H T).
  - apply (block_run (List.concat stss ++ v) b toks q l); [exists stss, v; auto|exact L|]. rewrite <- app_assoc. exact H.
Qed.
Lemma switch_run_u tss xs : Forall2 Item tss xs -> forall u, Unf u -> (tss = [] -> u = []) -> forall toks, late2 toks -> forall n cases conds cases0 conds0 p l, here toks p (List.concat tss ++ u ++ Kw KCurlyBracesClose :: l) ->
  List.length tss < n -> map strip_case cases = map strip_case cases0 -> map strip_expr conds = map strip_expr conds0 ->
  wpx (switch_cases toks (PE toks) (PS toks) n cases conds) p (sw_q toks (cases0 ++ sw_cases conds0 xs) p (Kw KCurlyBracesClose :: l)) nofail.
Proof.
  induction 1 as [|ts x tss xs IT F IH]; intros u U UE toks L n cases conds cases0 conds0 p l H N A B; (destruct n as [|n]; [cbn in N; lia|]); cbn [switch_cases]; cbv zeta.
  - rewrite (UE eq_refl) in H. cbn [List.concat app] in H. px L. unfold sw_q. oks. cbn [fst snd sw_cases]. rewrite !map_app, !map_map. f_equal; [exact A|].
    clear - B. revert conds0 B. induction conds as [|c conds IH]; intros [|c0 conds0] B; try discriminate; auto. cbn in *. injection B as B1 B2.
    f_equal; [|apply IH; exact B2]. unfold strip_case. cbn. unfold strip_expr in B1. congruence.
  - cbn [List.concat] in H. rewrite <- app_assoc in H. destruct x as [lab b].
    assert (NX : exists l2 v, Unf v /\ (tss = [] -> v = []) /\ l2 = List.concat tss ++ v ++ Kw KCurlyBracesClose :: l /\
      ((exists t r, List.concat tss ++ u ++ Kw KCurlyBracesClose :: l = t :: r /\ list_end t = true) /\ l2 = List.concat tss ++ u ++ Kw KCurlyBracesClose :: l \/
       exists w, Unf w /\ List.concat tss ++ u ++ Kw KCurlyBracesClose :: l = w ++ Kw KCurlyBracesClose :: l /\ l2 = Kw KCurlyBracesClose :: l)).
    { destruct F as [|ts2 x2 tss xs I2 F2].
      - exists (Kw KCurlyBracesClose :: l), []. split; [apply unf_nil|]. split; [auto|]. split; [reflexivity|]. right. exists u. auto.
      - eexists. exists u. split; [exact U|]. split; [discriminate|]. split; [reflexivity|]. left. split; [|reflexivity]. cbn [List.concat]. rewrite <- app_assoc. eapply item_end; eauto. }
    destruct NX as (l2_ & v & UV & VE & L2 & NX).
    (* the part behind the label *)
    assert (G : forall (lab' : option expr) k q l2 stss, (k = KColon \/ k = KSemiColon) -> p < q -> Forall2 Stm stss b -> here toks q (Kw k :: l2) -> l2 = List.concat stss ++ List.concat tss ++ u ++ Kw KCurlyBracesClose :: l -> option_map strip_expr lab' = option_map strip_expr lab ->
      wpx (look toks KColon (fun _ => pret tt) (look toks KSemiColon (fun _ => pret tt) (perr [Kw KColon; Kw KSemiColon])) ;~
      b <~ parse_inner_statement_list toks (PS toks) ;;
      match fst b with
      | [] => switch_cases toks (PE toks) (PS toks) n cases (match lab' with Some x => conds ++ [x] | None => conds end)
      | bl => switch_cases toks (PE toks) (PS toks) n (cases ++ [mkCase (match lab' with Some x => conds ++ [x] | None => conds end) (match lab' with Some _ => false | None => true end) bl]) []
      end) q (sw_q toks (cases0 ++ sw_cases conds0 ((lab, b) :: xs)) p (Kw KCurlyBracesClose :: l)) nofail).
    { intros lab' k q l2 stss K PQ SF HQ -> EL. px1 L.
      assert (X : wpx (look toks KColon (fun _ => pret tt) (look toks KSemiColon (fun _ => pret tt) (perr [Kw KColon; Kw KSemiColon]))) q (fun _ q' => q' = S q) nofail).
      { destruct K as [-> | ->]; px L; reflexivity. }
      eapply wpx_use; [exact X|]. intros _ q' ->. destruct (here_cons toks L q _ _ HQ) as (_ & HQ2 & _). px1 L.
      eapply wpx_use; [exact (inner_next stss b toks _ _ _ l SF L HQ2 NX)|]. intros [b' er] q2 (D1 & D2 & D3). cbn [fst] in D3 |- *. rewrite L2 in D1.
      set (conds' := match lab' with Some x => conds ++ [x] | None => conds end).
      set (conds0' := match lab with Some x => conds0 ++ [x] | None => conds0 end).
      assert (EC : map strip_expr conds' = map strip_expr conds0').
      { unfold conds', conds0'. destruct lab', lab; try discriminate EL; auto. cbn in EL. injection EL as EL. rewrite !map_app. cbn. congruence. }
      cbn [sw_cases]. fold conds0'. destruct b' as [|s b'].
      - destruct b as [|s0 b]; [|discriminate D3]. eapply wpx_use; [apply (IH v UV VE toks L n cases conds' cases0 conds0' q2 l D1); auto; cbn in N; lia|].
        intros r q3 (E1 & E2 & E3). unfold sw_q. oks. exact E3.
      - destruct b as [|s0 b]; [discriminate D3|].
        eapply wpx_use; [apply (IH v UV VE toks L n _ [] (cases0 ++ [mkCase conds0' (match lab with Some _ => false | None => true end) (s0 :: b)]) [] q2 l D1); auto; [cbn in N; lia|]|].
        + rewrite !map_app. f_equal; [exact A|]. cbn [map]. f_equal. unfold strip_case. cbn [map_swcase].
          assert (ED : match lab' with Some _ => false | None => true end = match lab with Some _ => false | None => true end) by (destruct lab', lab; try discriminate EL; reflexivity).
          rewrite ED. unfold strip_expr, strip_stmt in *. rewrite EC. rewrite D3. reflexivity.
        + intros r q3 (E1 & E2 & E3). unfold sw_q. oks. rewrite <- app_assoc in E3. exact E3. }
    destruct IT as (tl_ & stss & -> & SF & X). cbn [fst snd] in *. rewrite <- app_assoc in H. destruct lab as [e|].
    + destruct X as (te & k & K & -> & FE). cbn [app] in H. rewrite <- app_assoc in H. cbn [app] in H. px L.
      eapply wpx_use; [apply (FE toks L _ _ HS); destruct K as [-> | ->]; reflexivity|]. intros a q (A1 & A2 & A3 & A4).
      apply (G (Some a) k q _ stss K ltac:(lia) SF A1 eq_refl). cbn. congruence.
    + destruct X as (k & K & ->). cbn [app] in H. assert (HX : here toks (S p) (Kw k :: List.concat stss ++ List.concat tss ++ u ++ Kw KCurlyBracesClose :: l)) by (eapply here_cons; eauto).
      assert (HY := G None k (S p) _ stss K ltac:(lia) SF HX eq_refl eq_refl). clear G. repeat (first [exact HY|px1 L]).
Qed.
Lemma items_len2 tss xs : Forall2 Item tss xs -> List.length tss <= List.length (List.concat tss).
Proof.
  induction 1 as [|ts x tss xs I F IH]; cbn; auto. destruct (item_end ts x [] I) as (t & r & E & _). rewrite app_nil_r in E. subst ts. rewrite app_length. cbn. lia.
Qed.
Lemma stm_switch_u te e tss xs u : Full te e -> Forall2 Item tss xs -> Unf u -> (tss = [] -> u = []) ->
  StmC any (Kw KSwitch :: cond_toks te ++ Kw KCurlyBracesOpen :: (List.concat tss ++ u) ++ [Kw KCurlyBracesClose]) (St (SSwitch e (sw_cases [] xs)) span_new).
Proof.
  intros F I U UE. split; [head1|]. intros toks L p l H _. cbn [app] in H. rewrite <- app_assoc in H. rewrite cond_app in H. cbn [app] in H. rewrite <- !app_assoc in H. cbn [app] in H.
  apply wpx_PS. unfold parse_statement_body, parse_switch. px L. eapply wpx_use; [apply (F toks L _ _ HS0); reflexivity|]. intros a q (A1 & A2 & A3 & A4). px L.
  pose proof (items_len2 tss xs I) as N. assert (HL := proj1 HS2). rewrite app_length in HL.
  eapply wpx_use; [apply (switch_run_u tss xs I u U UE toks L (lf toks) [] [] [] [] _ l HS2); auto; unfold lf; lia|]. intros r q' (B1 & B2 & B3). px L. oks.
  cbn [app] in B3. unfold strip_case in B3. unfold strip_stmt, strip_expr in *. cbn. congruence.
Qed.
Lemma stm_switch te e tss xs : Full te e -> Forall2 Item tss xs ->
  StmC any (Kw KSwitch :: cond_toks te ++ Kw KCurlyBracesOpen :: List.concat tss ++ [Kw KCurlyBracesClose]) (St (SSwitch e (sw_cases [] xs)) span_new).
Proof. intros F I. pose proof (stm_switch_u te e tss xs [] F I unf_nil (fun _ => eq_refl)) as H. rewrite app_nil_r in H. exact H. Qed.

(** ** if *)
(** a condition with its statements *)
Definition Arm (ts : list token) (x : expr * list stmt) : Prop := exists tc tb, ts = cond_toks tc ++ tb /\ Full tc (fst x) /\ Braced tb (snd x).
Definition Else (ts : list token) (o : list stmt) : Prop := (ts = [] /\ o = []) \/ exists tb, ts = Kw KElse :: tb /\ Body tb o.
Definition elseifs (tss : list (list token)) : list token := flat_map (cons (Kw KElseIf)) tss.
Fixpoint if_tree (c : expr) (b : list stmt) (arms : list (expr * list stmt)) (el : list stmt) : stmt :=
  St (SIf c b (match arms with [] => el | (c', b') :: r => [if_tree c' b' r el] end)) span_new.
Definition if_chain (arms : list (expr * list stmt)) (el : list stmt) : stmt :=
  match arms with [] => St SNone span_new | (c, b) :: r => if_tree c b r el end.
Definition arm_stm (x : expr * list stmt) : stmt := St (SIf (fst x) (snd x) []) span_new.
Notation fold_arms := (fold_right (fun el acc => if_fold_step acc el)).
Lemma strip_if s c b el : strip_stmt s = strip_stmt (St (SIf c b el) span_new) ->
  exists c' b' el' sp, s = St (SIf c' b' el') sp /\ strip_expr c' = strip_expr c /\ map strip_stmt b' = map strip_stmt b /\ map strip_stmt el' = map strip_stmt el.
Proof. destruct s as [n sp]. intros E. destruct n; try discriminate E. unfold strip_stmt in E. cbn in E. injection E as E1 E2 E3. repeat eexists; eauto. Qed.
Lemma fold_tree arms : forall l x c b r el, map strip_stmt l = map strip_stmt (map arm_stm arms) -> strip_stmt x = strip_stmt (if_tree c b r el) ->
  exists y, fold_arms (Some x) l = Some y /\ strip_stmt y = strip_stmt (if_chain (arms ++ (c, b) :: r) el).
Proof.
  induction arms as [|[c0 b0] arms IH]; intros l x c b r el E X; destruct l as [|s l]; try discriminate E; [exists x; auto|].
  cbn [map] in E. injection E as E1 E2. destruct (IH l x c b r el E2 X) as (y & Y1 & Y2). cbn [fold_right]. rewrite Y1.
  destruct (strip_if _ _ _ _ E1) as (c1 & b1 & el1 & sp & -> & C1 & C2 & C3). destruct el1; [|discriminate C3].
  assert (Y3 : exists c2 b2 r2, arms ++ (c, b) :: r = (c2, b2) :: r2) by (destruct arms as [|[c2 b2] arms]; cbn; eauto).
  destruct Y3 as (c2 & b2 & r2 & Y3). rewrite Y3 in Y2. cbn [if_chain] in Y2.
  assert (Y4 : exists el2, if_tree c2 b2 r2 el = St (SIf c2 b2 el2) span_new) by (destruct r2 as [|[? ?] ?]; cbn; eauto). destruct Y4 as (el2 & Y4).
  assert (Y2' := Y2). rewrite Y4 in Y2'. destruct (strip_if _ _ _ _ Y2') as (c3 & b3 & el3 & sp3 & -> & D1 & D2 & D3). cbn [if_fold_step].
  eexists. split; [reflexivity|]. cbn [app if_chain]. rewrite Y3. change (if_tree c0 b0 ((c2, b2) :: r2) el) with (St (SIf c0 b0 [if_tree c2 b2 r2 el]) span_new).
  transitivity (St (SIf (strip_expr c1) (map strip_stmt b1) [strip_stmt (St (SIf c3 b3 el3) sp3)]) span_new); [reflexivity|]. rewrite Y2, C1, C2. reflexivity.
Qed.
Lemma fold_ifs_ok arms l : arms <> [] -> map strip_stmt l = map strip_stmt (map arm_stm arms) ->
  exists y, fold_ifs l = Some y /\ strip_stmt y = strip_stmt (if_chain arms []).
Proof.
  intros NE E. destruct (exists_last NE) as (arms' & [c b] & ->). rewrite map_app, map_app in E. cbn [map] in E.
  assert (X : exists l' x, l = l' ++ [x]) by (destruct (exists_last (l := l)) as (l' & x & ->); [intros ->; destruct (map strip_stmt (map arm_stm arms')); discriminate|eauto]).
  destruct X as (l' & x & ->). rewrite map_app in E. cbn [map] in E. apply app_inj_tail in E. destruct E as [E1 E2].
  unfold fold_ifs. rewrite rev_app_distr. cbn [rev app]. rewrite <- fold_left_rev_right, rev_involutive. apply (fold_tree arms' l' x c b [] []); auto.
Qed.
Lemma fold_ifs_else arms l el x : arms <> [] -> map strip_stmt l = map strip_stmt (map arm_stm arms) -> strip_stmt x = strip_stmt (St (SBlock el) span_new) ->
  exists y, fold_ifs (l ++ [x]) = Some y /\ strip_stmt y = strip_stmt (if_chain arms el).
Proof.
  intros NE E X. destruct (exists_last NE) as (arms' & [c b] & ->). rewrite map_app, map_app in E. cbn [map] in E.
  assert (Y : exists l' x, l = l' ++ [x]) by (destruct (exists_last (l := l)) as (l' & z & ->); [intros ->; destruct (map strip_stmt (map arm_stm arms')); discriminate|eauto]).
  destruct Y as (l' & z & ->). rewrite map_app in E. cbn [map] in E. apply app_inj_tail in E. destruct E as [E1 E2].
  destruct (strip_if _ _ _ _ E2) as (c1 & b1 & el1 & sp & -> & C1 & C2 & C3). destruct el1; [|discriminate C3].
  destruct x as [n xsp]. destruct n; try discriminate X. rename b0 into xb.
  unfold fold_ifs. rewrite !rev_app_distr. cbn [rev app fold_left if_fold_step]. rewrite <- fold_left_rev_right, rev_involutive.
  apply (fold_tree arms' l' _ c b [] el); auto. unfold strip_stmt in *. cbn in *. unfold strip_expr in C1. injection X as X. congruence.
Qed.
Lemma arm_len tss arms : Forall2 Arm tss arms -> List.length tss <= List.length (elseifs tss).
Proof. unfold elseifs. induction 1; cbn [flat_map]; auto. rewrite app_length. cbn [List.length]. lia. Qed.
Lemma arms_run tss arms : Forall2 Arm tss arms -> forall toks, late2 toks -> forall n acc acc0 p l, here toks p (elseifs tss ++ l) ->
  hd_ok (fun t => negb (tok_in [KElseIf] t)) l -> List.length tss < n -> map strip_stmt acc = map strip_stmt acc0 ->
  forall Q : list stmt -> nat -> Prop,
  (forall acc' q n', here toks q l -> p <= q -> 0 < n' -> map strip_stmt acc' = map strip_stmt (acc0 ++ map arm_stm arms) ->
     wpx (look toks KElse (fun sp => b <~ parse_statement_extract_block (PS toks) ;; if_arms toks (PE toks) (PS toks) (n - S (List.length tss)) (acc' ++ [St (SBlock (fst b)) (mk_span (sp_start sp) (sp_end (snd b)))])) (pret acc')) q Q nofail) ->
  wpx (if_arms toks (PE toks) (PS toks) n acc) p Q nofail.
Proof.
  induction 1 as [|ts x tss arms AR F IH]; intros toks L n acc acc0 p l H C N A Q K; (destruct n as [|n]; [cbn in N; lia|]); cbn [if_arms].
  - cbn [elseifs flat_map app] in H. px1 L. specialize (K acc p 1 H ltac:(lia) ltac:(lia)). cbn [map] in K. rewrite app_nil_r in K. specialize (K A).
    cbn [List.length] in K. replace (S n - 1) with n in K by lia. exact K.
  - destruct AR as (tc & tb & -> & FC & B). unfold elseifs in H. cbn [flat_map app] in H. fold (elseifs tss) in H. rewrite <- !app_assoc in H. px L.
    eapply wpx_use; [exact (cond_run tc (fst x) toks _ _ FC L HS)|]. intros c q (A1 & A2 & A3 & A4). px L.
    eapply wpx_use; [exact (body_run any tb (snd x) toks q _ (or_introl B) L A1 I)|]. intros b q' (B1 & B2 & B3). cbv beta.
    eapply (IH toks L n _ (acc0 ++ [arm_stm x]) q' l B1 C); [cbn in N; lia| |].
    + rewrite !map_app. cbn [map]. f_equal; [exact A|]. f_equal. unfold arm_stm. strips.
    + intros acc' q2 n' D1 D2 D3 D4. rewrite <- app_assoc in D4. apply (K acc' q2 n' D1); auto. lia.
Qed.
Lemma stm_if ta a tss arms te el : Arm ta a -> Forall2 Arm tss arms -> Else te el ->
  StmC stm_end (Kw KIf :: ta ++ elseifs tss ++ te) (if_chain (a :: arms) el).
Proof.
  intros AR F E. split; [head1|]. intros toks L p l H C. cbn [app] in H. rewrite <- !app_assoc in H. destruct AR as (tc & tb & -> & FC & B). rewrite <- app_assoc in H.
  apply wpx_PS. unfold parse_statement_body, parse_if. px L.
  eapply wpx_use; [exact (cond_run tc (fst a) toks _ _ FC L HS)|]. intros c q (A1 & A2 & A3 & A4). px L.
  eapply wpx_use; [exact (body_run any tb (snd a) toks q _ (or_introl B) L A1 I)|]. intros b q' (B1 & B2 & B3). px1 L.
  pose proof (arm_len tss arms F) as N. assert (HL := proj1 B1). rewrite app_length in HL.
  assert (X : hd_ok (fun t => negb (tok_in [KElseIf] t)) (te ++ l)).
  { destruct E as [(-> & _)|(tb' & -> & _)]; [|reflexivity]. cbn [app]. unfold stm_end in C. weak1 C. }
  eapply (arms_run tss arms F toks L (lf toks) _ [arm_stm a] q' _ B1 X).
  { unfold lf. lia. }
  { cbn [map]. f_equal. unfold arm_stm. strips. }
  intros acc' q2 n' D1 D2 D3 D4. rewrite <- (map_cons arm_stm a arms : map arm_stm (a :: arms) = [arm_stm a] ++ map arm_stm arms) in D4.
  assert (NE : a :: arms <> []) by discriminate.
  destruct E as [(-> & ->)|(tb' & -> & BE)].
  - cbn [app] in D1. unfold stm_end in C. px L. destruct (fold_ifs_ok _ _ NE D4) as (y & Y1 & Y2). rewrite Y1. px L. oks. exact Y2.
  - cbn [app] in D1. px L. eapply wpx_use; [exact (body_run _ tb' el toks _ _ BE L HS0 C)|]. intros eb q3 (E1 & E2 & E3). cbv beta.
    assert (LN : exists m, lf toks - S (List.length tss) = S m) by (exists (lf toks - S (S (List.length tss))); unfold lf; lia). destruct LN as (m & ->).
    cbn [if_arms]. unfold stm_end in C. px L.
    destruct (fold_ifs_else _ _ el (St (SBlock (fst eb)) (mk_span (sp_start (sp_at toks q2)) (sp_end (snd eb)))) NE D4) as (y & Y1 & Y2).
    { strips. }
    rewrite Y1. px L. oks. exact Y2.
Qed.

(** ** Static and global variables *)
Definition Init (ts : list token) (o : option expr) : Prop := match o with Some e => exists te, ts = Kw KEqual :: te /\ Full te e | None => ts = [] end.
Definition SVar (ts : list token) (x : str * option expr) : Prop := exists ti, ts = TVariable (fst x) :: ti /\ Init ti (snd x).
Definition init_end : list token -> Prop := hd_ok closer.
Lemma init_run ti o toks p l : Init ti o -> late2 toks -> here toks p (ti ++ l) -> init_end l ->
  wpx (look toks KEqual (fun _ => e <~ PE toks PrNone ;; pret (Some e)) (pret None)) p (opt_q toks o p l) nofail.
Proof.
  intros I L H C. destruct o as [e|]; cbn in I.
  - destruct I as (te & -> & F). cbn [app] in H. px L. eapply wpx_use; [apply (F toks L _ l HS); weak1 C|]. intros a q (A1 & A2 & A3 & A4). px L. unfold opt_q. oks. cbn. congruence.
  - subst ti. cbn [app] in H. unfold init_end in C. px L. unfold opt_q. oks. reflexivity.
Qed.
Definition strip_svar (x : str * option expr) := match x with (v, e) => (v, option_map strip_expr e) end.
Lemma stm_static tss xs : tss <> [] -> Forall2 SVar tss xs -> StmC any (Kw KStatic :: commas tss ++ [Kw KSemiColon]) (St (SDecl (DStaticVars xs)) span_new).
Proof.
  intros NE F. split; [head1|]. intros toks L p l H _. cbn [app] in H. rewrite <- app_assoc in H. cbn [app] in H.
  apply wpx_PS. unfold parse_statement_body, look_restore, parse_static_var_decl. px L.
  eapply wpx_use; [apply (commas_run toks SVar (fun a x => strip_svar a = strip_svar x) init_end
     (v <~ expect_var toks ;; d <~ look toks KEqual (fun _ => e <~ PE toks PrNone ;; pret (Some e)) (pret None) ;; pret (v, d)) (static_vars toks (PE toks)) L)
     with (tss := tss) (xs := xs) (l := Kw KSemiColon :: l); auto|].
  - intros n acc q Q K. cbn [static_vars]. unfold wpx, pbind, pcatch in *. destruct (expect_var toks q) as [v q'|? ?|?|]; auto.
    destruct (look toks KEqual _ _ q') as [d q2|? ?|?|]; auto. 
  - intros ts x q l' (ti & -> & IN) X Y. cbn [app] in X. unfold expect_var. px L. eapply wpx_use; [exact (init_run ti (snd x) toks _ _ IN L HS0 Y)|].
    intros d q' (A1 & A2 & A3). px L. oks. destruct x as [v o]. cbn in *. congruence.
  - intros. reflexivity.
  - reflexivity.
  - reflexivity.
  - eapply items_len; [|exact F|exact HS]. intros ts x (ti & -> & _). cbn. lia.
  - cbv beta. intros r q (A1 & A2 & ys & -> & A3). apply forall2_map in A3. px L. oks. unfold strip_stmt. cbn. do 3 f_equal. exact A3.
Qed.
Lemma stm_global vs : vs <> [] -> StmC any (Kw KGlobal :: commas (map (fun v => [TVariable v]) vs) ++ [Kw KSemiColon]) (St (SDecl (DGlobalVars (map VName vs))) span_new).
Proof.
  intros NE. split; [head1|]. intros toks L p l H _. cbn [app] in H. rewrite <- app_assoc in H. cbn [app] in H.
  assert (F : Forall2 (fun ts x => exists v, ts = [TVariable v] /\ x = VName v) (map (fun v => [TVariable v]) vs) (map VName vs)).
  { clear. induction vs; cbn; constructor; eauto. }
  apply wpx_PS. unfold parse_statement_body, look_restore, parse_global_var_decl. px L.
  eapply wpx_use; [apply (commas_run toks (fun ts x => exists v, ts = [TVariable v] /\ x = VName v) eq any
     (v <~ parse_simple_variable toks ;; pret (fst v)) (global_vars toks) L)
     with (tss := map (fun v => [TVariable v]) vs) (xs := map VName vs) (l := Kw KSemiColon :: l); auto|].
  - intros n acc q Q K. cbn [global_vars]. unfold wpx, pbind, pcatch in *. destruct (parse_simple_variable toks q) as [v q'|? ?|?|]; auto.
  - intros ts x q l' (v & -> & ->) X Y. cbn [app] in X. unfold parse_simple_variable. px L. oks. reflexivity.
  - intros. exact I.
  - destruct vs; [congruence|discriminate].
  - exact I.
  - reflexivity.
  - eapply items_len; [|exact F|exact HS]. intros ts x (v & -> & _). cbn. lia.
  - cbv beta. intros r q (A1 & A2 & ys & -> & A3). apply (forall2_map id) in A3. rewrite !map_id in A3. subst ys. px L. oks. reflexivity.
Qed.
