(** * DiesStm: statements and programs on which the parser panics *)
From Verif Require Import Base Tokens Ast AstMap AstInd Lexer Parser Driver Wp ParserTermination ParserMono ParserRel ParseRun ParseTac ParseExpr ParseStmt ParseDecl ParseCrash Dies.
From Coq Require Import String.

(** a statement that starts with the tokens [ts], if the tokens behind them are in [c]; [DiesS]: whatever follows *)
Definition DiesSC (c : list token -> Prop) (ts : list token) : Prop :=
  starts ts /\ forall toks, late2 toks -> forall p l, here toks p (ts ++ l) -> c l -> wp (PS toks) p never never.
Notation DiesS := (DiesSC any).
(** the tokens that start nothing but an expression statement *)
Definition only_expr (t : token) : bool :=
  match t with
  | TInlineHtml _ => false
  | t => negb (tok_in [KSemiColon; KCurlyBracesOpen; KTry; KUnset; KForeach; KFor; KSwitch; KIf; KWhile; KDo; KStatic; KGlobal; KFunction; KTrait; KInterface; KAbstract; KFinal; KClass;
      KEcho; KReturn; KContinue; KBreak; KThrow; KElse; KElseIf; KCatch; KFinally; KCurlyBracesClose; KCase; KDefault; KNamespace; KUse] t)
  end.
Lemma expr_dies ts : ts <> [] -> hd_ok only_expr ts -> DiesE ts -> DiesS ts.
Proof.
  intros NE C D. destruct ts as [|t r]; [congruence|]. cbn in C. split.
  { exists t, r. split; [reflexivity|]. destruct t as [k| | | | | | | |]; auto. destruct k; auto; discriminate. }
  intros toks L p l H _. assert (HT := H). cbn [app] in HT. assert (X : hd_ok only_expr (t :: r ++ l)) by exact C.
  apply wq_PS. unfold parse_statement_body, look_restore.
  repeat (first [eapply (wq_look_cls toks L); [exact HT|exact X|reflexivity|]|qx1 L]; cbv beta).
  apply (wp_fails (parse_oo_declaration toks (PE toks) (PS toks))); [apply (oo_fail toks p _ L HT); weak1 X|]. intros e.
  unfold parse_other_stmt. qx1 L. qx1 L. replace (simple_stmt toks (PE toks) t (sp_at toks p)) with (@None (P stmt_)).
  2:{ destruct t as [k| | | | | | | |]; try discriminate; try reflexivity. destruct k; try reflexivity; discriminate. }
  qx1 L. qx1 L. cbv beta. unfold parse_expr_stmt. qx1 L. apply wp_never. exact (D toks L p l H).
Qed.
(** the words before an expression *)
Definition word_kind (k : kind) : bool := match k with KEcho | KReturn | KContinue | KBreak | KThrow => true | _ => false end.
Lemma word_dies k ts : word_kind k = true -> DiesE ts -> DiesS (Kw k :: ts).
Proof.
  intros W D. split; [exists (Kw k), ts; split; [reflexivity|destruct k; try discriminate W; reflexivity]|].
  intros toks L p l H _. cbn [app] in H.
  assert (X : hd_ok (tok_in [KEcho; KReturn; KContinue; KBreak; KThrow]) (Kw k :: ts ++ l)) by (destruct k; try discriminate W; reflexivity).
  apply wq_PS. unfold parse_statement_body, look_restore.
  repeat (first [eapply (wq_look_cls toks L); [exact H|exact X|reflexivity|]|qx1 L]; cbv beta).
  apply (wp_fails (parse_oo_declaration toks (PE toks) (PS toks))); [apply (oo_fail toks p _ L H); weak1 X|]. intros e.
  unfold parse_other_stmt. qx1 L. qx1 L. destruct (here_cons toks L p _ _ H) as (_ & H1 & _). pose proof (D toks L _ _ H1) as DD.
  destruct k; try discriminate W; cbn [simple_stmt]; qx1 L; qx1 L; cbv beta; qx1 L; unfold parse_expression_list, parse_opt_expression, lf; cbn [expression_list]; repeat (qx1 L; cbv beta); apply wp_never; exact DD.
Qed.
(** conditions *)
Lemma cond_dies k ts : k = KIf \/ k = KWhile \/ k = KSwitch -> DiesE ts -> DiesS (Kw k :: Kw KParenthesesOpen :: ts).
Proof.
  intros W D. split; [exists (Kw k); eexists; split; [reflexivity|destruct W as [-> |[-> | ->]]; reflexivity]|].
  intros toks L p l H _. cbn [app] in H. apply wq_PS. unfold parse_statement_body.
  destruct (here_cons toks L p _ _ H) as (_ & H1 & _). destruct (here_cons toks L _ _ _ H1) as (_ & H2 & _). pose proof (D toks L _ _ H2) as DD.
  destruct W as [-> |[-> | ->]]; unfold parse_if, parse_while, parse_switch, parse_condition; qx L; apply wp_never; exact DD.
Qed.
(** in a block *)
Lemma inner_dies c tss ss ts : Forall2 Stm tss ss -> DiesSC c ts -> forall toks, late2 toks -> forall n acc p l, here toks p (List.concat tss ++ ts ++ l) -> c l ->
  List.length tss < n -> wp (inner_statements toks (PS toks) n acc) p never never.
Proof.
  intros F D. induction F as [|us s tss ss S F IH]; intros toks L n acc p l H CL N; (destruct n as [|n]; [cbn in N; lia|]); cbn [inner_statements]; qx1 L; qx1 L.
  - cbn [List.concat app] in H. destruct D as [(t & r & E & _) D]. assert (X : p < List.length toks) by (subst ts; cbn [app] in H; eapply here_lt; eauto).
    destruct (Nat.ltb_spec p (List.length toks)); [|lia]. qx1 L. apply wp_never. exact (D toks L p l H CL).
  - cbn [List.concat] in H. rewrite <- app_assoc in H. destruct S as [S K].
    assert (SF : stm_end (List.concat tss ++ ts ++ l)).
    { destruct F as [|vs s' tss ss [S' _] _].
      - cbn [List.concat app]. destruct D as [D _]. destruct (starts_app ts l D) as (t' & r & -> & Y). apply starts_end in Y. exact Y.
      - cbn [List.concat]. rewrite <- app_assoc. destruct (starts_app vs (List.concat tss ++ ts ++ l) S') as (t' & r & -> & Y). apply starts_end in Y. exact Y. }
    destruct (starts_app us (List.concat tss ++ ts ++ l) S) as (t' & r & X & _). rewrite X in H. pose proof (here_lt _ _ _ _ H) as Y. rewrite <- X in H.
    destruct (Nat.ltb_spec p (List.length toks)) as [_|Z]; [|lia]. qx1 L. eapply wp_use; [exact (K toks L p _ H SF)|]. intros a q (A1 & A2 & A3). cbv beta.
    apply (IH toks L n (acc ++ [a]) q l A1 CL). cbn in N. lia.
Qed.
Lemma block_dies c tss ss ts : Forall2 Stm tss ss -> DiesSC c ts -> DiesSC c (Kw KCurlyBracesOpen :: List.concat tss ++ ts).
Proof.
  intros F D. split; [head1|]. intros toks L p l H CL. cbn [app] in H. rewrite <- app_assoc in H. apply wq_PS. unfold parse_statement_body. qx L.
  unfold parse_inner_statement_list. pose proof (stms_len tss ss F) as N. assert (HL := proj1 HS). rewrite app_length in HL.
  assert (X : wp (inner_statements toks (PS toks) (lf toks) []) (S p) never never) by (apply (inner_dies c tss ss ts F D toks L _ _ _ l HS CL); unfold lf; lia).
  assert (Y : toks <> []) by (intros ->; pose proof (here_lt _ _ _ _ H) as HH; cbn in HH; lia).
  destruct toks; [congruence|]. apply wp_never. exact X.
Qed.
(** as the body of a loop or of a condition *)
Lemma body_dies c k tc e ts : k = KIf \/ k = KWhile -> Full tc e -> DiesSC c ts -> DiesSC c (Kw k :: cond_toks tc ++ ts).
Proof.
  intros W F D. split; [exists (Kw k); eexists; split; [reflexivity|destruct W as [-> | ->]; reflexivity]|].
  intros toks L p l H CL. cbn [app] in H. rewrite <- app_assoc in H. apply wq_PS. unfold parse_statement_body.
  destruct W as [-> | ->]; [unfold parse_if|unfold parse_while]; qx L.
  all: eapply wp_use; [exact (cond_run tc e toks _ _ F L HS)|]; intros a q (A1 & A2 & A3 & A4); cbv beta; unfold parse_statement_extract_block; qx L; apply wp_never; exact (proj2 D toks L _ _ A1 CL).
Qed.

(** ** An else that is not the last part of an if *)
(** a part of an if: [elseif] with a condition, or [else] *)
Definition IfArm (ts : list token) (x : option expr * list stmt) : Prop :=
  match fst x with
  | Some e => exists tc tb, ts = Kw KElseIf :: cond_toks tc ++ tb /\ Full tc e /\ Braced tb (snd x)
  | None => exists tb, ts = Kw KElse :: tb /\ Braced tb (snd x)
  end.
Definition is_block (s : stmt) : bool := match snode s with SBlock _ => true | _ => false end.
Definition is_else (x : option expr * list stmt) : bool := match fst x with None => true | Some _ => false end.
Lemma fold_none r : fold_left if_fold_step r None = None.
Proof. induction r as [|x r IH]; auto. Qed.
Lemma fold_block r : existsb is_block r = true -> forall acc, fold_left if_fold_step r acc = None.
Proof.
  induction r as [|x r IH]; intros H acc; [discriminate|]. cbn [existsb] in H. cbn [fold_left]. destruct (is_block x) eqn:B.
  - replace (if_fold_step acc x) with (@None stmt); [apply fold_none|]. destruct x as [n sp]. destruct n; try discriminate B. destruct acc as [[[] ?]|]; reflexivity.
  - apply IH. exact H.
Qed.
Lemma fold_misplaced a b c : is_block b = true -> c <> [] -> fold_ifs (a ++ b :: c) = None.
Proof.
  intros B N. unfold fold_ifs. rewrite rev_app_distr. cbn [rev]. rewrite <- app_assoc. cbn [app].
  destruct (rev c) as [|x r] eqn:E; [apply (f_equal (@rev stmt)) in E; rewrite rev_involutive in E; exfalso; apply N; exact E|]. cbn [app].
  apply fold_block. rewrite existsb_app. cbn [existsb]. rewrite B. apply orb_true_r.
Qed.
Lemma if_arms_run tss xs : Forall2 IfArm tss xs -> forall toks, late2 toks -> forall n acc p l, here toks p (List.concat tss ++ l) -> stm_end l -> List.length tss < n ->
  wpx (if_arms toks (PE toks) (PS toks) n acc) p (fun r q => exists l', r = acc ++ l' /\ map is_block l' = map is_else xs) nofail.
Proof.
  induction 1 as [|ts x tss xs A F IH]; intros toks L n acc p l H C N; (destruct n as [|n]; [cbn in N; lia|]); cbn [if_arms].
  - cbn [List.concat app] in H. unfold stm_end in C. px L. exists []. rewrite app_nil_r. auto.
  - cbn [List.concat] in H. rewrite <- app_assoc in H. destruct x as [[e|] b]; cbn in A.
    + destruct A as (tc & tb & -> & FC & B). cbn [app] in H. rewrite <- app_assoc in H. px L.
      eapply wpx_use; [exact (cond_run tc e toks _ _ FC L HS)|]. intros a q (A1 & A2 & A3 & A4). px L.
      eapply wpx_use; [exact (body_run any tb b toks _ _ (or_introl B) L A1 I)|]. intros r q' (B1 & B2 & B3). cbv beta.
      eapply wpx_use; [apply (IH toks L n _ q' l B1 C); cbn in N; lia|]. cbv beta. intros r' q2 (l' & -> & E). rewrite <- app_assoc. eexists. split; [reflexivity|]. cbn. f_equal. exact E.
    + destruct A as (tb & -> & B). cbn [app] in H. px L.
      eapply wpx_use; [exact (body_run any tb b toks _ _ (or_introl B) L HS I)|]. intros r q' (B1 & B2 & B3). cbv beta.
      eapply wpx_use; [apply (IH toks L n _ q' l B1 C); cbn in N; lia|]. cbv beta. intros r' q2 (l' & -> & E). rewrite <- app_assoc. eexists. split; [reflexivity|]. cbn. f_equal. exact E.
Qed.
Lemma if_arms_len tss xs : Forall2 IfArm tss xs -> List.length tss <= List.length (List.concat tss).
Proof.
  induction 1 as [|ts [[e|] b] tss xs A _ IH]; cbn; auto; [destruct A as (tc & tb & -> & _)|destruct A as (tb & -> & _)]; rewrite app_length; cbn; lia.
Qed.
Lemma map_mid {A B} (f : A -> B) l u v w : map f l = u ++ v :: w -> exists a b c, l = a ++ b :: c /\ f b = v /\ List.length c = List.length w.
Proof.
  revert u. induction l as [|x l IH]; intros u E; [destruct u; discriminate|]. destruct u as [|y u]; cbn in E.
  - injection E as E1 E2. exists [], x, l. repeat split; auto. rewrite <- E2. symmetry. apply map_length.
  - injection E as _ E. destruct (IH u E) as (a & b & c & -> & E1 & E2). exists (x :: a), b, c. auto.
Qed.
Lemma else_dies tc e tb b tss xs ys y zs : Full tc e -> Braced tb b -> Forall2 IfArm tss xs -> xs = ys ++ y :: zs -> fst y = None -> zs <> [] ->
  DiesSC stm_end (Kw KIf :: cond_toks tc ++ tb ++ List.concat tss).
Proof.
  intros FC B F E Y Z. split; [head1|]. intros toks L p l H C. cbn [app] in H. rewrite <- !app_assoc in H. apply wq_PS. unfold parse_statement_body, parse_if. qx L.
  eapply wp_use; [exact (cond_run tc e toks _ _ FC L HS)|]. intros a q (A1 & A2 & A3 & A4). qx L.
  eapply wp_use; [exact (body_run any tb b toks _ _ (or_introl B) L A1 I)|]. intros r q' (B1 & B2 & B3). cbv beta. qx1 L.
  pose proof (if_arms_len tss xs F) as N. assert (HL := proj1 B1). rewrite app_length in HL.
  eapply wp_use; [apply (if_arms_run tss xs F toks L (lf toks) _ q' l B1 C); unfold lf; lia|]. cbv beta. intros r' q2 (l' & -> & M).
  rewrite E, map_app in M. cbn [map] in M. destruct (map_mid _ _ _ _ _ M) as (u & v & w & -> & M1 & M2).
  rewrite app_assoc. rewrite fold_misplaced; [apply wp_panic|rewrite M1; unfold is_else; rewrite Y; reflexivity|]. intros ->. rewrite map_length in M2. destruct zs; [congruence|discriminate].
Qed.

(** ** Programs *)
Lemma tops_die c tss ss ts : Forall2 Top tss ss -> DiesSC c ts -> forall toks, late2 toks -> forall n acc p l, here toks p (List.concat tss ++ ts ++ l) -> c l ->
  List.length tss < n -> wp (top_statements toks (PS toks) n acc) p never never.
Proof.
  intros F D. induction F as [|us s tss ss T F IH]; intros toks L n acc p l H CL N; (destruct n as [|n]; [cbn in N; lia|]); cbn [top_statements]; qx1 L; qx1 L; cbn [List.concat] in H.
  - cbn [app] in H. destruct D as [(t & r & E & ST) D]. assert (X : p < List.length toks) by (subst ts; cbn [app] in H; eapply here_lt; eauto).
    destruct (Nat.ltb_spec p (List.length toks)); [|lia]. qx1 L. unfold parse_top_statement.
    assert (Z : hd_ok (fun t => negb (tok_in [KNamespace; KUse] t)) (ts ++ l)).
    { rewrite E. cbn [app hd_ok]. destruct t as [k| | | | | | | |]; auto. destruct k; auto; discriminate. }
    qx1 L. qx1 L. apply wp_never. exact (D toks L p l H CL).
  - rewrite <- app_assoc in H. destruct (top_start us s T) as (t & r & E & _). assert (X : p < List.length toks) by (rewrite E in H; cbn [app] in H; eapply here_lt; eauto).
    destruct (Nat.ltb_spec p (List.length toks)) as [_|Y]; [|lia]. qx1 L.
    assert (SE : stm_end (List.concat tss ++ ts ++ l)).
    { destruct F as [|ts2 s2 tss ss T2 F2].
      - cbn [List.concat app]. destruct D as [D _]. destruct (starts_app ts l D) as (t' & r' & -> & Y). apply starts_end in Y. exact Y.
      - cbn [List.concat]. destruct (top_start ts2 s2 T2) as (t2 & r2 & -> & E2). cbn. unfold stm_end, hd_ok. rewrite E2. reflexivity. }
    eapply wp_use; [exact (top_run us s toks p _ T L H SE)|]. intros a q (A1 & A2 & A3). cbv beta. apply (IH toks L n (acc ++ [a]) q l A1 CL). cbn in N. lia.
Qed.
Lemma program_dies c tss ss ts l toks : Forall2 Top tss ss -> DiesSC c ts -> Forall (fun t : tokspan => 2 <= sp_start (snd t)) toks -> map fst toks = List.concat tss ++ ts ++ l -> c l ->
  exists x, parse_top toks = PPanic x.
Proof.
  intros F D A E CL. pose proof (late_all toks A) as L.
  assert (H : here toks 0 (List.concat tss ++ ts ++ l)) by (split; [rewrite <- E, map_length; reflexivity|split; [exact E|right; exact A]]). clear A.
  pose proof (tops_len tss ss F) as N.
  assert (X : wp (top_statements toks (PS toks) (lf toks) []) 0 never never).
  { apply (tops_die c tss ss ts F D toks L _ _ _ l H CL). destruct H as [H _]. rewrite app_length in H. unfold lf. lia. }
  unfold parse_top, parse_top_statement_list. unfold PS in X.
  destruct toks as [|t0 toks']; [eexists; reflexivity|].
  set (toks := t0 :: toks') in *. revert X. unfold wp, never. destruct (top_statements toks _ (lf toks) [] 0) as [? ?|? ?|x|]; try contradiction. eauto.
Qed.
