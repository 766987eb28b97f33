(** * RTStm2: printed statements are read back, control structures (C20) *)
From Verif Require Import Base Tokens Ast AstMap AstInd Lexer Parser Printer Driver Spec SpecProg SpecRT SmallFacts ParserRel ParserFacts LexBase LexSteps LexTok LexWords LexNum LexFacts LexRun ParseRun ParseTac ParseExpr ParseStmt ParseDecl Emit ProgNames RTBase RTExpr RTStmt.
From Coq Require Import String Ascii.

Section Sf.
Variable sf : str -> str.
Local Notation GE := (RTExpr.GE sf).
Local Notation GEx := (RTExpr.GEx sf).
Local Notation ptext := (RTExpr.ptext sf).
Local Notation GS := (RTStmt.GS sf).
Local Notation block := (RTStmt.block sf).
Ltac ex G n := apply (text_by _ _ _ _ (ge_text sf _ _ n G)); [reflexivity|].

(** ** Simple statements *)
Lemma gs_none sp : GS (St SNone sp).
Proof. intros _. exists [Kw KSemiColon]. split; [apply stm_any, stm_none|]. intros n st r vs R. cbn [pr_stmt pr_stmt_]. unfold writeln. change [Txt [10%N]] with nl. outs. apps. do 3 lx. exact R. Qed.
Lemma gs_blk b sp : Forall GS b -> GS (St (SBlock b) sp).
Proof.
  intros F G. change (forallb (good_stmt sf) b = true) in G. destruct (gs_all sf b F G) as (tss & S1 & S2). eexists. split; [apply stm_any, stm_block, braced_all, S1|].
  intros n st r vs R. cbn [pr_stmt pr_stmt_]. outs. apps. do 4 lx. apps. apply (S2 (S n)). do 4 lx. exact R.
Qed.
Lemma gs_decl d sp : GD sf d -> GS (St (SDecl d) sp).
Proof. intros F G. destruct (F G) as (ts & T1 & T2). exists ts. split; [exact T1|exact T2]. Qed.
Lemma gs_expr e sp : GE e -> GS (St (SExpr e) sp).
Proof.
  intros P G. destruct (P G) as (ts & T). exists (ts ++ [Kw KSemiColon]). split.
  - apply stm_any. apply (stm_expr ts (strip_expr e)); [apply (ge_full sf), T|]. destruct T as (_ & _ & H). specialize (H []). rewrite app_nil_r in H. exact H.
  - intros n st r vs R. cbn [pr_stmt pr_stmt_]. outs. apps. lx. ex T n. do 2 lx. exact R.
Qed.
Lemma gs_throw e sp : GE e -> GS (St (SThrow e) sp).
Proof.
  intros P G. destruct (P G) as (ts & T). exists (Kw KThrow :: ts ++ [Kw KSemiColon]). split.
  - apply stm_any. apply (stm_throw ts (strip_expr e)). apply (ge_full sf), T.
  - intros n st r vs R. cbn [pr_stmt pr_stmt_]. outs. apps. do 3 lx. ex T n. do 2 lx. exact R.
Qed.
Lemma some_ne {A B} (R : A -> B -> Prop) l l' : Forall2 R l l' -> some_list l' = true -> l <> [].
Proof. intros F S ->. inversion F; subst; discriminate. Qed.
Lemma some_map {A B} (f : A -> B) l : some_list (map f l) = some_list l.
Proof. destruct l; reflexivity. Qed.
Lemma gs_echo l sp : Forall GE l -> GS (St (SEcho l) sp).
Proof.
  intros F G. change (some_list l && forallb (good sf) l = true) in G. apply andb_prop in G. destruct G as [N G].
  destruct (ge_all sf l F G) as (tss & A). pose proof (ges_full sf l tss A) as FU.
  exists (Kw KEcho :: commas tss ++ [Kw KSemiColon]). split.
  - apply stm_any. apply (stm_echo tss (map strip_expr l)); [|exact FU]. eapply some_ne; [exact FU|]. rewrite some_map. exact N.
  - intros n st r vs R. cbn [pr_stmt pr_stmt_]. outs. rewrite out_sep, map_map. apps. do 3 lx.
    apply (sepj_by aft ", " _ tss); [reflexivity|intros; apply comma_sp; auto| |reflexivity|].
    + pose proof (ges_texts sf l tss n A) as X. eapply forall2_weak; [exact X|]. intros ? ? [_ H]. exact H.
    + do 2 lx. exact R.
Qed.
Lemma gs_opt k f o sp w : (k, f) = (KReturn, SReturn) \/ (k, f) = (KContinue, SContinue) \/ (k, f) = (KBreak, SBreak) ->
  optP GE o -> good_opt sf o = true -> w = match k with KReturn => "return" | KContinue => "continue" | _ => "break" end%string ->
  exists ts, Stm ts (strip_stmt (St (f o) sp)) /\ forall n, sby (out_str (indent n ++ t w ++ match o with Some e => t " " ++ pr_expr sf n e | None => [] end ++ t ";" ++ nl)) ts.
Proof.
  intros K P G ->. assert (X : exists ts, OptE ts (option_map strip_expr o) /\ forall n st r vs, seen LInScripting st r vs -> seen LInScripting st (out_str (match o with Some e => t " " ++ pr_expr sf n e | None => [] end ++ t ";") ++ r) (ts ++ Kw KSemiColon :: vs)).
  { destruct o as [e|].
    - destruct (P G) as (ts & T). exists ts. split; [apply (ge_full sf), T|]. intros n st r vs R. outs. apps. lx. ex T n. lx. exact R.
    - exists []. split; [reflexivity|]. intros n st r vs R. outs. apps. lx. exact R. }
  destruct X as (ts & X1 & X2). exists (Kw k :: ts ++ [Kw KSemiColon]). split.
  - apply stm_any. pose proof (stm_opt k f ts (option_map strip_expr o) K X1) as H. destruct K as [K|[K|K]]; inversion K; subst; exact H.
  - intros n st r vs R. specialize (X2 n st (newl ++ r) vs (seen_nl _ _ _ R)). clear R. remember (match o with Some e => t " " ++ pr_expr sf n e | None => [] end) as y.
    assert (H : follows (out_str y ++ s2l ";" ++ newl ++ r) = true) by (subst y; destruct o; outs; reflexivity). clear Heqy. revert X2 H. outs. intros X2 H. apps. lx.
    destruct K as [K|[K|K]]; inversion K; subst; (eapply seen_kw; [reflexivity|exact H|exact X2|reflexivity]).
Qed.
Lemma gs_return o sp : optP GE o -> GS (St (SReturn o) sp).
Proof. intros P G. apply (gs_opt KReturn SReturn o sp "return"); auto. Qed.
Lemma gs_break o sp : optP GE o -> GS (St (SBreak o) sp).
Proof. intros P G. apply (gs_opt KBreak SBreak o sp "break"); auto. Qed.
Lemma gs_continue o sp : optP GE o -> GS (St (SContinue o) sp).
Proof. intros P G. apply (gs_opt KContinue SContinue o sp "continue"); auto. Qed.
Lemma gs_unset l sp : Forall GE l -> GS (St (SUnset l) sp).
Proof.
  intros F G. change (some_list l && forallb (fun e => good sf e && varlike (enode e)) l = true) in G. apply andb_prop in G. destruct G as [N G].
  assert (X : exists tss, GEs sf l tss /\ Forall2 Var tss (map strip_expr l)).
  { clear N. induction F as [|e l P F IH]; [exists []; split; constructor|]. cbn [forallb] in G. apply andb_prop in G. destruct G as [G G3]. apply andb_prop in G. destruct G as [G1 G2].
    destruct (P G1) as (ts & T). destruct (IH G3) as (tss & T1 & T2). exists (ts :: tss). split; constructor; auto. apply (ge_var sf); auto. }
  destruct X as (tss & X1 & X2). exists (Kw KUnset :: Kw KParenthesesOpen :: commas tss ++ [Kw KParenthesesClose; Kw KSemiColon]). split.
  - apply stm_any. apply (stm_unset tss (map strip_expr l)); [|exact X2]. eapply some_ne; [exact X2|]. rewrite some_map. exact N.
  - intros n st r vs R. cbn [pr_stmt pr_stmt_]. outs. rewrite out_sep, map_map. apps. do 2 lx. change (s2l ");") with (s2l ")" ++ s2l ";"). apps. apply seen_list; [apply (ges_texts sf), X1|]. do 2 lx. exact R.
Qed.

(** ** Control structures *)
Ltac blk F G tb B1 B2 := destruct (gs_block sf _ F G) as (tb & B1 & B2).
(** a condition in parentheses *)
Lemma cond_by e te n st r vs : GEx e te -> seen LInScripting st r vs -> seen LInScripting st (s2l "(" ++ ptext n e ++ s2l ") " ++ r) (cond_toks te ++ vs).
Proof.
  intros T R. unfold cond_toks. apps. apply seen_paren; [eapply text_uncast; [apply (ge_text sf _ _ n T)|reflexivity]|]. ex T n. do 2 lx. exact R.
Qed.
Ltac cnd s k T n := match goal with |- seen _ _ (s2l ?l ++ _) _ => change (s2l l) with (s2l s ++ s2l "("); apps; do 2 lx; apply (cond_by _ _ n _ _ _ T) end.
Lemma gs_if c th el sp : GE c -> Forall GS th -> Forall GS el -> GS (St (SIf c th el) sp).
Proof.
  intros P F1 F2 G. change (good sf c && forallb (good_stmt sf) th && forallb (good_stmt sf) el = true) in G. apply andb_prop in G. destruct G as [G G3]. apply andb_prop in G. destruct G as [G1 G2].
  destruct (P G1) as (tc & T). blk F1 G2 tb B1 B2. blk F2 G3 te E1 E2.
  assert (X : exists tx, Else tx (map strip_stmt el) /\ forall n, sby (out_str (match el with [] => [] | _ => indent n ++ t "else " ++ block n el end)) tx).
  { destruct el as [|s el]; [exists []; split; [left; auto|intros n st r vs R; exact R]|]. remember (s :: el) as l. exists (Kw KElse :: te). split; [right; exists te; split; [reflexivity|left; exact E1]|].
    intros n st r vs R. outs. apps. do 3 lx. apply (E2 n), R. }
  destruct X as (tx & X1 & X2). exists (Kw KIf :: (cond_toks tc ++ tb) ++ elseifs [] ++ tx). split.
  - apply (stm_if (cond_toks tc ++ tb) (strip_expr c, map strip_stmt th) [] [] tx (map strip_stmt el)); [|constructor|exact X1]. exists tc, tb. split; [reflexivity|]. split; [apply (ge_full sf), T|exact B1].
  - intros n st r vs R. cbn [pr_stmt pr_stmt_]. fold (block n th). fold (block n el). outs. apps. cbn [elseifs flat_map app]. lx. cnd "if "%string KIf T n. apply (B2 n). apply (X2 n), R.
Qed.
Lemma gs_while c b sp : GE c -> Forall GS b -> GS (St (SWhile c b) sp).
Proof.
  intros P F G. change (good sf c && forallb (good_stmt sf) b = true) in G. apply andb_prop in G. destruct G as [G1 G2]. destruct (P G1) as (tc & T). blk F G2 tb B1 B2.
  exists (Kw KWhile :: cond_toks tc ++ tb). split.
  - apply (stm_while stm_end tc (strip_expr c) tb (map strip_stmt b)); [apply (ge_full sf), T|left; exact B1].
  - intros n st r vs R. cbn [pr_stmt pr_stmt_]. fold (block n b). outs. apps. lx. cnd "while "%string KWhile T n. apply (B2 n), R.
Qed.
Lemma gs_do b c sp : Forall GS b -> GE c -> GS (St (SDoWhile b c) sp).
Proof.
  intros F P G. change (good sf c && forallb (good_stmt sf) b = true) in G. apply andb_prop in G. destruct G as [G1 G2]. destruct (P G1) as (tc & T). blk F G2 tb B1 B2.
  exists (Kw KDo :: tb ++ Kw KWhile :: cond_toks tc ++ [Kw KSemiColon]). split.
  - apply stm_any. apply (stm_do stm_end tc (strip_expr c) tb (map strip_stmt b)); [apply (ge_full sf), T|left; exact B1].
  - intros n st r vs R. cbn [pr_stmt pr_stmt_]. fold (block n b). outs. apps. do 3 lx. apply (B2 n). unfold cond_toks. apps. do 2 lx.
    apply seen_paren; [eapply text_uncast; [apply (ge_text sf _ _ n T)|reflexivity]|]. ex T n. do 3 lx. exact R.
Qed.
Definition pr_opt (n : nat) (o : option expr) : out := match o with Some e => pr_expr sf n e | None => [] end.
Lemma opt_by o : optP GE o -> good_opt sf o = true -> exists ts, OptE ts (option_map strip_expr o) /\
  (forall n, seenby aft (out_str (pr_opt n o)) ts) /\ forall n r, cast_tail r = None -> aft r = true -> cast_tail (out_str (pr_opt n o) ++ r) = None.
Proof.
  intros P G. destruct o as [e|].
  - destruct (P G) as (ts & T). exists ts. split; [apply (ge_full sf), T|]. split; intros n; pose proof (ge_text sf _ _ n T) as X.
    + eapply text_by; exact X.
    + intros r _ A. eapply text_uncast; eassumption.
  - exists []. split; [reflexivity|]. split; [intros n st r vs _ R; exact R|intros n r C _; exact C].
Qed.
Lemma gs_for i l c b sp : optP GE i -> optP GE l -> optP GE c -> Forall GS b -> GS (St (SFor i l c b) sp).
Proof.
  intros P1 P2 P3 F G. change (good_opt sf i && good_opt sf l && good_opt sf c && forallb (good_stmt sf) b = true) in G.
  apply andb_prop in G. destruct G as [G G4]. apply andb_prop in G. destruct G as [G G3]. apply andb_prop in G. destruct G as [G1 G2]. blk F G4 tb B1 B2.
  destruct (opt_by i P1 G1) as (t1 & I1 & I2 & I3). destruct (opt_by l P2 G2) as (t2 & L1 & L2 & _). destruct (opt_by c P3 G3) as (t3 & C1 & C2 & _).
  exists (Kw KFor :: Kw KParenthesesOpen :: t1 ++ Kw KSemiColon :: t2 ++ Kw KSemiColon :: t3 ++ Kw KParenthesesClose :: tb). split.
  - apply (stm_for stm_end t1 (option_map strip_expr i) t2 (option_map strip_expr l) t3 (option_map strip_expr c) tb (map strip_stmt b)); auto. left; exact B1.
  - intros n st r vs R. cbn [pr_stmt pr_stmt_]. fold (block n b). fold (pr_opt n i). fold (pr_opt n l). fold (pr_opt n c). outs. apps. lx. do 2 lx.
    apply seen_paren; [apply I3; [apply cast_other; reflexivity|reflexivity]|]. apply I2; [reflexivity|]. do 2 lx. apps. apply L2; [reflexivity|]. lx.
    apps. apply C2; [reflexivity|]. do 2 lx. apply (B2 n), R.
Qed.
Definition tgp (e : expr) : Prop := match e with Ex (ERef e') _ => GE e' | e => GE e end.
Definition good_tg (e : expr) : bool := match e with Ex (ERef e') _ => good sf e' && varlike (enode e') | e => good sf e && varlike (enode e) end.
Lemma tg_by e : tgp e -> good_tg e = true -> exists ts, FVar ts (strip_expr e) /\ forall n, seenby aft (ptext n e) ts.
Proof.
  intros P G. assert (X : (exists e' sp, e = Ex (ERef e') sp /\ GE e' /\ good sf e' && varlike (enode e') = true) \/ (GE e /\ good sf e && varlike (enode e) = true)).
  { destruct e as [x sp]. destruct x; auto. left. eauto. }
  destruct X as [(e' & sp & -> & P' & G')|[P' G']]; clear P G; apply andb_prop in G'; destruct G' as [G1 G2]; destruct (P' G1) as (ts & T); destruct (ge_var sf _ _ T G2) as (_ & V & _).
  - exists (Kw KAmpersand :: ts). split; [right; exists ts, (strip_expr e'); auto|]. intros n st r vs A R. unfold RTExpr.ptext. cbn [pr_expr pr_expr_]. outs. apps.
    pose proof (ge_text sf _ _ n T) as X. eapply (seen_op st "&"); [reflexivity|st_|]. apply (text_by _ _ _ _ X); auto.
  - exists ts. split; [left; exact V|]. intros n. eapply text_by. apply (ge_text sf _ _ n T).
Qed.
Lemma gs_foreach e k v b sp : GE e -> optP tgp k -> tgp v -> Forall GS b -> GS (St (SForEach e k v b) sp).
Proof.
  intros P K V F G. change (good sf e && match k with Some k => good_tg k | None => true end && good_tg v && forallb (good_stmt sf) b = true) in G.
  apply andb_prop in G. destruct G as [G G4]. apply andb_prop in G. destruct G as [G G3]. apply andb_prop in G. destruct G as [G1 G2]. blk F G4 tb B1 B2.
  destruct (P G1) as (te & T). destruct (tg_by v V G3) as (tv & V1 & V2).
  assert (X : exists tk, match option_map strip_expr k with Some k => exists t, tk = t ++ [Kw KDoubleArrow] /\ FVar t k | None => tk = [] end /\
    forall n, sby (out_str (match k with Some k => pr_expr sf n k ++ t " => " | None => [] end)) tk).
  { destruct k as [k|]; [|exists []; split; [reflexivity|intros n st r vs R; exact R]]. destruct (tg_by k K G2) as (tk & K1 & K2). exists (tk ++ [Kw KDoubleArrow]). split; [exists tk; auto|].
    intros n st r vs R. outs. apps. apply K2; [reflexivity|]. do 3 lx. exact R. }
  destruct X as (tk & X1 & X2). exists (Kw KForeach :: Kw KParenthesesOpen :: te ++ Kw KAs :: tk ++ tv ++ Kw KParenthesesClose :: tb). split.
  - apply (stm_foreach stm_end te (strip_expr e) tk (option_map strip_expr k) tv (strip_expr v) tb (map strip_stmt b)); auto; [apply (ge_full sf), T|left; exact B1].
  - intros n st r vs R. cbn [pr_stmt pr_stmt_]. fold (block n b). outs. apps. lx. do 2 lx. apply seen_paren; [eapply text_uncast; [apply (ge_text sf _ _ n T)|reflexivity]|]. ex T n. do 3 lx.
    apps. apply (X2 n). apply (V2 n); [reflexivity|]. do 2 lx. apply (B2 n), R.
Qed.

(** ** try *)
Definition GC (c : catch) : Prop := good_catch sf c = true -> exists ts, Catch ts (strip_catch c) /\ forall n, sby (out_str (pr_catch sf n c)) ts.
Lemma gc_catch x v b : Forall GS b -> GC (mkCatch x v b).
Proof.
  intros F G. change (path_ok x && name_ok v && forallb (good_stmt sf) b = true) in G. apply andb_prop in G. destruct G as [G G3]. apply andb_prop in G. destruct G as [G1 G2]. blk F G3 tb B1 B2.
  destruct (path_path x) as (abs & fs & N & E1 & E2). exists (Kw KCatch :: Kw KParenthesesOpen :: path_tokens x ++ TVariable v :: Kw KParenthesesClose :: tb). split.
  - exists abs, fs, v, tb, (map strip_stmt b). split; [rewrite E1; reflexivity|]. split; [exact N|]. split; [exact B1|]. rewrite E2. reflexivity.
  - intros n st r vs R. cbn [pr_catch]. fold (block n b). outs. rewrite out_path. apps. change (s2l " $") with (s2l " " ++ s2l "$"). apps. do 2 lx.
    apply seen_paren; [apply cast_path; [exact G1|reflexivity|reflexivity]|]. apply seen_path; [exact G1|reflexivity|]. lx. apply (seen_var st v); [exact G2|reflexivity|]. do 2 lx. apply (B2 n), R.
Qed.
Lemma gs_try b cs f sp : Forall GS b -> Forall GC cs -> optP (Forall GS) f -> GS (St (STry b cs f) sp).
Proof.
  intros F1 F2 F3 G. change (forallb (good_stmt sf) b && forallb (good_catch sf) cs && match f with Some b => forallb (good_stmt sf) b | None => true end = true) in G.
  apply andb_prop in G. destruct G as [G G3]. apply andb_prop in G. destruct G as [G1 G2]. blk F1 G1 tb B1 B2.
  assert (X : exists tss, Forall2 Catch tss (map strip_catch cs) /\ forall n, sby (out_str (flat_map (pr_catch sf n) cs)) (List.concat tss)).
  { clear - F2 G2. induction F2 as [|c l X F IH]; [exists []; split; [constructor|intros n st r vs R; exact R]|]. cbn [forallb] in G2. apply andb_prop in G2. destruct G2 as [G1 G2].
    destruct (X G1) as (ts & T1 & T2). destruct (IH G2) as (tss & S1 & S2). exists (ts :: tss). split; [constructor; auto|]. intros n st r vs R. cbn [flat_map List.concat].
    rewrite out_app, <- !app_assoc. apply T2, S2, R. }
  destruct X as (tss & C1 & C2).
  assert (X : exists tf, Fin tf (option_map (map strip_stmt) f) /\ forall n, sby (out_str (match f with Some b => t "finally " ++ block n b | None => [] end)) tf).
  { destruct f as [fb|]; [|exists []; split; [reflexivity|intros n st r vs R; exact R]]. destruct (gs_block sf _ F3 G3) as (tf & D1 & D2). exists (Kw KFinally :: tf). split; [exists tf; auto|].
    intros n st r vs R. outs. apps. do 2 lx. apply (D2 n), R. }
  destruct X as (tf & X1 & X2). exists (Kw KTry :: tb ++ List.concat tss ++ tf). split.
  - apply (stm_try tb (map strip_stmt b) tss (map strip_catch cs) tf (option_map (map strip_stmt) f)); auto.
  - intros n st r vs R. cbn [pr_stmt pr_stmt_]. fold (block n b). change (fun b => t "finally " ++ t "{" ++ nl ++ flat_map (pr_stmt sf (S n)) b ++ indent n ++ t "}" ++ nl) with (fun b => t "finally " ++ block n b).
    outs. apps. do 3 lx. apply (B2 n). apply (C2 n). apply (X2 n), R.
Qed.

(** ** switch *)
(** the labels of a case, with their statements *)
Fixpoint labels (conds : list expr) (d : bool) (b : list stmt) : list (option expr * list stmt) :=
  match conds with
  | [] => if d then [(None, b)] else []
  | e :: r => match r, d with [], false => [(Some e, b)] | _, _ => (Some e, []) :: labels r d b end
  end.
Definition items (c : swcase) : list (option expr * list stmt) := match c with mkCase conds d b => labels conds d b end.
Lemma labels_full conds d b rest : some_list b = true -> forall acc, some_list conds || d = true ->
  sw_cases acc (labels conds d b ++ rest) = mkCase (acc ++ conds) d b :: sw_cases [] rest.
Proof.
  intros B. destruct b as [|s b]; [discriminate|]. induction conds as [|e r IH]; intros acc N.
  - cbn [some_list orb] in N. subst d. cbn. rewrite app_nil_r. reflexivity.
  - cbn [labels]. destruct r as [|e' r]; [destruct d|].
    + cbn [app sw_cases]. rewrite (IH (acc ++ [e]) eq_refl), <- app_assoc. reflexivity.
    + reflexivity.
    + cbn [app sw_cases]. rewrite (IH (acc ++ [e]) eq_refl), <- app_assoc. reflexivity.
Qed.
Lemma labels_empty l : forallb empty_case l = true -> forall acc, sw_cases acc (flat_map items l) = map (fun c => mkCase [c] false []) acc ++ l.
Proof.
  induction l as [|[conds d b] l IH]; intros G acc; cbn [forallb] in G.
  - cbn. rewrite app_nil_r. reflexivity.
  - apply andb_prop in G. destruct G as [G1 G2]. cbn [empty_case] in G1. destruct conds as [|e [|]]; try discriminate. destruct d, b; try discriminate.
    cbn [flat_map items labels app sw_cases]. rewrite (IH G2), map_app, <- app_assoc. reflexivity.
Qed.
Lemma labels_ok l : cases_ok l = true -> sw_cases [] (flat_map items l) = l.
Proof.
  induction l as [|[conds d b] l IH]; intros G; [reflexivity|]. cbn [cases_ok] in G. destruct (full_case (mkCase conds d b)) eqn:F.
  - cbn [full_case] in F. apply andb_prop in F. destruct F as [F1 F2]. cbn [flat_map items]. rewrite (labels_full conds d b _ F2 [] F1), (IH G). reflexivity.
  - rewrite labels_empty by exact G. reflexivity.
Qed.
Lemma cases_strip l : cases_ok (map strip_case l) = cases_ok l.
Proof.
  assert (E : forall c, empty_case (strip_case c) = empty_case c) by (intros [[|e [|]] [] [|]]; reflexivity).
  assert (F : forall c, full_case (strip_case c) = full_case c) by (intros [[|e l'] d [|s b]]; reflexivity).
  induction l as [|c l IH]; [reflexivity|]. cbn [map cases_ok]. rewrite F, IH. destruct (full_case c); [reflexivity|]. cbn [forallb]. rewrite E. f_equal.
  clear IH. induction l as [|c' l IH]; [reflexivity|]. cbn [map forallb]. rewrite E, IH. reflexivity.
Qed.
Definition pr_label (n : nat) (e : expr) : out := indent (S n) ++ t "case " ++ pr_expr sf (S n) e ++ t ":" ++ nl.
Lemma item_by e te tss b n st r vs : GEx e te -> Forall2 Stm tss b -> seen LInScripting st r vs ->
  Item (Kw KCase :: te ++ Kw KColon :: List.concat tss) (Some (strip_expr e), b) /\ seen LInScripting st (out_str (pr_label n e) ++ r) (Kw KCase :: te ++ Kw KColon :: vs).
Proof.
  intros T F R. split.
  - exists (Kw KCase :: te ++ [Kw KColon]), tss. split; [apps; reflexivity|]. split; [exact F|]. exists te, KColon. split; [auto|]. split; [reflexivity|apply (ge_full sf), T].
  - unfold pr_label. outs. apps. do 3 lx. ex T (S n). do 2 lx. exact R.
Qed.
Lemma case_items conds d b tb : Forall GE conds -> forallb (good sf) conds = true -> some_list conds || d = true -> Forall2 Stm tb b ->
  exists tss, Forall2 Item tss (labels (map strip_expr conds) d b) /\
    forall n st r vs, seen LInScripting st r (List.concat tb ++ vs) ->
      seen LInScripting st (out_str (flat_map (pr_label n) conds ++ (if d then t "default:" ++ nl else [])) ++ r) (List.concat tss ++ vs).
Proof.
  intros F G N B. revert N. induction F as [|e l P F IH]; intros N.
  - cbn [some_list orb] in N. subst d. exists [Kw KDefault :: Kw KColon :: List.concat tb]. split.
    + constructor; [|constructor]. exists [Kw KDefault; Kw KColon], tb. split; [reflexivity|]. split; [exact B|]. exists KColon. auto.
    + intros n st r vs R. cbn [flat_map List.concat]. outs. rewrite ?app_nil_r. apps. do 3 lx. exact R.
  - cbn [forallb] in G. apply andb_prop in G. destruct G as [G1 G2]. specialize (IH G2). destruct (P G1) as (te & T).
    assert (D : (l = [] /\ d = false) \/ some_list l || d = true) by (destruct l, d; auto).
    destruct D as [[-> ->]|D].
    + exists [Kw KCase :: te ++ Kw KColon :: List.concat tb]. split.
      * cbn [map labels]. constructor; [|constructor]. apply (item_by e te tb b 0 [] [] [] T B seen_end).
      * intros n st r vs R. cbn [flat_map List.concat]. rewrite !app_nil_r. apps. apply (item_by e te tb b n st r _ T B R).
    + destruct (IH D) as (tss & I1 & I2). exists ((Kw KCase :: te ++ Kw KColon :: List.concat []) :: tss). split.
      * assert (E : labels (map strip_expr (e :: l)) d b = (Some (strip_expr e), []) :: labels (map strip_expr l) d b) by (destruct l, d; try discriminate; reflexivity).
        rewrite E. constructor; [|exact I1]. apply (item_by e te [] [] 0 [] [] [] T (Forall2_nil _) seen_end).
      * intros n st r vs R. cbn [flat_map List.concat]. rewrite <- app_assoc, out_app, <- app_assoc. apps. apply (item_by e te [] [] n _ _ _ T (Forall2_nil _)). apply I2, R.
Qed.
Definition GW (c : swcase) : Prop := good_case sf c = true -> full_case c = true \/ empty_case c = true ->
  exists tss, Forall2 Item tss (items (strip_case c)) /\ forall n, sby (out_str (pr_case sf n c)) (List.concat tss).
Lemma gw_case conds d b : Forall GE conds -> Forall GS b -> GW (mkCase conds d b).
Proof.
  intros F1 F2 G N. change (forallb (good sf) conds && forallb (good_stmt sf) b = true) in G. apply andb_prop in G. destruct G as [G1 G2].
  destruct (gs_all sf b F2 G2) as (tb & B1 & B2). assert (N' : some_list conds || d = true).
  { destruct N as [N|N]; cbn in N; [apply andb_prop in N; apply N|]. destruct conds; [discriminate|reflexivity]. }
  destruct (case_items conds d (map strip_stmt b) tb F1 G1 N' B1) as (tss & I1 & I2). exists tss. split; [exact I1|].
  intros n st r vs R. cbn [pr_case]. fold (pr_label n). rewrite !app_assoc, out_app, <- app_assoc. apply I2. apply (B2 (S (S n))), R.
Qed.
Lemma cases_each l : cases_ok l = true -> Forall (fun c => full_case c = true \/ empty_case c = true) l.
Proof.
  induction l as [|c l IH]; intros G; [constructor|]. cbn [cases_ok] in G. destruct (full_case c) eqn:F; [constructor; auto|].
  apply Forall_forall. intros x I. right. rewrite forallb_forall in G. apply G, I.
Qed.
Lemma gs_switch e l sp : GE e -> Forall GW l -> GS (St (SSwitch e l) sp).
Proof.
  intros P F G. change (good sf e && cases_ok l && forallb (good_case sf) l = true) in G. apply andb_prop in G. destruct G as [G G3]. apply andb_prop in G. destruct G as [G1 G2].
  destruct (P G1) as (te & T). pose proof (cases_each l G2) as C.
  assert (X : exists tss, Forall2 Item tss (flat_map items (map strip_case l)) /\ forall n, sby (out_str (flat_map (pr_case sf n) l)) (List.concat tss)).
  { clear - F G3 C. induction F as [|c l X F IH]; [exists []; split; [constructor|intros n st r vs R; exact R]|]. cbn [forallb] in G3. apply andb_prop in G3. destruct G3 as [G1 G2]. inversion C; subst.
    destruct (X G1 H1) as (ts & T1 & T2). destruct (IH G2 H2) as (tss & S1 & S2). exists (ts ++ tss). split; [cbn [map flat_map]; apply Forall2_app; auto|]. intros n st r vs R. cbn [flat_map].
    rewrite concat_app, out_app, <- !app_assoc. apply T2, S2, R. }
  destruct X as (tss & X1 & X2). exists (Kw KSwitch :: cond_toks te ++ Kw KCurlyBracesOpen :: List.concat tss ++ [Kw KCurlyBracesClose]). split.
  - apply stm_any. pose proof (stm_switch te (strip_expr e) tss _ (ge_full sf _ _ T) X1) as H. rewrite labels_ok in H by (rewrite cases_strip; exact G2). exact H.
  - intros n st r vs R. cbn [pr_stmt pr_stmt_]. outs. apps. lx. do 2 lx. change (s2l ") {") with (s2l ") " ++ s2l "{"). apps. apply (cond_by _ _ n _ _ _ T). do 2 lx. apps. apply (X2 n). do 2 lx. exact R.
Qed.
End Sf.
