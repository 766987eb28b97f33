(** * ParseDecl: grammar rules for functions, classes and whole programs *)
From Verif Require Import Base Tokens Ast AstMap AstInd Lexer Parser Driver Wp ParserTermination ParserMono ParserRel ParseRun ParseTac ParseExpr ParseStmt.
From Coq Require Import String.

(** ** Parameters *)
Definition Hint (ts : list token) (t : option ty) : Prop :=
  match t with
  | None => ts = []
  | Some TyArray => ts = [Kw KArray]
  | Some TyCallable => ts = [Kw KCallable]
  | Some (TyObject (Some pa)) => exists abs fs, fs <> [] /\ ts = path_toks abs fs /\ pa = path_of abs fs
  | _ => False
  end.
Definition flag (b : bool) (k : kind) : list token := if b then [Kw k] else [].
Definition Param (ts : list token) (x : param) : Prop :=
  match x with
  | mkParam name r v t d => exists tt ti, ts = tt ++ flag r KAmpersand ++ flag v KEllipsis ++ TVariable name :: ti /\ Hint tt t /\ Init ti d
  end.
Definition strip_param := map_param no_spans.
Definition params_q (toks : list tokspan) (xs : list param) (p : nat) (l : list token) : list param * option perror -> nat -> Prop :=
  fun r q => here toks q l /\ p <= q /\ map strip_param (fst r) = map strip_param xs.
(** what comes behind the type *)
Definition var_like (t : token) : bool := match t with TVariable _ => true | t => tok_in [KAmpersand; KEllipsis; KParenthesesClose] t end.
Lemma hint_run tt t toks p l : Hint tt t -> late2 toks -> here toks p (tt ++ l) -> hd_ok var_like l ->
  wpx (parse_param_type toks) p (fun r q => here toks q l /\ p <= q /\ r = inl t) nofail.
Proof.
  intros HT L H C. unfold parse_param_type. destruct t as [[]|]; try contradiction; cbn [Hint] in HT.
  - subst tt. cbn [app] in H. px L. oks. reflexivity.
  - subst tt. cbn [app] in H. px L. oks. reflexivity.
  - destruct p0 as [pa|]; [|contradiction]. destruct HT as (abs & fs & NE & -> & ->).
    assert (X : hd_ok (fun t => match t with TString _ => true | t => tok_in [KNsSeparator] t end) (path_toks abs fs ++ l)).
    { destruct (path_head abs fs NE) as (t & r & -> & T). cbn. destruct t as [[]| | | | | | | |]; try discriminate; reflexivity. }
    px L. eapply wpx_use; [apply (name_run toks L abs fs p l NE H); weak1 C|]. intros r q (A1 & A2 & A3 & A4). px L. oks. rewrite A3. reflexivity.
  - subst tt. cbn [app] in H. px L. eapply wpx_mono; [apply (name_fail toks L p l H); weak1 C|intros ? ? []|]. intros e q ->. px L. oks. reflexivity.
Qed.
Lemma flag_run b k toks p l : late2 toks -> here toks p (flag b k ++ l) -> hd_ok (fun t => negb (tok_in [k] t)) l ->
  wpx (look toks k (fun _ => pret true) (pret false)) p (fun r q => here toks q l /\ p <= q /\ r = b) nofail.
Proof.
  intros L H C. destruct b; cbn [flag app] in H.
  - next_here L. eapply (wpx_look toks L); [exact H|]. cbv beta iota. unfold kind_eqb. rewrite N.eqb_refl. px L. oks. reflexivity.
  - eapply (wpx_look_cls toks L); [exact H|exact C| |px L; oks; reflexivity]. cbn. unfold kind_eqb. rewrite N.eqb_refl. reflexivity.
Qed.
Definition params_end : list token -> Prop := fun l => exists r, l = Kw KParenthesesClose :: r.
Lemma flags_head r v name ti l : hd_ok var_like (flag r KAmpersand ++ flag v KEllipsis ++ TVariable name :: ti ++ l).
Proof. destruct r, v; reflexivity. Qed.
Lemma params_run tss xs : Forall2 Param tss xs -> forall toks, late2 toks -> forall n acc xs0 p l, here toks p (commas tss ++ l) -> params_end l ->
  List.length tss < n -> map strip_param acc = map strip_param xs0 ->
  wpx (parameter_list toks (PE toks) n acc) p (params_q toks (xs0 ++ xs) p l) nofail.
Proof.
  induction 1 as [|ts x tss xs PA F IH]; intros toks L n acc xs0 p l H C N A; (destruct n as [|n]; [cbn in N; lia|]); cbn [parameter_list]; px1 L.
  - destruct C as (l' & ->). cbn [commas app] in H. eapply wpx_use; [apply (hint_run [] None toks p _ eq_refl L H); reflexivity|].
    intros r q (A1 & A2 & ->). unfold parse_is_ref, parse_is_variadic. px L. unfold params_q. oks. rewrite app_nil_r. exact A.
  - destruct x as [name r v t d]. destruct PA as (tt & ti & -> & HT & IN).
    assert (G : forall l2, here toks p (tt ++ flag r KAmpersand ++ flag v KEllipsis ++ TVariable name :: ti ++ l2) -> init_end l2 ->
      (forall d' q, here toks q l2 -> p < q -> option_map strip_expr d' = option_map strip_expr d ->
         wpx (let acc := acc ++ [mkParam name r v t d'] in look toks KComma (fun _ => parameter_list toks (PE toks) n acc) (pret (acc, None))) q (params_q toks (xs0 ++ mkParam name r v t d :: xs) p l) nofail) ->
      wpx (parse_param_type toks) p (fun a q => wpx match a with
        | inl t0 => is_ref <~ parse_is_ref toks;; is_variadic <~ parse_is_variadic toks;;
          look_var toks (fun name _ => let push (d : option expr) : P (list param * option perror) :=
             let acc := acc ++ [mkParam name is_ref is_variadic t0 d] in
             look toks KComma (fun _ => parameter_list toks (PE toks) n acc) (pret (acc, None)) in
             look toks KEqual (fun _ => pcatch (PE toks PrNone) (fun e => push (Some e)) (fun e => pret (acc, Some e))) (push None))
            (p <~ getpos ;; pret (acc, Some (mkErr [TVariable []] p)))
        | inr e => pret (acc, Some e) end q (params_q toks (xs0 ++ mkParam name r v t d :: xs) p l) nofail) nofail).
    { intros l2 H2 C2 K. eapply wpx_use; [apply (hint_run tt t toks p _ HT L H2); apply flags_head|]. intros a q (A1 & A2 & ->). unfold parse_is_ref, parse_is_variadic. px1 L.
      eapply wpx_use; [apply (flag_run r KAmpersand toks q _ L A1); destruct v; reflexivity|]. intros r' q1 (B1 & B2 & ->). px1 L.
      eapply wpx_use; [apply (flag_run v KEllipsis toks q1 _ L B1); reflexivity|]. intros v' q2 (D1 & D2 & ->).
      destruct d as [e|]; cbn [Init] in IN.
      - destruct IN as (te & -> & FE). cbn [app] in D1. next_here L. do 3 px1 L. eapply wpx_use; [apply (FE toks L _ l2 HS0); weak1 C2|].
        intros e' q3 (E1 & E2 & E3 & E4). cbv beta. apply K; [exact E1|lia|cbn; congruence].
      - subst ti. cbn [app] in D1. next_here L. unfold init_end in C2. do 2 px1 L. apply K; [exact HS|lia|reflexivity]. }
    destruct tss as [|ts2 tss].
    + inversion F; subst. cbn [commas] in H. rewrite <- !app_assoc in H. cbn [app] in H. apply (G l H).
      * destruct C as (l' & ->). reflexivity.
      * intros d' q B1 B2 B3. destruct C as (l' & ->). px L. unfold params_q. oks. cbn [fst]. rewrite !map_app. cbn. unfold strip_param in *. cbn. unfold strip_expr in B3. congruence.
    + rewrite commas_cons in H. rewrite <- !app_assoc in H. cbn [app] in H. apply (G _ H); [reflexivity|]. intros d' q B1 B2 B3. px L.
      eapply wpx_use; [apply (IH toks L n _ (xs0 ++ [mkParam name r v t d]) (S q) l HS C); [cbn in N |- *; lia|]|].
      * rewrite !map_app. cbn. unfold strip_param in *. cbn. unfold strip_expr in B3. congruence.
      * intros a q' (E1 & E2 & E3). unfold params_q. oks. rewrite <- app_assoc in E3. exact E3.
Qed.
Lemma params_len toks p tss xs l : Forall2 Param tss xs -> here toks p (commas tss ++ l) -> params_end l -> List.length tss < lf toks.
Proof.
  intros F [H _] (r & ->). rewrite app_length in H. cbn in H. unfold lf. assert (List.length tss <= List.length (commas tss)); [|lia].
  clear H. induction F as [|ts x tss xs I F IH]; [cbn; lia|].
  assert (1 <= List.length ts). { destruct x. destruct I as (tt & ti & -> & _). len_. }
  destruct tss as [|b tss]; [cbn; lia|]. rewrite commas_len. cbn [List.length] in *. lia.
Qed.

(** ** Functions *)
Definition use_toks (u : bool * str) : list token := flag (fst u) KAmpersand ++ [TVariable (snd u)].
Definition uses_toks (us : list (bool * str)) : list token :=
  match us with [] => [] | _ => Kw KUse :: Kw KParenthesesOpen :: commas (map use_toks us) ++ [Kw KParenthesesClose] end.
Definition FBody (abstract : bool) (ts : list token) (b : option (list stmt)) : Prop :=
  match b with Some b => Braced ts b | None => abstract = true /\ ts = [Kw KSemiColon] end.
(** the tokens behind the word [function] *)
Definition Fun (closure abstract : bool) (ts : list token) (name : option str) (d : fundecl) : Prop :=
  match d with
  | mkFun ps b us rr => exists tss tb,
    ts = flag rr KAmpersand ++ (match name with Some s => [TString s] | None => [] end) ++ Kw KParenthesesOpen :: commas tss ++ Kw KParenthesesClose :: uses_toks us ++ tb /\
    Forall2 Param tss ps /\ FBody abstract tb b /\ (closure = true -> name = None) /\ (closure = false -> us = [] /\ name <> None)
  end.
Definition fun_stmt (name : option str) (d : fundecl) (sp : span) : stmt :=
  St (match name with None => SExpr (Ex (EFunction d) sp) | Some s => SDecl (DFunction s d) end) sp.
Definition strip_fun := map_fundecl no_spans.
Lemma uses_run us toks p l : us <> [] -> late2 toks -> here toks p (commas (map use_toks us) ++ Kw KParenthesesClose :: l) ->
  wpx (use_vars toks (lf toks) []) p (fun r q => here toks q (Kw KParenthesesClose :: l) /\ p < q /\ r = us) nofail.
Proof.
  intros NE L H. assert (F : Forall2 (fun ts x => ts = use_toks x) (map use_toks us) us) by (clear; induction us; cbn; constructor; auto).
  eapply wpx_use; [apply (commas_run toks (fun ts x => ts = use_toks x) eq any
     (r <~ parse_is_ref toks ;; v <~ expect_var toks ;; pret (r, v)) (use_vars toks) L)
     with (tss := map use_toks us) (xs := us) (l := Kw KParenthesesClose :: l); auto|].
  - intros n acc q Q K. cbn [use_vars]. unfold wpx, pbind, pcatch in *. destruct (parse_is_ref toks q) as [v q'|? ?|?|]; auto. destruct (expect_var toks q') as [v' q2|? ?|?|]; auto.
  - intros ts [b v] q l' -> X Y. unfold use_toks in X. cbn [fst snd] in X. rewrite <- app_assoc in X. cbn [app] in X. unfold parse_is_ref, expect_var. px1 L.
    eapply wpx_use; [apply (flag_run b KAmpersand toks q _ L X); reflexivity|]. intros r q1 (B1 & B2 & ->). px L. oks. reflexivity.
  - intros. exact I.
  - destruct us; [congruence|discriminate].
  - exact I.
  - reflexivity.
  - eapply items_len; [|exact F|exact H]. intros ts x ->. unfold use_toks. len_.
  - cbv beta. intros r q (A1 & A2 & ys & -> & A3). apply (forall2_map id) in A3. rewrite !map_id in A3. subst ys. oks. reflexivity.
Qed.
Lemma fun_run closure abstract ts name d toks p l sp : Fun closure abstract ts name d -> late2 toks -> here toks p (ts ++ l) ->
  wpx (parse_function_declaration toks (PE toks) (PS toks) sp closure abstract) p
    (fun a q => here toks q l /\ p < q /\ exists d' e, a = fun_stmt name d' (mk_span (sp_start sp) e) /\ strip_fun d' = strip_fun d) nofail.
Proof.
  intros FU L H. destruct d as [ps b us rr]. destruct FU as (tss & tb & -> & FP & FB & C1 & C2). rewrite <- !app_assoc in H. cbn [app] in H. rewrite <- app_assoc in H. cbn [app] in H. rewrite <- app_assoc in H.
  unfold parse_function_declaration, parse_is_ref. px1 L.
  eapply wpx_use; [apply (flag_run rr KAmpersand toks p _ L H); destruct name; reflexivity|]. intros r q (A1 & A2 & ->). px1 L.
  assert (X : wpx (if closure then pret None else s <~ expect_string toks ;; pret (Some s)) q (fun r q' => here toks q' (Kw KParenthesesOpen :: commas tss ++ Kw KParenthesesClose :: uses_toks us ++ tb ++ l) /\ q <= q' /\ r = name) nofail).
  { destruct closure.
    - rewrite (C1 eq_refl) in *. cbn [app] in A1. px L. oks. reflexivity.
    - destruct (C2 eq_refl) as [_ NN]. destruct name as [s|]; [|congruence]. cbn [app] in A1. unfold expect_string. px L. oks. reflexivity. }
  eapply wpx_use; [exact X|]. clear X. intros nm q1 (B1 & B2 & ->). next_here L. px1 L. px1 L. px1 L. unfold parse_parameter_list.
  assert (PEND : params_end (Kw KParenthesesClose :: uses_toks us ++ tb ++ l)) by (eexists; reflexivity).
  eapply wpx_use; [apply (params_run tss ps FP toks L (lf toks) [] [] _ _ HS PEND); auto; eapply params_len; eauto|].
  intros pr q2 (D1 & D2 & D3). cbn [app] in D3. next_here L. px1 L. px1 L. px1 L. px1 L.
  assert (X : wpx (if closure then look toks KUse (fun _ => expect toks KParenthesesOpen ;~ l <~ use_vars toks (lf toks) [] ;; expect toks KParenthesesClose ;~ pret l) (pret []) else pret []) (S q2)
    (fun r q' => here toks q' (tb ++ l) /\ S q2 <= q' /\ r = us) nofail).
  { destruct closure; [|destruct (C2 eq_refl) as [-> _]; px L; oks; reflexivity].
    destruct us as [|u us].
    - cbn [uses_toks app] in HS0. assert (Y : hd_ok (fun t => negb (tok_in [KUse] t)) (tb ++ l)).
      { destruct b as [b|]; cbn in FB; [destruct FB as (tsb & -> & _); reflexivity|destruct FB as [_ ->]; reflexivity]. }
      px L. oks. reflexivity.
    - unfold uses_toks in HS0. cbn [app] in HS0. rewrite <- app_assoc in HS0. cbn [app] in HS0. px L.
      eapply wpx_use; [exact (uses_run (u :: us) toks _ _ ltac:(discriminate) L HS2)|]. intros r q3 (E1 & E2 & ->). px L. oks. reflexivity. }
  eapply wpx_use; [exact X|]. clear X. intros us' q3 (E1 & E2 & ->). px1 L.
  assert (X : wpx (no_body <~ (if abstract then look toks KSemiColon (fun _ => pret true) (pret false) else pret false) ;;
     (if (no_body : bool) then pret None else expect toks KCurlyBracesOpen ;~ b <~ parse_inner_statement_list toks (PS toks) ;; expect_or toks KCurlyBracesClose (snd b) ;~ pret (Some (fst b)))) q3
     (fun r q' => here toks q' l /\ q3 < q' /\ option_map (map strip_stmt) r = option_map (map strip_stmt) b) nofail).
  { destruct b as [b|]; cbn [FBody] in FB.
    - assert (FB' := FB). destruct FB as (tsb & -> & FS). rewrite braced_app in E1.
      assert (Y : wpx (if abstract then look toks KSemiColon (fun _ => pret true) (pret false) else pret false) q3 (fun r q' => q' = q3 /\ r = false) nofail).
      { destruct abstract; px L; auto. }
      px1 L. eapply wpx_use; [exact Y|]. intros r q4 (-> & ->). px L. eapply wpx_use; [apply (block_run tsb b toks _ l FS L HS1)|].
      intros r q5 (G1 & G2 & G3). next_here L. px1 L. eapply wpx_expect_or; [exact L|exact G1|]. px L. oks. cbn. congruence.
    - destruct FB as [-> ->]. cbn [app] in E1. px L. oks. reflexivity. }
  revert X. unfold wpx, pbind, pcatch. destruct ((if abstract then look toks KSemiColon (fun _ => pret true) (pret false) else pret false) q3) as [nb q4|e q4|?|]; auto.
  destruct ((if nb then pret None else _) q4) as [b' q5|e q5|?|]; auto. intros (G1 & G2 & G3). assert (PV := wpx_prev_end toks q5 l). 
  assert (Z : wpx (prev_end toks) q5 (fun _ q => q = q5) nofail) by (px L; reflexivity). unfold wpx in Z. destruct (prev_end toks q5) as [e q6|? ?|?|]; try contradiction. subst q6.
  cbn. oks. exists (mkFun (fst pr) b' us rr), e. split; [reflexivity|]. unfold strip_fun. cbn. unfold strip_param, strip_stmt in *. congruence.
Qed.
Lemma strip_fun_stmt name d d' sp sp' : strip_fun d = strip_fun d' -> strip_stmt (fun_stmt name d sp) = strip_stmt (fun_stmt name d' sp').
Proof. intros E. unfold strip_fun in E. destruct name; unfold strip_stmt; cbn; congruence. Qed.
Lemma stm_function ts name d : Fun false false ts (Some name) d -> StmC any (Kw KFunction :: ts) (St (SDecl (DFunction name d)) span_new).
Proof.
  intros F. split; [head1|]. intros toks L p l H _. cbn [app] in H. apply wpx_PS. unfold parse_statement_body, look_restore. px L.
  eapply wpx_use; [exact (fun_run false false ts (Some name) d toks _ l _ F L HS)|]. intros a q (A1 & A2 & d' & e & -> & A3). oks. apply (strip_fun_stmt (Some name)); exact A3.
Qed.
Lemma post_function (c : list token -> Prop) ts d : Fun true false ts None d -> Post c (Kw KFunction :: ts) (Ex (EFunction d) span_new).
Proof.
  intros F. split; [exists (Kw KFunction); eexists; split; reflexivity|]. intros toks L p l H _. cbn [app] in H. unfold parse_other_expression. px L.
  eapply wpx_use; [exact (fun_run true false ts None d toks _ l _ F L HS)|]. intros a q (A1 & A2 & d' & e & -> & A3). unfold fun_stmt. px L. okk.
  split; [unfold strip_expr, strip_fun in *; cbn; congruence|]. unfold estart; cbn [espan sp_start mk_span]; lia.
Qed.

(** ** Members of classes *)
Definition mm_kind (m : member_modifier) : kind :=
  match m with MPublic => KPublic | MProtected => KProtected | MPrivate => KPrivate | MStatic => KStatic | MAbstract => KAbstract | MFinal => KFinal end.
Definition mods_toks (ms : list member_modifier) : list token := map (fun m => Kw (mm_kind m)) ms.
Definition no_mod : token -> bool := fun t => negb (tok_in [KPublic; KProtected; KPrivate; KStatic; KAbstract; KFinal] t).
Lemma mods_run ms toks : late2 toks -> forall n acc p l, here toks p (mods_toks ms ++ l) -> hd_ok no_mod l -> List.length ms < n ->
  wpx (member_mods toks n acc) p (fun r q => here toks q l /\ p <= q /\ r = acc ++ ms) nofail.
Proof.
  intros L. induction ms as [|m ms IH]; intros n acc p l H C N; (destruct n as [|n]; [cbn in N; lia|]); cbn [member_mods].
  - cbn [mods_toks map app] in H. px L. oks. rewrite app_nil_r. reflexivity.
  - cbn [mods_toks map app] in H. fold (mods_toks ms) in H. destruct m; cbn [mm_kind] in H; px L;
      (eapply wpx_use; [apply (IH n _ _ l HS C); cbn in N; lia|]; intros r q (A1 & A2 & ->); oks; rewrite <- app_assoc; reflexivity).
Qed.
Definition Path (ts : list token) (pa : path) : Prop := exists abs fs, fs <> [] /\ ts = path_toks abs fs /\ pa = path_of abs fs.
Lemma path_len ts pa : Path ts pa -> 1 <= List.length ts.
Proof. intros (abs & fs & NE & -> & _). destruct (path_head abs fs NE) as (t & r & -> & _). cbn. lia. Qed.
Lemma names_run tss pas toks p l : tss <> [] -> Forall2 Path tss pas -> late2 toks -> here toks p (commas tss ++ l) -> hd_ok (fun t => negb (tok_in [KComma; KNsSeparator] t)) l ->
  wpx (parse_name_list toks) p (fun r q => here toks q l /\ p < q /\ r = pas) nofail.
Proof.
  intros NE F L H C. unfold parse_name_list.
  eapply wpx_use; [apply (commas_run toks Path eq (hd_ok no_sep) (r <~ parse_name toks ;; pret (fst r)) (name_list toks) L) with (tss := tss) (xs := pas) (l := l); auto|].
  - intros n acc q Q K. cbn [name_list]. unfold wpx, pbind, pcatch in *. destruct (parse_name toks q) as [v q'|? ?|?|]; auto.
  - intros ts x q l' (abs & fs & NF & -> & ->) X Y. px1 L. eapply wpx_use; [apply (name_run toks L abs fs q l' NF X Y)|].
    intros r q' (A1 & A2 & A3 & A4). px L. oks. exact A3.
  - intros. reflexivity.
  - weak1 C.
  - weak1 C.
  - eapply items_len; [|exact F|exact H]. exact path_len.
  - cbv beta. intros r q (A1 & A2 & ys & -> & A3). apply (forall2_map id) in A3. rewrite !map_id in A3. subst ys. oks. reflexivity.
Qed.
(** adaptations *)
Definition Adapt (ts : list token) (u : trait_use) : Prop :=
  match u with
  | TUInsteadOf pa m names => exists tp t tss, ts = tp ++ Kw KScopeOp :: t :: Kw KInsteadof :: commas tss /\ Path tp pa /\ Ident t m /\ tss <> [] /\ Forall2 Path tss names
  | TUAs (Some pa) m mods (Some a) => mods = member_modifiers_none /\ exists tp t, ts = tp ++ [Kw KScopeOp; t; Kw KAs; TString a] /\ Path tp pa /\ Ident t m
  | TUAs None m mods (Some a) => mods = member_modifiers_none /\ exists t, ts = [t; Kw KAs; TString a] /\ Ident t m
  | _ => False
  end.
Definition adapts_toks (tss : list (list token)) : list token := flat_map (fun ts => ts ++ [Kw KSemiColon]) tss.
Lemma ident_str_run t s toks p l : Ident t s -> late2 toks -> here toks p (t :: l) -> wpx (parse_identifier toks) p (fun r q => q = S p /\ fst r = s) nofail.
Proof.
  intros I L H. unfold parse_identifier. px L. destruct I as [->|(k & r & -> & R1 & R2 & ->)]; [px L; auto|]. rewrite R1, R2. px L. auto.
Qed.
Lemma abs_ref_run tp pa t m toks p l : Path tp pa -> Ident t m -> late2 toks -> here toks p (tp ++ Kw KScopeOp :: t :: l) ->
  wpx (parse_absolute_trait_method_reference toks) p (fun r q => here toks q l /\ p < q /\ r = (pa, m)) nofail.
Proof.
  intros (abs & fs & NE & -> & ->) I L H. unfold parse_absolute_trait_method_reference. px1 L. eapply wpx_use; [apply (name_run toks L abs fs p _ NE H); reflexivity|].
  intros r q (A1 & A2 & A3 & A4). px L. eapply wpx_use; [exact (ident_str_run t m toks _ _ I L HS)|]. intros i q' (-> & A5). px L. oks. congruence.
Qed.
Lemma ident_noname t m : Ident t m -> (t = TString m) \/ (no_name t = true).
Proof. intros [->|(k & r & -> & R1 & R2 & ->)]; auto. right. destruct k; auto; discriminate. Qed.
Lemma abs_ref_fail t m k toks p l : Ident t m -> late2 toks -> here toks p (t :: Kw k :: l) -> tok_in [KScopeOp; KNsSeparator] (Kw k) = false ->
  wpx (parse_absolute_trait_method_reference toks) p (fun _ _ => False) (fun _ _ => True).
Proof.
  intros I L H K. unfold parse_absolute_trait_method_reference. px1 L. destruct (ident_noname t m I) as [->|NN].
  - change (TString m :: Kw k :: l) with (path_toks false [m] ++ Kw k :: l) in H.
    assert (X : hd_ok (fun t => negb (tok_in [KScopeOp; KNsSeparator] t)) (Kw k :: l)) by (unfold hd_ok; rewrite K; reflexivity).
    eapply wpx_use; [apply (name_run toks L false [m] p _ ltac:(discriminate) H); weak1 X|].
    intros r q (A1 & A2 & A3 & A4). px1 L. unfold expect. eapply (wpx_look_cls toks L); [exact A1|exact X|reflexivity|]. px L. exact Logic.I.
  - eapply wpx_mono; [apply (name_fail toks L p _ H); exact NN|intros ? ? []|auto].
Qed.
Lemma adapts_run tss us : Forall2 Adapt tss us -> forall toks, late2 toks -> forall n (first : bool) acc p l,
  here toks p (if first then adapts_toks tss ++ Kw KCurlyBracesClose :: l else Kw KSemiColon :: adapts_toks tss ++ Kw KCurlyBracesClose :: l) -> List.length tss < n ->
  wpx (trait_uses toks n first acc) p (fun r q => here toks q (Kw KCurlyBracesClose :: l) /\ p <= q /\ r = acc ++ us) nofail.
Proof.
  induction 1 as [|ts u tss us AD F IH]; intros toks L n first acc p l H N; (destruct n as [|n]; [cbn in N; lia|]); cbn [trait_uses]; px1 L.
  - set (l0 := Kw KCurlyBracesClose :: l) in *. assert (X : wpx (if first then pret tt else (expect toks KSemiColon ;~ pret tt)) p (fun _ q => here toks q l0 /\ p <= q) nofail).
    { destruct first; cbn [adapts_toks flat_map app] in H; px L; split; auto; lia. }
    eapply wpx_use; [exact X|]. clear X. unfold l0 in *. intros _ q (A1 & A2). px1 L. px1 L. px1 L. px1 L.
    unfold parse_absolute_trait_method_reference. px1 L. eapply wpx_mono; [apply (name_fail toks L q _ A1); reflexivity|intros ? ? []|]. intros e q' ->.
    unfold parse_identifier. px L. cbn [is_reserved_non_modifier]. px L. oks. rewrite app_nil_r. reflexivity.
  - assert (X : wpx (if first then pret tt else (expect toks KSemiColon ;~ pret tt)) p (fun _ q => here toks q (ts ++ Kw KSemiColon :: adapts_toks tss ++ Kw KCurlyBracesClose :: l) /\ p <= q) nofail).
    { unfold adapts_toks in H. cbn [flat_map] in H. fold (adapts_toks tss) in H. destruct first; rewrite <- !app_assoc in H; cbn [app] in H; px L; split; auto; lia. }
    eapply wpx_use; [exact X|]. clear X H. intros _ q (A1 & A2). px1 L. px1 L. px1 L. px1 L.
    assert (G : forall v q2, here toks q2 (Kw KSemiColon :: adapts_toks tss ++ Kw KCurlyBracesClose :: l) -> q <= q2 -> v = u ->
      wpx (trait_uses toks n false (acc ++ [v])) q2 (fun r q => here toks q (Kw KCurlyBracesClose :: l) /\ p <= q /\ r = acc ++ u :: us) nofail).
    { intros v q2 B1 B2 ->. eapply wpx_use; [apply (IH toks L n false (acc ++ [u]) q2 l B1); cbn in N; lia|]. intros r q3 (D1 & D2 & ->). oks. rewrite <- app_assoc. reflexivity. }
    destruct u as [pa m names|[pa|] m mods [a|]]; try contradiction; cbn [Adapt] in AD.
    + destruct AD as (tp & t & tss2 & -> & P & I & NE & FN). rewrite <- app_assoc in A1. cbn [app] in A1.
      eapply wpx_use; [exact (abs_ref_run tp pa t m toks q _ P I L A1)|]. intros r q1 (B1 & B2 & ->). px L.
      eapply wpx_use; [apply (names_run tss2 names toks _ _ NE FN L HS); reflexivity|]. intros r q2 (D1 & D2 & ->). cbv beta. apply G; auto. lia.
    + destruct AD as (-> & tp & t & -> & P & I). rewrite <- app_assoc in A1. cbn [app] in A1.
      eapply wpx_use; [exact (abs_ref_run tp pa t m toks q _ P I L A1)|]. intros r q1 (B1 & B2 & ->). px L. apply G; auto. lia.
    + destruct AD as (-> & t & -> & I). cbn [app] in A1. eapply wpx_mono; [apply (abs_ref_fail t m KAs toks q _ I L A1); reflexivity|intros ? ? []|]. intros e q1 _. cbv beta. px1 L. px1 L. px1 L.
      next_here L. eapply wpx_use; [exact (ident_str_run t m toks _ _ I L A1)|]. intros i q2 (-> & <-). px L. apply G; auto.
Qed.
(** one statement of a class body *)
Inductive Mem : list token -> list member -> Prop :=
| mem_prop mm tss xs : tss <> [] -> Forall2 SVar tss xs -> Mem (mods_toks mm ++ commas tss ++ [Kw KSemiColon]) (map (fun x => MProp (member_modifiers_new mm) (fst x) (snd x)) xs)
| mem_var tss xs : tss <> [] -> Forall2 SVar tss xs -> Mem (Kw KVar :: commas tss ++ [Kw KSemiColon]) (map (fun x => MProp (member_modifiers_new [MPublic]) (fst x) (snd x)) xs)
| mem_const mm tss xs : tss <> [] -> Forall2 (fun ts x => exists t te, ts = t :: Kw KEqual :: te /\ Ident t (fst x) /\ Full te (snd x)) tss xs ->
    Mem (mods_toks mm ++ Kw KConst :: commas tss ++ [Kw KSemiColon]) (map (fun x => MConst (member_modifiers_new mm) (fst x) (snd x)) xs)
| mem_method mm ts name d : Fun false true ts (Some name) d -> Mem (mods_toks mm ++ Kw KFunction :: ts) [MMethod (member_modifiers_new mm) name d]
| mem_use tss pas : tss <> [] -> Forall2 Path tss pas -> Mem (Kw KUse :: commas tss ++ [Kw KSemiColon]) [MTraitUse pas []]
| mem_adapt tss pas uss us : tss <> [] -> Forall2 Path tss pas -> uss <> [] -> Forall2 Adapt uss us ->
    Mem (Kw KUse :: commas tss ++ Kw KCurlyBracesOpen :: adapts_toks uss ++ [Kw KCurlyBracesClose]) [MTraitUse pas us].
Definition strip_mem := map_member no_spans.
Lemma props_list mm tss xs toks p l : tss <> [] -> Forall2 SVar tss xs -> late2 toks -> here toks p (commas tss ++ l) -> init_end l -> hd_ok (fun t => negb (tok_in [KComma] t)) l ->
  wpx (class_props toks (PE toks) (lf toks) mm []) p
    (fun r q => here toks q l /\ p < q /\ map strip_mem r = map strip_mem (map (fun x => MProp mm (fst x) (snd x)) xs)) nofail.
Proof.
  intros NE F L H C1 C2.
  eapply wpx_use; [apply (commas_run toks (fun ts x => exists y, SVar ts y /\ x = MProp mm (fst y) (snd y)) (fun a x => strip_mem a = strip_mem x) init_end
     (v <~ expect_var toks ;; d <~ look toks KEqual (fun _ => e <~ PE toks PrNone ;; pret (Some e)) (pret None) ;; pret (MProp mm v d)) (fun n acc => class_props toks (PE toks) n mm acc) L)
     with (tss := tss) (xs := map (fun x => MProp mm (fst x) (snd x)) xs) (l := l); auto|].
  - intros n acc q Q K. cbn [class_props]. unfold wpx, pbind, pcatch in *. destruct (expect_var toks q) as [v q'|? ?|?|]; auto.
    destruct (look toks KEqual _ _ q') as [d q2|? ?|?|]; auto.
  - intros ts x q l' (y & (ti & -> & IN) & ->) X Y. cbn [app] in X. unfold expect_var. px L. eapply wpx_use; [eapply (init_run ti (snd y) toks _ _ IN L); eassumption|].
    intros d q' (A1 & A2 & A3). px L. oks. unfold strip_mem. cbn. unfold strip_expr in A3. congruence.
  - intros. reflexivity.
  - clear - F. induction F; cbn; constructor; eauto.
  - eapply items_len; [|exact F|exact H]. intros ts x (ti & -> & _). cbn. lia.
  - cbv beta. intros r q (A1 & A2 & ys & -> & A3). apply forall2_map in A3. oks. exact A3.
Qed.
Lemma props_run mm tss xs toks p l : tss <> [] -> Forall2 SVar tss xs -> late2 toks -> here toks p (commas tss ++ Kw KSemiColon :: l) ->
  wpx (l <~ class_props toks (PE toks) (lf toks) mm [] ;; expect toks KSemiColon ;~ pret l) p
    (fun r q => here toks q l /\ p < q /\ map strip_mem r = map strip_mem (map (fun x => MProp mm (fst x) (snd x)) xs)) nofail.
Proof.
  intros NE F L H. px1 L. eapply wpx_use; [apply (props_list mm tss xs toks p _ NE F L H); reflexivity|]. intros r q (A1 & A2 & A3). px L. oks. exact A3.
Qed.
Lemma consts_list mm tss xs toks p l : tss <> [] -> Forall2 (fun ts x => exists t te, ts = t :: Kw KEqual :: te /\ Ident t (fst x) /\ Full te (snd x)) tss xs -> late2 toks -> here toks p (commas tss ++ l) -> closing l -> hd_ok (fun t => negb (tok_in [KComma] t)) l ->
  wpx (class_consts toks (PE toks) (lf toks) mm []) p
    (fun r q => here toks q l /\ p < q /\ map strip_mem r = map strip_mem (map (fun x => MConst mm (fst x) (snd x)) xs)) nofail.
Proof.
  intros NE F L H C1 C2.
  eapply wpx_use; [apply (commas_run toks (fun ts x => exists t s te e, ts = t :: Kw KEqual :: te /\ Ident t s /\ Full te e /\ x = MConst mm s e) (fun a x => strip_mem a = strip_mem x) closing
     (i <~ parse_identifier toks ;; expect toks KEqual ;~ v <~ PE toks PrNone ;; pret (MConst mm (fst i) v)) (fun n acc => class_consts toks (PE toks) n mm acc) L)
     with (tss := tss) (xs := map (fun x => MConst mm (fst x) (snd x)) xs) (l := l); auto|].
  - intros n acc q Q K. cbn [class_consts]. unfold wpx, pbind, pcatch in *. destruct (parse_identifier toks q) as [v q'|? ?|?|]; auto.
    destruct (expect toks KEqual q') as [d q2|? ?|?|]; auto. destruct (PE toks PrNone q2) as [? ?|? ?|?|]; auto.
  - intros ts x q l' (t & s & te & e & -> & I & FE & ->) X Y. cbn [app] in X. next_here L. px1 L. eapply wpx_use; [exact (ident_str_run t s toks _ _ I L X)|].
    intros i q' (-> & <-). px L. eapply wpx_use; [exact (FE toks L _ _ HS0 Y)|]. intros a q' (A1 & A2 & A3 & A4). px L. oks. unfold strip_mem. cbn. unfold strip_expr in A3. congruence.
  - intros. reflexivity.
  - clear - F. induction F as [|ts x tss xs (t & te & -> & I & FE)]; cbn; constructor; auto. exists t, (fst x), te, (snd x). auto.
  - eapply items_len; [|exact F|exact H]. intros ts x (t & te & -> & _). cbn. lia.
  - cbv beta. intros r q (A1 & A2 & ys & -> & A3). apply forall2_map in A3. oks. exact A3.
Qed.
Lemma consts_run mm tss xs toks p l : tss <> [] -> Forall2 (fun ts x => exists t te, ts = t :: Kw KEqual :: te /\ Ident t (fst x) /\ Full te (snd x)) tss xs -> late2 toks -> here toks p (commas tss ++ Kw KSemiColon :: l) ->
  wpx (l <~ class_consts toks (PE toks) (lf toks) mm [] ;; expect toks KSemiColon ;~ pret l) p
    (fun r q => here toks q l /\ p < q /\ map strip_mem r = map strip_mem (map (fun x => MConst mm (fst x) (snd x)) xs)) nofail.
Proof.
  intros NE F L H. px1 L. eapply wpx_use; [apply (consts_list mm tss xs toks p _ NE F L H); reflexivity|]. intros r q (A1 & A2 & A3). px L. oks. exact A3.
Qed.
Lemma svars_head tss xs l : tss <> [] -> Forall2 SVar tss xs -> exists v r, commas tss ++ l = TVariable v :: r.
Proof.
  intros NE F. destruct F as [|ts x tss xs (ti & -> & _) F]; [congruence|]. destruct tss; [cbn; eauto|]. rewrite commas_cons. cbn. eauto.
Qed.
Lemma adapts_len uss us : Forall2 Adapt uss us -> List.length uss <= List.length (adapts_toks uss).
Proof. unfold adapts_toks. induction 1; cbn [flat_map]; auto. rewrite !app_length. cbn. lia. Qed.
Lemma mm_lt mm toks p l : here toks p (mods_toks mm ++ l) -> List.length mm < lf toks.
Proof. intros [H _]. unfold mods_toks in H. rewrite app_length, map_length in H. unfold lf. lia. Qed.
Lemma mods_novar mm l t r : l = t :: r -> tok_in [KVar] t = false -> hd_ok (fun t => negb (tok_in [KVar] t)) (mods_toks mm ++ l).
Proof. intros -> H. destruct mm as [|m mm]; cbn [mods_toks map app]; [unfold hd_ok; rewrite H; reflexivity|]. destruct m; reflexivity. Qed.
Lemma mem_run ts ms toks p l : Mem ts ms -> late2 toks -> here toks p (ts ++ l) ->
  wpx (parse_class_statement toks (PE toks) (PS toks)) p (fun r q => here toks q l /\ p < q /\ map strip_mem r = map strip_mem ms) nofail.
Proof.
  intros M L H. unfold parse_class_statement, parse_member_modifiers. cbv zeta. destruct M as [mm tss xs NE F|tss xs NE F|mm tss xs NE F|mm ts name d F|tss pas NE F|tss pas uss us NE F NU FU].
  - rewrite <- !app_assoc in H. cbn [app] in H. destruct (svars_head tss xs (Kw KSemiColon :: l) NE F) as (v & r & E).
    assert (X := mods_novar mm _ _ _ E eq_refl). pose proof (mm_lt mm toks p _ H) as N. rewrite E in X, H. px1 L. px1 L.
    eapply wpx_use; [apply (mods_run mm toks L (lf toks) [] p _ H); [reflexivity|exact N]|]. intros r' q (A1 & A2 & ->). do 3 px1 L. rewrite <- E in A1.
    eapply wpx_use; [exact (props_run (member_modifiers_new ([] ++ mm)) tss xs toks _ l NE F L A1)|]. intros r' q' (B1 & B2 & B3). oks. exact B3.
  - cbn [app] in H. rewrite <- !app_assoc in H. cbn [app] in H. next_here L. px1 L.
    eapply wpx_use; [exact (props_run (member_modifiers_new [MPublic]) tss xs toks _ l NE F L HS)|]. intros r' q' (B1 & B2 & B3). oks. exact B3.
  - rewrite <- !app_assoc in H. cbn [app] in H. rewrite <- !app_assoc in H. cbn [app] in H.
    assert (X := mods_novar mm _ (Kw KConst) (commas tss ++ Kw KSemiColon :: l) eq_refl eq_refl). pose proof (mm_lt mm toks p _ H) as N. px1 L. px1 L.
    eapply wpx_use; [apply (mods_run mm toks L (lf toks) [] p _ H); [reflexivity|exact N]|]. intros r' q (A1 & A2 & ->). next_here L. do 3 px1 L.
    eapply wpx_use; [exact (consts_run (member_modifiers_new ([] ++ mm)) tss xs toks _ l NE F L HS)|]. intros r' q' (B1 & B2 & B3). oks. exact B3.
  - rewrite <- !app_assoc in H. cbn [app] in H.
    assert (X := mods_novar mm _ (Kw KFunction) (ts ++ l) eq_refl eq_refl). pose proof (mm_lt mm toks p _ H) as N. px1 L. px1 L.
    eapply wpx_use; [apply (mods_run mm toks L (lf toks) [] p _ H); [reflexivity|exact N]|]. intros r' q (A1 & A2 & ->). next_here L. do 3 px1 L.
    eapply wpx_use; [exact (fun_run false true ts (Some name) d toks _ l _ F L HS)|]. intros a q' (B1 & B2 & d' & e & -> & B3). cbn [fun_stmt]. px L. oks.
    unfold strip_mem, strip_fun in *. cbn [map map_member app]. rewrite B3. reflexivity.
  - cbn [app] in H. rewrite <- !app_assoc in H. cbn [app] in H. next_here L. px1 L. px1 L. unfold lf. cbn [member_mods]. px L.
    eapply wpx_use; [apply (names_run tss pas toks _ _ NE F L HS); reflexivity|]. intros r q (A1 & A2 & ->). px L. oks. reflexivity.
  - cbn [app] in H. rewrite <- !app_assoc in H. cbn [app] in H. rewrite <- !app_assoc in H. cbn [app] in H. next_here L. px1 L. px1 L. unfold lf at 1. cbn [member_mods]. px L.
    eapply wpx_use; [apply (names_run tss pas toks _ _ NE F L HS); reflexivity|]. intros r q (A1 & A2 & ->). px L.
    assert (X : hd_ok (fun t => negb (tok_in [KCurlyBracesClose] t)) (adapts_toks uss ++ Kw KCurlyBracesClose :: l)).
    { clear - NU FU. destruct FU as [|ts u uss us AD FU]; [congruence|]. unfold adapts_toks. cbn [flat_map]. rewrite <- !app_assoc.
      destruct u as [pa m names|[pa|] m mods [a|]]; try contradiction; cbn [Adapt] in AD.
      - destruct AD as (tp & t & tss2 & -> & (abs & fs & NE & -> & _) & _). rewrite <- app_assoc. destruct (path_head abs fs NE) as (t' & r & -> & NT). cbn. destruct t' as [[]| | | | | | | |]; auto; discriminate.
      - destruct AD as (_ & tp & t & -> & (abs & fs & NE & -> & _) & _). rewrite <- app_assoc. destruct (path_head abs fs NE) as (t' & r & -> & NT). cbn. destruct t' as [[]| | | | | | | |]; auto; discriminate.
      - destruct AD as (_ & t & -> & [->|(k & r & -> & R1 & _)]); [reflexivity|]. destruct k; auto; discriminate. }
    px1 L. px1 L. pose proof (adapts_len uss us FU) as N. assert (HL := proj1 HS0). rewrite app_length in HL. cbn in HL.
    eapply wpx_use; [apply (adapts_run uss us FU toks L (lf toks) true [] _ l HS0); unfold lf; lia|]. intros r q' (B1 & B2 & ->). px L. oks. reflexivity.
Qed.
Lemma mem_len ts ms : Mem ts ms -> 1 <= List.length ts.
Proof. intros []; len_. Qed.
Definition mems_q (toks : list tokspan) (ms : list member) (p : nat) (l : list token) : list member * option perror -> nat -> Prop :=
  fun r q => here toks q l /\ p <= q /\ map strip_mem (fst r) = map strip_mem ms.
(** a beginning of a member that is dropped in front of the closing brace *)
Definition UnfM (u : list token) : Prop := forall toks, late2 toks -> forall p l, here toks p (u ++ Kw KCurlyBracesClose :: l) ->
  wpx (parse_class_statement toks (PE toks) (PS toks)) p (fun _ _ => False) (fun _ q => here toks q (Kw KCurlyBracesClose :: l) /\ p <= q).
Lemma unfm_nil : UnfM [].
Proof.
  intros toks L p l H. cbn [app] in H. unfold parse_class_statement, parse_member_modifiers. cbv zeta. unfold lf. cbn [member_mods class_props]. unfold expect_var. px L. auto.
Qed.
Lemma mems_run tss mss u : Forall2 Mem tss mss -> UnfM u -> forall toks, late2 toks -> forall n acc ms0 p l, here toks p (List.concat tss ++ u ++ Kw KCurlyBracesClose :: l) ->
  List.length tss < n -> map strip_mem acc = map strip_mem ms0 ->
  wpx (class_statements toks (PE toks) (PS toks) n acc) p (mems_q toks (ms0 ++ List.concat mss) p (Kw KCurlyBracesClose :: l)) nofail.
Proof.
  intros F U. induction F as [|ts ms tss mss M F IH]; intros toks L n acc ms0 p l H N A; (destruct n as [|n]; [cbn in N; lia|]); cbn [class_statements]; px1 L; px1 L.
  - cbn [List.concat app] in *. destruct (Nat.ltb_spec p (List.length toks)) as [X|X]; [|apply here_lt_app in H; lia]. px1 L.
    eapply wpx_mono; [exact (U toks L p l H)|intros ? ? []|]. intros e q (B1 & B2). px1 L. unfold mems_q. oks. rewrite app_nil_r. exact A.
  - cbn [List.concat] in *. rewrite <- app_assoc in H. assert (X := mem_len ts ms M).
    destruct (Nat.ltb_spec p (List.length toks)) as [_|Z]; [|destruct H as [H _]; rewrite !app_length in H; cbn in H; lia]. px1 L.
    eapply wpx_use; [exact (mem_run ts ms toks p _ M L H)|]. intros r q (A1 & A2 & A3). cbv beta.
    eapply wpx_use; [apply (IH toks L n (acc ++ r) (ms0 ++ ms) q l A1); [cbn in N; lia|rewrite !map_app; congruence]|].
    intros r' q' (B1 & B2 & B3). unfold mems_q. oks. rewrite B3, <- app_assoc. reflexivity.
Qed.
Lemma mems_len tss mss : Forall2 Mem tss mss -> List.length tss <= List.length (List.concat tss).
Proof. induction 1 as [|ts ms tss mss M F IH]; cbn; auto. apply mem_len in M. rewrite app_length. lia. Qed.

(** ** Classes *)
Definition cm_kind (m : class_modifier) : kind := match m with CAbstract => KAbstract | CFinal => KFinal end.
Definition cmods_toks (ms : list class_modifier) : list token := map (fun m => Kw (cm_kind m)) ms.
Definition ClassBody (ts : list token) (ms : list member) : Prop :=
  exists tss mss u, ts = Kw KCurlyBracesOpen :: (List.concat tss ++ u) ++ [Kw KCurlyBracesClose] /\ Forall2 Mem tss mss /\ UnfM u /\ ms = List.concat mss.
Lemma class_all tss mss : Forall2 Mem tss mss -> ClassBody (Kw KCurlyBracesOpen :: List.concat tss ++ [Kw KCurlyBracesClose]) (List.concat mss).
Proof. intros F. exists tss, mss, []. rewrite app_nil_r. auto using unfm_nil. Qed.
Definition Names (k : kind) (ts : list token) (pas : list path) : Prop :=
  (ts = [] /\ pas = []) \/ exists tss, ts = Kw k :: commas tss /\ tss <> [] /\ Forall2 Path tss pas.
Definition Base (ts : list token) (b : option path) : Prop := match b with Some pa => exists tp, ts = Kw KExtends :: tp /\ Path tp pa | None => ts = [] end.
Lemma cmods_run ms toks : late2 toks -> forall n acc p l, here toks p (cmods_toks ms ++ l) -> hd_ok (fun t => negb (tok_in [KAbstract; KFinal] t)) l -> List.length ms < n ->
  wpx (class_mods toks n acc) p (fun r q => here toks q l /\ q = p + List.length ms /\ r = acc ++ ms) nofail.
Proof.
  intros L. induction ms as [|m ms IH]; intros n acc p l H C N; (destruct n as [|n]; [cbn in N; lia|]); cbn [class_mods].
  - cbn [cmods_toks map app] in H. px L. rewrite app_nil_r. split; [exact H|]. split; [cbn; lia|reflexivity].
  - cbn [cmods_toks map app] in H. fold (cmods_toks ms) in H. destruct m; cbn [cm_kind] in H; px L;
      (eapply wpx_use; [apply (IH n _ _ l HS C); cbn in N; lia|]; intros r q (A1 & A2 & ->); split; [assumption|split; [cbn; lia|rewrite <- app_assoc; reflexivity]]).
Qed.
Lemma names_opt_run k ts pas toks p l : Names k ts pas -> late2 toks -> here toks p (ts ++ Kw KCurlyBracesOpen :: l) -> kind_eqb k KCurlyBracesOpen = false ->
  wpx (look toks k (fun _ => parse_name_list toks) (pret [])) p (fun r q => here toks q (Kw KCurlyBracesOpen :: l) /\ p <= q /\ r = pas) nofail.
Proof.
  intros N L H K. destruct N as [(-> & ->)|(tss & -> & NE & F)]; cbn [app] in H; next_here L; (eapply (wpx_look toks L); [exact H|]; cbv beta iota).
  - rewrite K. px L. oks. reflexivity.
  - unfold kind_eqb. rewrite N.eqb_refl. eapply wpx_use; [apply (names_run tss pas toks _ _ NE F L HS); reflexivity|]. intros r q (A1 & A2 & ->). oks. reflexivity.
Qed.
Lemma class_body_run ts ms toks p l (f : list member -> decl) sp : ClassBody ts ms -> late2 toks -> here toks p (ts ++ l) ->
  (forall a b, map strip_mem a = map strip_mem b -> map_decl no_spans (f a) = map_decl no_spans (f b)) ->
  wpx (expect toks KCurlyBracesOpen ;~ ms <~ parse_class_statement_list toks (PE toks) (PS toks) ;; sp2 <~ expect_or toks KCurlyBracesClose (snd ms) ;;
    pret (St (SDecl (f (fst ms))) (mk_span sp (sp_end sp2)))) p (fun a q => here toks q l /\ p < q /\ strip_stmt a = strip_stmt (St (SDecl (f ms)) span_new)) nofail.
Proof.
  intros (tss & mss & u & -> & F & U & ->) L H FF. rewrite braced_app, <- app_assoc in H. px L. pose proof (mems_len tss mss F) as N. assert (HL := proj1 HS). rewrite !app_length in HL. cbn in HL.
  unfold parse_class_statement_list. assert (X : wpx (class_statements toks (PE toks) (PS toks) (lf toks) []) (S p) (mems_q toks (List.concat mss) (S p) (Kw KCurlyBracesClose :: l)) nofail).
  { apply (mems_run tss mss u F U toks L (lf toks) [] [] _ l HS); auto. unfold lf. lia. }
  destruct toks as [|t0 toks']; [cbn in HL; lia|]. set (toks := t0 :: toks') in *. eapply wpx_use; [exact X|]. intros r q (A1 & A2 & A3). next_here L. px1 L.
  eapply wpx_expect_or; [exact L|exact A1|]. cbv beta. px L. oks. unfold strip_stmt. cbn. do 2 f_equal. apply FF. exact A3.
Qed.
(** down to [parse_oo_declaration] *)
Lemma oo_stm toks p l : late2 toks -> here toks p l -> hd_ok (tok_in [KAbstract; KFinal; KClass; KTrait; KInterface]) l ->
  forall Q : stmt -> nat -> Prop, wpx (parse_oo_declaration toks (PE toks) (PS toks)) p Q nofail -> wpx (PS toks) p Q nofail.
Proof.
  intros L H X Q K. apply wpx_PS. unfold parse_statement_body, look_restore.
  do 10 (eapply (wpx_look_cls toks L); [exact H|exact X|reflexivity|]). do 3 (px1 L; px1 L; cbv beta; eapply (wpx_look_cls toks L); [exact H|exact X|reflexivity|]; cbv beta).
  px1 L. eapply wpx_mono; [exact K|auto|intros ? ? []].
Qed.
Lemma stm_class cms name tb base ti ifaces tm ms : Base tb base -> Names KImplements ti ifaces -> ClassBody tm ms ->
  StmC any (cmods_toks cms ++ Kw KClass :: TString name :: tb ++ ti ++ tm) (St (SDecl (DClass (class_modifiers_new cms) name base ifaces ms)) span_new).
Proof.
  intros B NI M. split; [destruct cms as [|[] cms]; head1|]. intros toks L p l H _. rewrite <- !app_assoc in H. cbn [app] in H. rewrite <- !app_assoc in H.
  assert (X : hd_ok (tok_in [KAbstract; KFinal; KClass]) (cmods_toks cms ++ Kw KClass :: TString name :: tb ++ ti ++ tm ++ l)) by (destruct cms as [|[] cms]; reflexivity).
  assert (N : List.length cms < lf toks) by (destruct H as [H _]; unfold cmods_toks in H; rewrite app_length, map_length in H; unfold lf; lia).
  eapply oo_stm; [exact L|exact H|weak1 X|]. unfold parse_oo_declaration. px1 L. px1 L. px1 L. px1 L. px1 L. px1 L.
  eapply wpx_use; [apply (cmods_run cms toks L (lf toks) [] p _ H); [reflexivity|exact N]|]. cbn [app]. intros r q (A1 & -> & ->). px L.
  eapply (wpx_span_at toks); [destruct A1 as [A1 _]; cbn in A1; lia|]. intros sp0. unfold expect_string. px L.
  assert (M' := M). destruct M as (tss & mss & u & -> & _ & _ & _). rewrite braced_app in HS0.
  set (l2 := (List.concat tss ++ u) ++ Kw KCurlyBracesClose :: l) in *.
  assert (E : wpx (look toks KExtends (fun _ => r <~ parse_name toks;; pret (Some (fst r))) (pret None)) (S (S (p + List.length cms))) 
     (fun r q => here toks q (ti ++ Kw KCurlyBracesOpen :: l2) /\ S (S (p + List.length cms)) <= q /\ r = base) nofail).
  { destruct base as [pa|]; cbn [Base] in B.
    - destruct B as (tp & -> & abs & fs & NE & -> & ->). cbn [app] in HS0. px L. eapply wpx_use; [apply (name_run toks L abs fs _ _ NE HS1)|].
      { destruct NI as [(-> & _)|(tss2 & -> & _)]; reflexivity. }
      intros r q (A & A2 & A3 & A4). px L. oks. congruence.
    - subst tb. cbn [app] in HS0. assert (Y : hd_ok (fun t => negb (tok_in [KExtends] t)) (ti ++ Kw KCurlyBracesOpen :: l2)).
      { destruct NI as [(-> & _)|(tss2 & -> & _)]; reflexivity. }
      px L. oks. reflexivity. }
  eapply wpx_use; [exact E|]. clear E. intros r q (B1 & B2 & ->). px1 L.
  eapply wpx_use; [apply (names_opt_run KImplements ti ifaces toks q _ NI L B1 eq_refl)|]. intros r q1 (D1 & D2 & ->). unfold l2 in D1. rewrite <- braced_app in D1.
  eapply wpx_use; [apply (class_body_run _ ms toks q1 l (DClass (class_modifiers_new cms) name base ifaces) (sp_start sp0) M' L D1)|].
  - intros a b E. cbn. f_equal. exact E.
  - intros a q2 (E1 & E2 & E3). oks. exact E3.
Qed.
Lemma stm_interface name ti ifaces tm ms : Names KExtends ti ifaces -> ClassBody tm ms ->
  StmC any (Kw KInterface :: TString name :: ti ++ tm) (St (SDecl (DInterface name ifaces ms)) span_new).
Proof.
  intros NI M. split; [head1|]. intros toks L p l H _. cbn [app] in H. rewrite <- !app_assoc in H.
  eapply oo_stm; [exact L|exact H|reflexivity|]. unfold parse_oo_declaration. px L; [cbn; lia|]. px L.
  eapply (wpx_span_at toks); [destruct HS as [A1 _]; cbn in A1; cbn [List.length]; lia|]. intros sp0. unfold expect_string. px L.
  assert (M' := M). destruct M as (tss & mss & u & -> & _ & _ & _). rewrite braced_app in HS0.
  eapply wpx_use; [apply (names_opt_run KExtends ti ifaces toks _ _ NI L HS0 eq_refl)|]. intros r q1 (D1 & D2 & ->). rewrite <- braced_app in D1.
  eapply wpx_use; [apply (class_body_run _ ms toks q1 l (DInterface name ifaces) (sp_start sp0) M' L D1)|].
  - intros a b E. cbn. f_equal. exact E.
  - intros a q2 (E1 & E2 & E3). oks. exact E3.
Qed.
Lemma stm_trait name tm ms : ClassBody tm ms -> StmC any (Kw KTrait :: TString name :: tm) (St (SDecl (DTrait name ms)) span_new).
Proof.
  intros M. split; [head1|]. intros toks L p l H _. cbn [app] in H.
  eapply oo_stm; [exact L|exact H|reflexivity|]. unfold parse_oo_declaration. px L; [cbn; lia|]. px L.
  eapply (wpx_span_at toks); [destruct HS as [A1 _]; cbn in A1; cbn [List.length]; lia|]. intros sp0. unfold expect_string. next_here L.
  repeat (lazymatch goal with |- wpx (pbind (expect _ KCurlyBracesOpen) _) _ _ _ => fail | _ => px1 L; cbv beta end).
  eapply wpx_use; [apply (class_body_run _ ms toks _ l (DTrait name) (sp_start sp0) M L HS0)|].
  - intros a b E. cbn. f_equal. exact E.
  - intros a q2 (E1 & E2 & E3). oks. exact E3.
Qed.

(** ** Programs *)
Definition Use (ts : list token) (u : use_clause) : Prop :=
  exists abs fs ta, fs <> [] /\ ts = path_toks abs fs ++ ta /\ uc_path u = path_of abs fs /\ ta = match uc_alias u with Some a => [Kw KAs; TString a] | None => [] end.
(** a statement at the top level *)
Inductive Top : list token -> stmt -> Prop :=
| top_stm ts s : Stm ts s -> Top ts s
| top_namespace fs : fs <> [] -> Top (Kw KNamespace :: frag_tokens fs ++ [Kw KSemiColon]) (St (SDecl (DNamespace (path_of false fs))) span_new)
| top_use tss us : tss <> [] -> Forall2 Use tss us -> Top (Kw KUse :: commas tss ++ [Kw KSemiColon]) (St (SUse us) span_new).
Lemma use_len ts u : Use ts u -> 1 <= List.length ts.
Proof. intros (abs & fs & ta & NE & -> & _). destruct (path_head abs fs NE) as (t & r & -> & _). cbn. lia. Qed.
Lemma abs_flag abs : abs_tokens abs = flag abs KNsSeparator.
Proof. destruct abs; reflexivity. Qed.
Lemma clauses_list tss us toks p l : tss <> [] -> Forall2 Use tss us -> late2 toks -> here toks p (commas tss ++ l) -> hd_ok (fun t => negb (tok_in [KComma; KAs; KNsSeparator] t)) l ->
  wpx (use_clauses toks (lf toks) []) p (fun r q => here toks q l /\ p < q /\ r = us) nofail.
Proof.
  intros NE F L H C.
  eapply wpx_use; [apply (commas_run toks Use eq (hd_ok (fun t => negb (tok_in [KAs; KNsSeparator] t)))
     (is_fqdn <~ look toks KNsSeparator (fun _ => pret true) (pret false) ;; r <~ parse_namespace_name toks ;;
      alias <~ look toks KAs (fun _ => s <~ expect_string toks ;; pret (Some s)) (pret None) ;;
      pret (QualifiedName (mkPath is_fqdn (namespace (fst r)) (identifier (fst r))) alias)) (use_clauses toks) L)
     with (tss := tss) (xs := us) (l := l); auto|].
  - intros n acc q Q K. cbn [use_clauses]. unfold wpx, pbind, pcatch in *. destruct (look toks KNsSeparator _ _ q) as [v q'|? ?|?|]; auto.
    destruct (parse_namespace_name toks q') as [r q2|? ?|?|]; auto. destruct (look toks KAs _ _ q2) as [? ?|? ?|?|]; auto.
  - intros ts [pa al] q l' (abs & fs & ta & NF & -> & PE_ & TA) X Y. cbn [uc_path uc_alias] in *. unfold path_toks in X. rewrite abs_flag, <- !app_assoc in X. px1 L.
    destruct (frag_head fs (ta ++ l') NF) as (a & r & FH).
    eapply wpx_use; [apply (flag_run abs KNsSeparator toks q _ L X); rewrite FH; reflexivity|]. intros r' q1 (B1 & B2 & ->). px1 L.
    eapply wpx_use; [apply (namespace_run toks L fs q1 _ NF B1)|].
    { rewrite TA. destruct al; [reflexivity|]. weak1 Y. }
    intros r' q2 (D1 & D2 & D3 & D4). px1 L.
    assert (Z : wpx (look toks KAs (fun _ => s <~ expect_string toks ;; pret (Some s)) (pret None)) q2 (fun r q => here toks q l' /\ q2 <= q /\ r = al) nofail).
    { rewrite TA in D1. destruct al as [s|]; cbn [app] in D1.
      - unfold expect_string. px L. oks. reflexivity.
      - px L. oks. reflexivity. }
    eapply wpx_use; [exact Z|]. intros al' q3 (E1 & E2 & ->). px L. oks. rewrite D3, PE_. reflexivity.
  - intros. reflexivity.
  - weak1 C.
  - weak1 C.
  - eapply items_len; [|exact F|exact H]. exact use_len.
  - cbv beta. intros r q (A1 & A2 & ys & -> & A3). apply (forall2_map id) in A3. rewrite !map_id in A3. subst ys. oks. reflexivity.
Qed.
Lemma clauses_run tss us toks p l : tss <> [] -> Forall2 Use tss us -> late2 toks -> here toks p (commas tss ++ Kw KSemiColon :: l) ->
  wpx (use_clauses toks (lf toks) []) p (fun r q => here toks q (Kw KSemiColon :: l) /\ p < q /\ r = us) nofail.
Proof. intros NE F L H. apply (clauses_list tss us toks p); auto. reflexivity. Qed.
Lemma top_start ts s : Top ts s -> exists t r, ts = t :: r /\ tok_in [KElse; KElseIf; KCatch; KFinally] t = false.
Proof.
  intros [ts' s' [(t & r & -> & H) _]|fs NE|tss us NE F]; [|eexists; eexists; split; reflexivity..].
  exists t, r. split; auto. apply starts_end in H. destruct (tok_in [KElse; KElseIf; KCatch; KFinally] t); auto; discriminate.
Qed.
Lemma top_run ts s toks p l : Top ts s -> late2 toks -> here toks p (ts ++ l) -> stm_end l ->
  wpx (parse_top_statement toks (PS toks)) p (okst toks s p l) nofail.
Proof.
  intros T L H C. unfold parse_top_statement. destruct T as [ts s [(t & r & E & H1) S1]|fs NE|tss us NE F].
  - assert (X : hd_ok (fun t => negb (tok_in [KNamespace; KUse] t)) (ts ++ l)).
    { rewrite E. cbn [app hd_ok]. destruct t as [k| | | | | | | |]; auto. destruct k; auto; discriminate. }
    px1 L. px1 L. apply S1; auto.
  - cbn [app] in H. rewrite <- app_assoc in H. cbn [app] in H. px L. eapply wpx_use; [apply (namespace_run toks L fs _ _ NE HS); reflexivity|].
    intros r q (A1 & A2 & A3 & A4). px L. oks. rewrite A3. reflexivity.
  - cbn [app] in H. rewrite <- app_assoc in H. cbn [app] in H. px L. eapply wpx_use; [exact (clauses_run tss us toks _ _ NE F L HS)|].
    intros r q (A1 & A2 & ->). px L. oks. reflexivity.
Qed.
Lemma tops_run tss ss : Forall2 Top tss ss -> forall toks, late2 toks -> forall n acc ss0 p, here toks p (List.concat tss) -> List.length tss < n -> map strip_stmt acc = map strip_stmt ss0 ->
  wpx (top_statements toks (PS toks) n acc) p (fun r q => q = List.length toks /\ map strip_stmt r = map strip_stmt (ss0 ++ ss)) nofail.
Proof.
  induction 1 as [|ts s tss ss T F IH]; intros toks L n acc ss0 p H N A; (destruct n as [|n]; [cbn in N; lia|]); cbn [top_statements]; px1 L; px1 L; cbn [List.concat] in H.
  - destruct H as [H _]. cbn in H. destruct (Nat.ltb_spec p (List.length toks)) as [X|X]; [lia|]. px1 L. split; [lia|]. rewrite app_nil_r. exact A.
  - destruct (top_start ts s T) as (t & r & E & _). assert (X : p < List.length toks) by (destruct H as [H _]; rewrite E in H; cbn in H; lia).
    destruct (Nat.ltb_spec p (List.length toks)) as [_|Y]; [|lia]. px1 L.
    assert (SE : stm_end (List.concat tss)).
    { destruct F as [|ts2 s2 tss ss T2 F2]; [exact I|]. cbn [List.concat]. destruct (top_start ts2 s2 T2) as (t2 & r2 & -> & E2). cbn. unfold stm_end, hd_ok. rewrite E2. reflexivity. }
    eapply wpx_use; [exact (top_run ts s toks p _ T L H SE)|]. intros a q (A1 & A2 & A3). cbv beta.
    eapply wpx_use; [apply (IH toks L n (acc ++ [a]) (ss0 ++ [s]) q A1); [cbn in N; lia|rewrite !map_app; cbn; congruence]|].
    intros r' q' (B1 & B2). split; [exact B1|]. rewrite <- app_assoc in B2. exact B2.
Qed.
Lemma tops_len tss ss : Forall2 Top tss ss -> List.length tss <= List.length (List.concat tss).
Proof. induction 1 as [|ts s tss ss T F IH]; cbn; auto. destruct (top_start ts s T) as (t & r & -> & _). rewrite app_length. cbn. lia. Qed.
Lemma program_run tss ss toks : tss <> [] -> Forall2 Top tss ss -> Forall (fun t : tokspan => 2 <= sp_start (snd t)) toks -> map fst toks = List.concat tss ->
  exists l p, parse_top toks = POk l p /\ strip l = strip ss.
Proof.
  intros NE F A E. pose proof (late_all toks A) as L.
  assert (H : here toks 0 (List.concat tss)) by (split; [rewrite <- E, map_length; reflexivity|split; [exact E|right; exact A]]). clear A.
  pose proof (tops_len tss ss F) as N.
  assert (X : wpx (top_statements toks (PS toks) (lf toks) []) 0 (fun r q => q = List.length toks /\ map strip_stmt r = map strip_stmt ss) nofail).
  { apply (tops_run tss ss F toks L (lf toks) [] [] 0 H); auto. destruct H as [H _]. unfold lf. lia. }
  unfold parse_top, parse_top_statement_list. unfold PS in X.
  destruct toks as [|t0 toks'].
  - destruct F as [|ts s tss ss T F]; [congruence|]. destruct (top_start ts s T) as (t & r & -> & _). discriminate.
  - set (toks := t0 :: toks') in *. revert X. unfold wpx. destruct (top_statements toks _ (lf toks) [] 0) as [l q|? ?|?|]; try contradiction. intros (-> & A). eauto.
Qed.
(** ... whose first statements stand at the very beginning of the source *)
Inductive reach (toks : list tokspan) : nat -> list stmt -> nat -> Prop :=
| reach_0 : reach toks (lf toks) [] 0
| reach_S n acc k r q : reach toks (S n) acc k -> k < List.length toks -> parse_top_statement toks (PS toks) k = POk r q -> reach toks n (acc ++ [r]) q.
Lemma reach_run toks n acc k : reach toks n acc k -> top_statements toks (PS toks) (lf toks) [] 0 = top_statements toks (PS toks) n acc k.
Proof.
  induction 1 as [|n acc k r q R IH K E]; [reflexivity|]. rewrite IH. cbn [top_statements].
  unfold pbind at 1, pcatch at 1, getpos at 1. destruct (Nat.ltb_spec k (List.length toks)) as [_|W]; [|lia]. cbv iota.
  unfold pbind at 1, pcatch at 1. rewrite E. reflexivity.
Qed.
Lemma reach_next toks n acc acc0 k q x : reach toks (S n) acc k -> k < List.length toks -> strip acc = strip acc0 ->
  wpx (parse_top_statement toks (PS toks)) k (fun r q' => q' = q /\ strip_stmt r = strip_stmt x) nofail ->
  exists acc', reach toks n acc' q /\ strip acc' = strip (acc0 ++ [x]).
Proof.
  intros R K E X. unfold wpx in X. destruct (parse_top_statement toks (PS toks) k) as [r q'|? ?|?|] eqn:Y; try contradiction. destruct X as [-> X].
  exists (acc ++ [r]). split; [econstructor; eauto|]. unfold strip in *. rewrite !map_app, E. cbn. rewrite X. reflexivity.
Qed.
Lemma rest_run tss ss toks n acc acc0 k : Forall2 Top tss ss -> late2 toks -> here toks k (List.concat tss) -> 0 < List.length toks ->
  reach toks n acc k -> List.length tss < n -> strip acc = strip acc0 ->
  exists l p, parse_top toks = POk l p /\ strip l = strip (acc0 ++ ss).
Proof.
  intros F L H NE R N E. pose proof (tops_run tss ss F toks L n acc acc0 k H N E) as Z.
  unfold wpx in Z. rewrite <- (reach_run _ _ _ _ R) in Z. unfold parse_top, parse_top_statement_list. fold (PS toks).
  destruct toks as [|t0 toks']; [cbn in NE; lia|]. destruct (top_statements (t0 :: toks') (PS (t0 :: toks')) (lf (t0 :: toks')) [] 0) as [l q|? ?|?|]; try contradiction.
  destruct Z as (-> & B). eexists. eexists. split; [reflexivity|exact B].
Qed.
Lemma late_skip n toks : Forall (fun t : tokspan => 2 <= sp_start (snd t)) toks -> Forall (fun t : tokspan => 2 <= sp_start (snd t)) (skipn n toks).
Proof. intros H. apply Forall_forall. intros t I. rewrite Forall_forall in H. apply H. rewrite <- (firstn_skipn n toks). apply in_or_app. auto. Qed.
Lemma html_first w s1 s2 s3 toks : let all := ((Kw KEcho, s1) :: (TCes w, s2) :: (Kw KSemiColon, s3) :: toks) : list tokspan in
  exists sp sp', parse_top_statement all (PS all) 0 = POk (St (SEcho [Ex (EString w) sp]) sp') 3.
Proof. intros all. eexists. eexists. vm_compute. reflexivity. Qed.
(** HTML *)
Lemma html_run tss ss toks w s1 s2 s3 : Forall2 Top tss ss -> Forall (fun t : tokspan => 2 <= sp_start (snd t)) toks -> map fst toks = List.concat tss ->
  exists l p, parse_top ((Kw KEcho, s1) :: (TCes w, s2) :: (Kw KSemiColon, s3) :: toks) = POk l p /\
    strip l = strip (St (SEcho [Ex (EString w) span_new]) span_new :: ss).
Proof.
  intros F A E. set (all := ((Kw KEcho, s1) :: (TCes w, s2) :: (Kw KSemiColon, s3) :: toks) : list tokspan).
  assert (L : late2 all) by exact (late_skip 1 toks A). destruct (html_first w s1 s2 s3 toks) as (sp & sp' & X1). fold all in X1.
  pose proof (tops_len tss ss F) as N. assert (T : List.length all = 3 + List.length (List.concat tss)) by (rewrite <- E, map_length; reflexivity).
  apply (rest_run tss ss all (S (List.length all)) [St (SEcho [Ex (EString w) sp]) sp'] [St (SEcho [Ex (EString w) span_new]) span_new] 3); [exact F|exact L| |lia| |lia|reflexivity].
  - split; [lia|split; [exact E|right; exact A]].
  - apply (reach_S all _ [] 0); [apply reach_0|lia|exact X1].
Qed.
(** an opening tag with echo *)
Lemma echo_run tes es tss ss toks s1 : tes <> [] -> Forall2 Full tes es -> Forall2 Top tss ss -> Forall (fun t : tokspan => 2 <= sp_start (snd t)) toks -> map fst toks = commas tes ++ Kw KSemiColon :: List.concat tss ->
  exists l p, parse_top ((Kw KEcho, s1) :: toks) = POk l p /\ strip l = strip (St (SEcho es) span_new :: ss).
Proof.
  intros NE FE F A E. set (all := ((Kw KEcho, s1) :: toks) : list tokspan).
  assert (L : late2 all) by exact (late_skip 3 toks A).
  assert (H : here all 1 (commas tes ++ Kw KSemiColon :: List.concat tss)).
  { split; [rewrite <- E, map_length; reflexivity|split; [exact E|right; exact A]]. }
  pose proof (tops_len tss ss F) as N. assert (T : 1 + List.length (commas tes) + S (List.length (List.concat tss)) = List.length all) by (destruct H as [H _]; rewrite app_length in H; cbn in H; cbn; lia).
  destruct (reach_next all (S (List.length all)) [] [] 0 (1 + List.length (commas tes) + 1) (St (SEcho es) span_new)) as (acc & R & S1); [apply reach_0|lia|reflexivity| |].
  - assert (X : parse_top_statement all (PS all) 0 =
      (r <~ (l <~ parse_expression_list all (PE all) ;; pret (SEcho l)) ;; expect all KSemiColon ;~ en <~ prev_end all ;; pret (St r (mk_span (sp_start s1) en))) 1).
    { change (parse_top_statement all (PS all) 0) with (PS all 0). rewrite PS_eq. generalize (PE all). generalize (PS all). intros ps pe. reflexivity. }
    unfold wpx. rewrite X. change (wpx (r <~ (l <~ parse_expression_list all (PE all) ;; pret (SEcho l)) ;; expect all KSemiColon ;~ en <~ prev_end all ;; pret (St r (mk_span (sp_start s1) en))) 1
      (fun r q => q = 1 + List.length (commas tes) + 1 /\ strip_stmt r = strip_stmt (St (SEcho es) span_new)) nofail).
    px1 L. px1 L. eapply wpx_use; [apply (expression_list_run tes es NE FE all L _ _ H); reflexivity|].
    intros r q (A1 & A2 & A3). px L. pose proof (here_same _ _ _ _ _ H A1) as Q. split; [lia|strips].
  - apply (rest_run tss ss all (S (List.length all)) acc [St (SEcho es) span_new] (1 + List.length (commas tes) + 1)); [exact F|exact L| |lia|exact R|lia|exact S1].
    apply here_app in H; [|exact L]. apply here_cons in H; [|exact L]. destruct H as (_ & H & _). replace (1 + List.length (commas tes) + 1) with (S (1 + List.length (commas tes))) by lia. exact H.
Qed.
(** HTML and then an opening tag with echo *)
Lemma html_echo_run tes es tss ss toks w s1 s2 s3 s4 : tes <> [] -> Forall2 Full tes es -> Forall2 Top tss ss -> Forall (fun t : tokspan => 2 <= sp_start (snd t)) toks -> map fst toks = commas tes ++ Kw KSemiColon :: List.concat tss ->
  exists l p, parse_top ((Kw KEcho, s1) :: (TCes w, s2) :: (Kw KSemiColon, s3) :: (Kw KEcho, s4) :: toks) = POk l p /\
    strip l = strip (St (SEcho [Ex (EString w) span_new]) span_new :: St (SEcho es) span_new :: ss).
Proof.
  intros NE FE F A E. set (all := ((Kw KEcho, s1) :: (TCes w, s2) :: (Kw KSemiColon, s3) :: (Kw KEcho, s4) :: toks) : list tokspan).
  assert (L : late2 all) by exact A. destruct (html_first w s1 s2 s3 ((Kw KEcho, s4) :: toks)) as (sp & sp' & X1). fold all in X1.
  assert (H : here all 4 (commas tes ++ Kw KSemiColon :: List.concat tss)).
  { split; [rewrite <- E, map_length; reflexivity|split; [exact E|right; exact A]]. }
  pose proof (tops_len tss ss F) as N. assert (T : 4 + List.length (commas tes) + S (List.length (List.concat tss)) = List.length all) by (destruct H as [H _]; rewrite app_length in H; cbn in H; cbn; lia).
  destruct (reach_next all (List.length all) [St (SEcho [Ex (EString w) sp]) sp'] [St (SEcho [Ex (EString w) span_new]) span_new] 3 (4 + List.length (commas tes) + 1) (St (SEcho es) span_new)) as (acc & R & S1).
  - apply (reach_S all _ [] 0); [apply reach_0|lia|exact X1].
  - lia.
  - reflexivity.
  - assert (X : parse_top_statement all (PS all) 3 =
      (r <~ (l <~ parse_expression_list all (PE all) ;; pret (SEcho l)) ;; expect all KSemiColon ;~ en <~ prev_end all ;; pret (St r (mk_span (sp_start s4) en))) 4).
    { change (parse_top_statement all (PS all) 3) with (PS all 3). rewrite PS_eq. generalize (PE all). generalize (PS all). intros ps pe. reflexivity. }
    unfold wpx. rewrite X. change (wpx (r <~ (l <~ parse_expression_list all (PE all) ;; pret (SEcho l)) ;; expect all KSemiColon ;~ en <~ prev_end all ;; pret (St r (mk_span (sp_start s4) en))) 4
      (fun r q => q = 4 + List.length (commas tes) + 1 /\ strip_stmt r = strip_stmt (St (SEcho es) span_new)) nofail).
    px1 L. px1 L. eapply wpx_use; [apply (expression_list_run tes es NE FE all L _ _ H); reflexivity|].
    intros r q (A1 & A2 & A3). px L. pose proof (here_same _ _ _ _ _ H A1) as Q. split; [lia|strips].
  - apply (rest_run tss ss all (List.length all) acc [St (SEcho [Ex (EString w) span_new]) span_new; St (SEcho es) span_new] (4 + List.length (commas tes) + 1)); [exact F|exact L| |lia|exact R|lia|exact S1].
    apply here_app in H; [|exact L]. apply here_cons in H; [|exact L]. destruct H as (_ & H & _). replace (4 + List.length (commas tes) + 1) with (S (4 + List.length (commas tes))) by lia. exact H.
Qed.
