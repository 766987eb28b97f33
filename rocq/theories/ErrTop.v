(** * ErrTop: broken programs are rejected where they break (proofs for C39 and C40) *)
From Verif Require Import SpecGrammar SpecErr.
From Verif Require Import Base Tokens Ast AstMap AstInd Lexer Parser Driver Spec SpecProg SpecMixed SpecRun ParserRel ParserFacts ParseRun ParseTac ParseExpr ParseStmt ParseDecl LexTotal LexInv LexBehind Emit Grammar GrammarAll GrammarTop ErrAt Stops StopsExpr GrammarErr.
From Coq Require Import String.
Local Open Scope list_scope.

(** ** The top level *)
Definition BadT (n : option token) (u : list token) : Prop :=
  (forall l, ahead n l -> u ++ l <> [] /\ stm_end (u ++ l)) /\
  forall toks, late2 toks -> forall p l, ahead n l -> here toks p (u ++ l) -> wpx (parse_top_statement toks (PS toks)) p no (fun e _ => here toks (err_pos e) l).
Lemma ahead_ne n (l : list token) : ahead n l -> n <> None -> l <> [].
Proof. intros <- H ->. apply H. reflexivity. Qed.
Lemma top_stmt_bad n c u : Bad n c u -> (u <> [] \/ n <> None) -> BadT n u.
Proof.
  intros B NE. split.
  - intros l N. split; [|eapply bad_follow; eauto]. destruct u; [|discriminate]. destruct NE as [NE|NE]; [congruence|]. cbn. eapply ahead_ne; eauto.
  - intros toks L p l N H. assert (X : hd_ok (fun t => negb (tok_in [KNamespace; KUse] t)) (u ++ l)).
    { destruct B as [[(t & r & -> & S)|(-> & _ & A)] _].
      - cbn [app hd_ok]. destruct t as [k| | | | | | | |]; auto. destruct k; auto; discriminate.
      - cbn [app]. apply (among_hd _ n l) in A; [|exact N]. revert A. apply tok_weak. reflexivity. }
    unfold parse_top_statement. px1 L. px1 L. use_no (proj2 B toks L p l N H). intros e q [E _]. exact E.
Qed.
Lemma top_namespace_bad n : no_name_next n -> BadT n [Kw KNamespace].
Proof.
  intros X. split; [intros l _; split; [discriminate|reflexivity]|]. intros toks L p l N H. assert (C := nstr_hd n l X N). cbn [app] in H.
  unfold parse_top_statement. kx L. unfold parse_namespace_name, lf. cbn [ns_fragments]. kx L. assumption.
Qed.
Lemma top_namespace_end_bad n fs : fs <> [] -> except [KSemiColon; KNsSeparator] n -> BadT n (Kw KNamespace :: frag_tokens fs).
Proof.
  intros NE X. split; [intros l _; split; [discriminate|reflexivity]|]. intros toks L p l N H. assert (C := except_hd _ n l X N). cbn [app] in H.
  unfold parse_top_statement. kx L. eapply wpx_use; [apply (namespace_run toks L fs _ _ NE HS); weak1 C|]. intros r q (A1 & A2). kx L. assumption.
Qed.
Lemma uses_bad n ts : BrokenUses n ts -> forall toks, late2 toks -> forall f acc p l, ahead n l -> here toks p (ts ++ l) -> List.length ts < f ->
  wpx (use_clauses toks f acc) p no (fun e _ => here toks (err_pos e) l).
Proof.
  induction 1 as [X Y|X|tn pa NM X|tu u ts U B IH]; intros toks L f acc p l N H K; (destruct f as [|f]; [cbn in K; lia|]); cbn [use_clauses].
  - assert (C := nstr_hd n l X N). assert (C2 := except_hd _ n l Y N). cbn [app] in H. kx L. unfold parse_namespace_name, lf. cbn [ns_fragments]. kx L. assumption.
  - assert (C := nstr_hd n l X N). cbn [app] in H. kx L. unfold parse_namespace_name, lf. cbn [ns_fragments]. kx L. assumption.
  - assert (C := nstr_hd n l X N). destruct (name_is_path _ _ NM) as (abs & fs & NE & -> & ->). unfold path_toks in H. rewrite abs_flag, <- !app_assoc in H. px1 L.
    destruct (frag_head fs ([Kw KAs] ++ l) NE) as (a & r & FH).
    eapply wpx_use; [apply (flag_run abs KNsSeparator toks p _ L H); rewrite FH; reflexivity|]. intros r' q1 (B1 & B2 & ->). px1 L.
    eapply wpx_use; [apply (namespace_run toks L fs q1 _ NE B1); reflexivity|]. intros r' q2 (D1 & D2). cbn [app] in D1. unfold expect_string. kx L. assumption.
  - apply use_clause_m in U as (abs & fs & ta & NE & -> & _ & TA). unfold path_toks in H. rewrite abs_flag, <- !app_assoc in H. cbn [app] in H. px1 L.
    rewrite !app_length in K. cbn [List.length] in K.
    destruct (frag_head fs (ta ++ Kw KComma :: ts ++ l) NE) as (a & r & FH).
    eapply wpx_use; [apply (flag_run abs KNsSeparator toks p _ L H); rewrite FH; reflexivity|]. intros r' q1 (B1 & B2 & ->). px1 L.
    eapply wpx_use; [apply (namespace_run toks L fs q1 _ NE B1); rewrite TA; destruct (uc_alias u); reflexivity|]. intros r' q2 (D1 & D2). px1 L.
    assert (Z : wpx (look toks KAs (fun _ => s <~ expect_string toks ;; pret (Some s)) (pret None)) q2 (fun r q => here toks q (Kw KComma :: ts ++ l)) nofail).
    { rewrite TA in D1. destruct (uc_alias u) as [s|]; cbn [app] in D1; [unfold expect_string|]; px L; assumption. }
    eapply wpx_use; [exact Z|]. intros al q3 E1. cbv beta in E1. cbv zeta. kx L. eapply wpx_mono; [apply (IH toks L f _ _ l N HS); lia|auto|auto].
Qed.
Lemma top_use_bad n ts : BrokenUses n ts -> BadT n (Kw KUse :: ts).
Proof.
  intros B. split; [intros l _; split; [discriminate|reflexivity]|]. intros toks L p l N H. cbn [app] in H.
  unfold parse_top_statement. kx L. eapply wpx_mono; [apply (uses_bad n ts B toks L (lf toks) [] _ l N HS)|intros ? ? []|auto].
  destruct HS as [Z _]. rewrite app_length in Z. unfold lf. lia.
Qed.
Lemma top_use_end_bad n tss us : tss <> [] -> Forall2 Use tss us -> except [KSemiColon; KComma; KAs; KNsSeparator] n -> BadT n (Kw KUse :: commas tss).
Proof.
  intros NE F X. split; [intros l _; split; [discriminate|reflexivity]|]. intros toks L p l N H. assert (C := except_hd _ n l X N). cbn [app] in H.
  unfold parse_top_statement. kx L. eapply wpx_use; [apply (clauses_list tss us toks _ _ NE F L HS); weak1 C|]. intros r q (A1 & A2). kx L. assumption.
Qed.
Lemma tops_bad n u tss ss : Forall2 Top tss ss -> BadT n u -> forall toks, late2 toks -> forall m acc p l, ahead n l -> here toks p (List.concat tss ++ u ++ l) -> List.length tss < m ->
  wpx (top_statements toks (PS toks) m acc) p no (fun e _ => here toks (err_pos e) l).
Proof.
  intros F U. induction F as [|ts s tss ss T F IH]; intros toks L m acc p l N H M; (destruct m as [|m]; [cbn in M; lia|]); cbn [top_statements]; px1 L; px1 L; cbn [List.concat app] in H.
  - destruct (proj1 U l N) as [NE _]. destruct (Nat.ltb_spec p (List.length toks)) as [X|X].
    + px1 L. use_no (proj2 U toks L p l N H). auto.
    + destruct H as [H _]. destruct (u ++ l); [congruence|cbn in H; lia].
  - rewrite <- app_assoc in H. destruct (top_start ts s T) as (t & r & E & _). assert (X : p < List.length toks) by (destruct H as [H _]; rewrite E in H; cbn in H; lia).
    destruct (Nat.ltb_spec p (List.length toks)) as [_|Y]; [|lia]. px1 L.
    assert (SE : stm_end (List.concat tss ++ u ++ l)).
    { destruct F as [|ts2 s2 tss ss T2 F2]; [apply (proj1 U l N)|]. cbn [List.concat]. destruct (top_start ts2 s2 T2) as (t2 & r2 & -> & E2). cbn. unfold stm_end, hd_ok. rewrite E2. reflexivity. }
    eapply wpx_use; [exact (top_run ts s toks p _ T L H SE)|]. intros a q (A1 & A2 & A3). cbv beta. apply (IH toks L m _ q l N A1). cbn in M. lia.
Qed.

Section Lost.
Context {Lost : part -> list token -> Prop}.
Hypothesis lost_block : forall u, Lost InBlock u -> Unf u.
Hypothesis lost_class : forall u, Lost InClass u -> UnfM u.
Hypothesis lost_whole : forall n e u, Lost (AsWhole n e) u -> MWhole n u e.
Hypothesis lost_stmt : forall s u, Lost (AsStmt s) u -> StmC any u s /\ forall v, u <> Kw KEcho :: v.
Lemma top_bad n u : BrokenTop (Lost := Lost) n u -> BadT n u.
Proof.
  intros [c ts B NE|X|ns a X|ts X|ts l U X].
  - apply (top_stmt_bad n c); [|exact NE]. exact (proj1 (broken_bad lost_block lost_class lost_whole lost_stmt n) c ts B).
  - apply top_namespace_bad, X.
  - rewrite fragments_frag. apply top_namespace_end_bad; [apply snoc_ne|exact X].
  - apply top_use_bad, X.
  - destruct (use_clauses_m _ _ U) as (tss & NE & -> & F). eapply top_use_end_bad; eauto.
Qed.
Lemma empty_break n : BrokenTop (Lost := Lost) n [] -> among strays n.
Proof.
  intros B. inversion B as [c ts X NE E| | | |]; subst. destruct (proj1 (broken_bad lost_block lost_class lost_whole lost_stmt n) c [] X) as [[(t & r & E & _)|(_ & _ & A)] _]; [discriminate E|exact A].
Qed.
(** a broken statement that begins with [echo] *)
Definition echo_stops (n : option token) (v : list token) : Prop := WhsE n [KSemiColon; KComma] v.
Lemma echo_break n u v : BrokenTop (Lost := Lost) n u -> u = Kw KEcho :: v -> echo_stops n v.
Proof.
  intros [c ts B NE|X|ns a X|ts X|ts l U X] E; try discriminate E. inversion B; subst; cbn [app] in *; try discriminate; try (match goal with H : _ :: _ = _ :: _ |- _ => injection H; intros; subst end).
  all: match goal with
  | H : Unclosed _ _ (Kw KEcho :: _) |- _ => destruct (uncl lost_block lost_class lost_whole lost_stmt _ _ _ H) as ((_ & [Z|(_ & t & r & Z & W)]) & _); [discriminate Z|injection Z as <- _; discriminate W]
  | H : BrokenWholes _ _ _ |- _ => exact (proj1 (proj2 (proj2 (proj2 (brokenexpr_bad lost_block lost_class lost_whole lost_stmt n)))) _ _ H)
  | H : In (KEcho, _) jumps |- _ => cbn in H; repeat (destruct H as [H|H]; [discriminate H|]); destruct H
  | H : map class_modifier_token ?ms ++ _ = _ |- _ => destruct ms as [|m ms]; [discriminate|]; injection H as H _; destruct m; discriminate H
  | _ => idtac end.
Qed.
Lemma echo_halted toks p sp n v l : late2 toks -> echo_stops n v -> ahead n l -> here toks (S p) (v ++ l) ->
  parse_top_statement toks (PS toks) p = (r <~ (l <~ parse_expression_list toks (PE toks) ;; pret (SEcho l)) ;; expect toks KSemiColon ;~ en <~ prev_end toks ;; pret (St r (mk_span (sp_start sp) en))) (S p) ->
  wpx (parse_top_statement toks (PS toks)) p no (fun e _ => here toks (err_pos e) l).
Proof.
  intros L B N H X. unfold wpx. rewrite X. change (wpx (r <~ (l <~ parse_expression_list toks (PE toks) ;; pret (SEcho l)) ;; expect toks KSemiColon ;~ en <~ prev_end toks ;; pret (St r (mk_span (sp_start sp) en))) (S p) no (fun e _ => here toks (err_pos e) l)).
  destruct B as (_ & F). px1 L. px1 L. unfold parse_expression_list. destruct (F toks L (lf toks) [] (S p) l N H) as [W _]; [destruct H as [Z _]; rewrite app_length in Z; unfold lf; lia|cbn; auto|].
  eapply wpx_mono; [exact W| |intros e q (S1 & _); exact S1]. intros r q (A1 & A2 & A4). kx L. assumption.
Qed.
Lemma tokens_break toks pre u rest : behind_tag toks -> map fst toks = pre ++ u ++ rest -> (pre = [] \/ exists l, Program (Lost := Lost) pre l) -> BrokenTop (Lost := Lost) (hd_error rest) u ->
  exists e p, parse_top toks = PErr e p /\ err_pos e = List.length (pre ++ u).
Proof.
  intros A E P B. apply top_bad in B. pose proof (late_all toks A) as L.
  assert (Q : exists tss ss, pre = List.concat tss /\ Forall2 Top tss ss).
  { destruct P as [->|(l & P)]; [exists [], []; auto|]. destruct (program_m lost_block lost_class lost_whole lost_stmt _ _ P) as (tss & _ & -> & F). eauto. }
  destruct Q as (tss & ss & -> & F).
  assert (H : here toks 0 (List.concat tss ++ u ++ rest)) by (split; [rewrite <- E, map_length; reflexivity|split; [exact E|right; exact A]]). clear A.
  pose proof (tops_len tss ss F) as N.
  assert (X : wpx (top_statements toks (PS toks) (lf toks) []) 0 no (fun e _ => here toks (err_pos e) rest)).
  { apply (tops_bad _ u tss ss F B toks L (lf toks) [] 0 rest eq_refl H). destruct H as [H _]. rewrite app_length in H. unfold lf. lia. }
  unfold parse_top, parse_top_statement_list. unfold PS in X.
  destruct toks as [|t0 toks'].
  - destruct (proj1 B rest eq_refl) as [Y _]. cbn in E. symmetry in E. apply app_eq_nil in E as [_ E]. contradiction.
  - set (toks := t0 :: toks') in *. revert X. unfold wpx. destruct (top_statements toks _ (lf toks) [] 0) as [l q|e q|?|]; try contradiction. intros [Y _]. exists e, q. split; [reflexivity|].
    destruct H as [H _]. rewrite !app_length in *. lia.
Qed.
(** ... whose first statements stand at the very beginning of the source *)
Lemma rest_break toks n acc k l : reach toks n acc k -> 0 < List.length toks -> wpx (top_statements toks (PS toks) n acc) k no (fun e _ => here toks (err_pos e) l) ->
  exists e p, parse_top toks = PErr e p /\ here toks (err_pos e) l.
Proof.
  intros R NE X. unfold wpx in X. rewrite <- (reach_run _ _ _ _ R) in X. unfold parse_top, parse_top_statement_list. fold (PS toks).
  destruct toks as [|t0 toks']; [cbn in NE; lia|]. destruct (top_statements (t0 :: toks') (PS (t0 :: toks')) (lf (t0 :: toks')) [] 0) as [? ?|e q|?|]; try contradiction. eauto.
Qed.
Lemma stop_here toks n acc k l : k < List.length toks -> wpx (parse_top_statement toks (PS toks)) k no (fun e _ => here toks (err_pos e) l) ->
  wpx (top_statements toks (PS toks) (S n) acc) k no (fun e _ => here toks (err_pos e) l).
Proof.
  intros K X. unfold wpx in *. cbn [top_statements]. unfold pbind at 1, pcatch at 1, getpos at 1. destruct (Nat.ltb_spec k (List.length toks)) as [_|W]; [|lia]. cbv iota.
  unfold pbind at 1, pcatch at 1. destruct (parse_top_statement toks (PS toks) k); try contradiction. exact X.
Qed.
Lemma echo_at_0 s1 toks : let all := ((Kw KEcho, s1) :: toks) : list tokspan in parse_top_statement all (PS all) 0 =
  (r <~ (l <~ parse_expression_list all (PE all) ;; pret (SEcho l)) ;; expect all KSemiColon ;~ en <~ prev_end all ;; pret (St r (mk_span (sp_start s1) en))) 1.
Proof. intros all. change (parse_top_statement all (PS all) 0) with (PS all 0). rewrite PS_eq. generalize (PE all). generalize (PS all). intros ps pe. reflexivity. Qed.
Lemma echo_at_3 t1 t2 t3 s4 toks : let all := (t1 :: t2 :: t3 :: (Kw KEcho, s4) :: toks) : list tokspan in parse_top_statement all (PS all) 3 =
  (r <~ (l <~ parse_expression_list all (PE all) ;; pret (SEcho l)) ;; expect all KSemiColon ;~ en <~ prev_end all ;; pret (St r (mk_span (sp_start s4) en))) 4.
Proof. intros all. change (parse_top_statement all (PS all) 3) with (PS all 3). rewrite PS_eq. generalize (PE all). generalize (PS all). intros ps pe. reflexivity. Qed.
Lemma echo_done toks p sp tes es l : late2 toks -> tes <> [] -> Forall2 Full tes es -> here toks (S p) (commas tes ++ Kw KSemiColon :: l) ->
  parse_top_statement toks (PS toks) p = (r <~ (l <~ parse_expression_list toks (PE toks) ;; pret (SEcho l)) ;; expect toks KSemiColon ;~ en <~ prev_end toks ;; pret (St r (mk_span (sp_start sp) en))) (S p) ->
  exists r q, parse_top_statement toks (PS toks) p = POk r q /\ here toks q l.
Proof.
  intros L NE F H X. set (m := (r <~ (l <~ parse_expression_list toks (PE toks) ;; pret (SEcho l)) ;; expect toks KSemiColon ;~ en <~ prev_end toks ;; pret (St r (mk_span (sp_start sp) en)))) in *.
  assert (W : wpx m (S p) (fun _ q => here toks q l) nofail).
  { unfold m. px1 L. px1 L. eapply wpx_use; [apply (expression_list_run tes es NE F toks L _ _ H); reflexivity|]. intros r q (A1 & A2 & A3). px L. assumption. }
  rewrite X. unfold wpx in W. destruct (m (S p)) as [r q|? ?|?|]; try contradiction. eauto.
Qed.
Lemma next_ends tss ss n u l : Forall2 Top tss ss -> BadT n u -> ahead n l -> stm_end (List.concat tss ++ u ++ l).
Proof.
  intros F U N. destruct F as [|ts s tss ss T F]; [exact (proj2 (proj1 U l N))|]. cbn [List.concat]. destruct (top_start ts s T) as (t & r & -> & E). cbn. unfold stm_end, hd_ok. rewrite E. reflexivity.
Qed.
(** HTML is a statement: nothing breaks in it *)
Lemma html_whole n u l w r : BadT n u -> ahead n l -> u ++ l = Kw KEcho :: TCes w :: Kw KSemiColon :: r -> False.
Proof.
  intros U N E. destruct (placed_here (u ++ l)) as [L H]. pose proof (proj2 U _ L 0 l N H) as X. rewrite E in X. unfold wpx in X. cbn [map] in X.
  destruct (html_first w (mk_span 2 2) (mk_span 2 2) (mk_span 2 2) (map (fun t => (t, mk_span 2 2)) r)) as (a & b & Y). rewrite Y in X. exact X.
Qed.
Lemma opening_break toks pre u rest : opening toks -> map fst toks = pre ++ u ++ rest -> (pre = [] \/ exists l, Program (Lost := Lost) pre l) -> BrokenTop (Lost := Lost) (hd_error rest) u ->
  exists e p, parse_top toks = PErr e p /\ err_pos e = List.length (pre ++ u).
Proof.
  intros O E P B. pose proof (top_bad _ _ B) as U.
  assert (LE := f_equal (@List.length _) E). rewrite map_length, !app_length in LE.
  cut (exists e p, parse_top toks = PErr e p /\ here toks (err_pos e) rest).
  { intros (e & p & X & H & _). exists e, p. split; [exact X|]. rewrite app_length. unfold tokspan in *. lia. }
  assert (NP : forall q l, Program (Lost := Lost) q l -> q <> []).
  { intros q l Q ->. destruct (program_m lost_block lost_class lost_whole lost_stmt _ _ Q) as (tss & NE & Y & F). destruct F as [|t s tss ss T F]; [congruence|]. destruct (top_start t s T) as (x & y & -> & _). discriminate Y. }
  assert (NR : forall v, u ++ rest = Kw KEcho :: v -> exists v', u = Kw KEcho :: v' /\ v = v' ++ rest).
  { intros v Y. destruct u as [|t v']; [|injection Y as -> <-; eauto]. cbn [app] in Y. pose proof (empty_break _ B) as Z. rewrite Y in Z. cbn in Z. repeat (destruct Z as [Z|Z]; [discriminate Z|]). destruct Z. }
  destruct O as (ini & r0 & -> & A & [->|[(a & ->)|[(w & a & ->)|(w & a & b & ->)]]]); cbn [app map fst] in *.
  - destruct (tokens_break r0 pre u rest A E P B) as (e & p & X & Y). exists e, p. split; [exact X|]. rewrite Y. split; [rewrite app_length; unfold tokspan in *; lia|]. split; [|right; apply late_skip, A].
    rewrite <- skipn_map. unfold tokspan in *. rewrite E, app_assoc, skipn_app, skipn_all, Nat.sub_diag. reflexivity.
  - set (all := ((Kw KEcho, a) :: r0) : list tokspan) in *. assert (L : late2 all) by exact (late_skip 3 r0 A).
    assert (H0 : forall l, map fst r0 = l -> here all 1 l) by (intros l <-; split; [rewrite map_length; reflexivity|split; [reflexivity|right; exact A]]).
    destruct P as [->|(l & P)].
    + destruct (NR _ (eq_sym E)) as (v & -> & Y). apply (rest_break all (lf all) [] 0 rest (reach_0 all)); [cbn; lia|]. unfold lf. apply stop_here; [cbn; lia|].
      apply (echo_halted all 0 a _ v rest L (echo_break _ _ _ B eq_refl) eq_refl (H0 _ Y) (echo_at_0 a r0)).
    + destruct pre as [|t pre]; [destruct (NP _ _ P eq_refl)|]. injection E as <- E.
      destruct (program_echo lost_block lost_class lost_whole lost_stmt _ _ _ P eq_refl) as (tes & es & tss & ss & N & F & T & -> & ->). rewrite <- app_assoc in E. cbn [app] in E.
      destruct (echo_done all 0 a tes es _ L N F (H0 _ E) (echo_at_0 a r0)) as (r & q & X & H). pose proof (tops_len tss ss T) as TL.
      apply (rest_break all (S (List.length all)) ([] ++ [r]) q rest); [apply (reach_S all _ [] 0); [apply reach_0|cbn; lia|exact X]|cbn; lia|].
      apply (tops_bad _ u tss ss T U all L _ _ q rest eq_refl H). destruct H as [H _]. rewrite app_length in H. lia.
  - set (all := ((Kw KEcho, a) :: (TCes w, a) :: (Kw KSemiColon, a) :: r0) : list tokspan) in *. assert (L : late2 all) by exact (late_skip 1 r0 A).
    destruct (html_first w a a a r0) as (sp & sp' & X1). fold all in X1.
    destruct P as [->|(l & P)]; [destruct (html_whole _ u rest w _ U eq_refl (eq_sym E))|].
    destruct (program_m lost_block lost_class lost_whole lost_stmt _ _ P) as (tss & NE & -> & F). destruct F as [|t1 s tss ss T F]; [congruence|]. cbn [List.concat] in E. rewrite <- app_assoc in E.
    destruct (html_top t1 s w _ _ T (next_ends tss ss _ u rest F U eq_refl) (eq_sym E)) as [-> _]. injection E as E. pose proof (tops_len tss ss F) as TL.
    assert (H : here all 3 (List.concat tss ++ u ++ rest)) by (split; [rewrite <- E, map_length; reflexivity|split; [exact E|right; exact A]]).
    apply (rest_break all (S (List.length all)) ([] ++ [St (SEcho [Ex (EString w) sp]) sp']) 3 rest); [apply (reach_S all _ [] 0); [apply reach_0|cbn; lia|exact X1]|cbn; lia|].
    apply (tops_bad _ u tss ss F U all L _ _ 3 rest eq_refl H). destruct H as [H _]. rewrite app_length in H. lia.
  - set (all := ((Kw KEcho, a) :: (TCes w, a) :: (Kw KSemiColon, a) :: (Kw KEcho, b) :: r0) : list tokspan) in *. assert (L : late2 all) by exact A.
    destruct (html_first w a a a ((Kw KEcho, b) :: r0)) as (sp & sp' & X1). fold all in X1.
    assert (H0 : forall l, map fst r0 = l -> here all 4 l) by (intros l <-; split; [rewrite map_length; reflexivity|split; [reflexivity|right; exact A]]).
    assert (R1 : reach all (S (List.length all)) ([] ++ [St (SEcho [Ex (EString w) sp]) sp']) 3) by (apply (reach_S all _ [] 0); [apply reach_0|cbn; lia|exact X1]).
    destruct P as [->|(l & P)]; [destruct (html_whole _ u rest w _ U eq_refl (eq_sym E))|].
    assert (Q : (pre = [Kw KEcho; TCes w; Kw KSemiColon] /\ Kw KEcho :: map fst r0 = u ++ rest) \/
      exists tl l', Program (Lost := Lost) tl l' /\ Kw KEcho :: map fst r0 = tl ++ u ++ rest).
    { destruct P as [t1 s T|t1 s tl l T P].
      - destruct (html_top t1 s w (u ++ rest) _ (top_m lost_block lost_class lost_whole lost_stmt _ _ T) (proj2 (proj1 U rest eq_refl)) (eq_sym E)) as [-> _]. injection E as E. left. auto.
      - destruct (program_m lost_block lost_class lost_whole lost_stmt _ _ P) as (tss & NE & Y & F). rewrite <- app_assoc in E.
        assert (SE : stm_end (tl ++ u ++ rest)) by (rewrite Y; exact (next_ends tss l _ u rest F U eq_refl)).
        destruct (html_top t1 s w (tl ++ u ++ rest) _ (top_m lost_block lost_class lost_whole lost_stmt _ _ T) SE (eq_sym E)) as [-> _]. injection E as E. right. eauto. }
    clear P E. destruct Q as [(-> & E)|(tl & l' & P & E)].
    + destruct (NR _ (eq_sym E)) as (v & -> & Y). apply (rest_break all _ _ 3 rest R1); [cbn; lia|]. apply stop_here; [cbn; lia|].
      apply (echo_halted all 3 b _ v rest L (echo_break _ _ _ B eq_refl) eq_refl (H0 _ Y) (echo_at_3 _ _ _ b r0)).
    + destruct tl as [|t tl]; [destruct (NP _ _ P eq_refl)|]. injection E as <- E.
      destruct (program_echo lost_block lost_class lost_whole lost_stmt _ _ _ P eq_refl) as (tes & es & tss & ss & N & F & T & -> & ->). rewrite <- app_assoc in E. cbn [app] in E.
      destruct (echo_done all 3 b tes es _ L N F (H0 _ E) (echo_at_3 _ _ _ b r0)) as (r & q & X & H). pose proof (tops_len tss ss T) as TL.
      apply (rest_break all (List.length all) (([] ++ [St (SEcho [Ex (EString w) sp]) sp']) ++ [r]) q rest); [apply (reach_S all _ _ 3); [exact R1|cbn; lia|exact X]|cbn; lia|].
      apply (tops_bad _ u tss ss T U all L _ _ q rest eq_refl H). destruct H as [H _]. rewrite app_length in H.
      assert (Z : List.length all = 4 + List.length r0) by reflexivity. assert (Z2 := f_equal (@List.length _) E). rewrite map_length, !app_length in Z2. cbn [List.length] in Z2. rewrite !app_length in Z2. unfold tokspan in *. lia.
Qed.
End Lost.

(** ** Sources *)
Lemma spans_filter ts : visible_spans ts = filter_tokens ts.
Proof.
  induction ts as [|[t sp] ts IH]; [reflexivity|]. change (filter_tokens ((t, sp) :: ts)) with (filter_token (t, sp) ++ filter_tokens ts). rewrite <- IH.
  change (visible_spans ((t, sp) :: ts)) with (map (fun x => (x, sp)) (visible t) ++ visible_spans ts). f_equal.
  destruct t as [k| | | | | | | |]; try reflexivity. destruct k; reflexivity.
Qed.
Lemma source_breaks src f ts s pre u rest : tokenize f src = DOk (ts, s) -> breaks (flat_map visible (map fst ts)) pre u rest ->
  exists e, parse_str f src = DErr e /\ reported_at ts (List.length (pre ++ u)) e.
Proof.
  intros E (V & P & B).
  assert (M : map fst (filter_tokens ts) = pre ++ u ++ rest) by (rewrite <- V; etransitivity; [apply filter_sees|reflexivity]).
  destruct (opening_break strict_block strict_class strict_whole strict_stmt _ pre u rest (opening_source src f ts s E) M P B) as (pe & q & X & Y).
  pose proof (tokenize_run src f f [] tst_init (reached_start _) (Forall_nil _)) as G. unfold tokenize in E. rewrite E in G. destruct G as [R _].
  unfold parse_str, tokenize. rewrite E. unfold parse_tokens. rewrite X. unfold reported_at. rewrite spans_filter, Y.
  assert (Z : forall a b x, exists e, mk_serror (lines s) (blen src) a b x None = DErr e /\ se_syntax e = None /\ se_start e = a /\ se_end e = b).
  { intros a b x. unfold mk_serror. destruct (lookup_works src s b R) as (line & la & lb & A1 & A2 & A3 & _). rewrite A1, A3. eexists. split; [reflexivity|]. auto. }
  destruct (nth_error (filter_tokens ts) (List.length (pre ++ u))) as [t|] eqn:N.
  - destruct (Z (sp_start (snd t)) (sp_end (snd t)) pe) as (e & -> & S1 & S2 & S3). exists e. auto.
  - apply nth_error_None in N. assert (LE := f_equal (@List.length _) M). rewrite map_length, !app_length in LE. rewrite app_length in N.
    destruct (List.length (filter_tokens ts)) as [|i] eqn:LI.
    { unfold parse_top, parse_top_statement_list in X. destruct (filter_tokens ts); [discriminate X|discriminate LI]. }
    assert (K : List.length (pre ++ u) - 1 = i) by (rewrite app_length; unfold tokspan in *; lia). rewrite K. destruct (nth_error (filter_tokens ts) i) as [t|] eqn:N2; [|apply nth_error_None in N2; unfold tokspan in *; lia].
    destruct (Z (sp_end (snd t)) (sp_end (snd t) + 1) pe) as (e & -> & S1 & S2 & S3). exists e. split; [reflexivity|]. split; [exact S1|]. exists t. auto.
Qed.
Lemma lost_tokens k toks l : behind_tag toks -> Program (Lost := lost k) (map fst toks) l -> exists l' p, parse_top toks = POk l' p /\ strip l' = strip l.
Proof. destruct (safe_lost k) as (? & ? & ? & ?). apply tokens_parse; assumption. Qed.
Lemma lost_source k src all l : tokens_of src all -> Program (Lost := lost k) (flat_map visible all) l -> parses_to src l.
Proof. destruct (safe_lost k) as (? & ? & ? & ?). apply source_grammar; assumption. Qed.
Lemma cut_tokens k toks l : behind_tag toks -> Program (Lost := cut_expressions k) (map fst toks) l -> exists l' p, parse_top toks = POk l' p /\ strip l' = strip l.
Proof. destruct (safe_cut k) as (? & ? & ? & ?). apply tokens_parse; assumption. Qed.
Lemma cut_source k src all l : tokens_of src all -> Program (Lost := cut_expressions k) (flat_map visible all) l -> parses_to src l.
Proof. destruct (safe_cut k) as (? & ? & ? & ?). apply source_grammar; assumption. Qed.
Lemma tokens_break_strict toks pre u rest : behind_tag toks -> breaks (map fst toks) pre u rest -> exists e p, parse_top toks = PErr e p /\ err_pos e = List.length (pre ++ u).
Proof. intros A (E & P & B). eapply (tokens_break strict_block strict_class strict_whole strict_stmt); eauto. Qed.
Lemma app_same {A} (a b c d : list A) : a ++ b = c ++ d -> List.length a = List.length c -> b = d /\ a = c.
Proof. revert c. induction a as [|x a IH]; intros [|y c] E L; try discriminate L; [auto|]. injection E as <- E. injection L as L. destruct (IH c E L) as [-> ->]. auto. Qed.
(** a broken beginning belongs to no program, and breaks at one place only *)
Lemma some_toks ts : exists toks : list tokspan, behind_tag toks /\ map fst toks = ts.
Proof.
  exists (map (fun t => (t, mk_span 2 2)) ts). split; [|rewrite map_map; apply map_id].
  apply Forall_forall. intros t I. apply in_map_iff in I as (x & <- & _). cbn. lia.
Qed.
Lemma broken_no_program ts pre u rest l : breaks ts pre u rest -> ~ Program (Lost := strict) ts l.
Proof.
  intros B P. destruct (some_toks ts) as (toks & T & <-). destruct (tokens_break_strict toks pre u rest T B) as (e & p & X & _).
  destruct (tokens_parse strict_block strict_class strict_whole strict_stmt toks l T P) as (l' & q & Y & _). congruence.
Qed.
Lemma broken_once ts pre u rest pre' u' rest' : breaks ts pre u rest -> breaks ts pre' u' rest' -> rest = rest' /\ pre ++ u = pre' ++ u'.
Proof.
  intros B B'. destruct (some_toks ts) as (toks & T & M). rewrite <- M in B, B'. destruct (tokens_break_strict toks pre u rest T B) as (e & p & X & L).
  destruct (tokens_break_strict toks pre' u' rest' T B') as (e' & q & X' & L'). assert (E : List.length (pre ++ u) = List.length (pre' ++ u')) by congruence.
  destruct B as (Z & _), B' as (Z' & _). rewrite Z in Z'. rewrite !app_assoc in Z'. apply app_same; assumption.
Qed.
