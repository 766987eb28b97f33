(** * StopsMember: broken properties, constants and lists of variables (C39) *)
From Verif Require Import SpecGrammar SpecErr.
From Verif Require Import Base Tokens Ast AstMap AstInd Lexer Parser Driver Wp Spec SpecProg ParserTermination ParserMono ParserRel ParserFacts ParseRun ParseTac ParseExpr ParseStmt ParseDecl Grammar GrammarAll ErrAt Stops StopsExpr.
From Coq Require Import String.
Local Open Scope list_scope.

(** ** Properties and constants *)
Definition VrsE (n : option token) (ts : list token) : Prop := (exists x r, ts = TVariable x :: r) /\
  forall toks, late2 toks -> forall f mm acc p l, ahead n l -> here toks p (ts ++ l) -> List.length ts < f ->
  wpx (class_props toks (PE toks) f mm acc) p (fun _ q => here toks q l /\ p < q /\ hd_ok (fun t => negb (tok_in [KSemiColon] t)) l) (stop true toks l).
Definition CnsE (n : option token) (ts : list token) : Prop :=
  forall toks, late2 toks -> forall f mm acc p l, ahead n l -> here toks p (ts ++ l) -> List.length ts < f ->
  wpx (class_consts toks (PE toks) f mm acc) p (fun _ q => here toks q l /\ p < q /\ hd_ok (fun t => negb (tok_in [KSemiColon] t)) l) (stop true toks l).
Lemma vrs_name n x : except [KEqual; KSemiColon; KComma] n -> VrsE n [TVariable x].
Proof.
  intros X. split; [eauto|]. intros toks L f mm acc p l N H K. destruct f as [|f]; [cbn in K; lia|]. assert (C := except_hd _ n l X N). cbn [app] in H. cbn [class_props]. unfold expect_var.
  kx L. split; [assumption|]. split; [lia|weak1 C].
Qed.
Lemma vrs_value n x ts : UncE n [KSemiColon; KComma] ts -> VrsE n (TVariable x :: Kw KEqual :: ts).
Proof.
  intros (_ & U). split; [eauto|]. intros toks L f mm acc p l N H K. destruct f as [|f]; [cbn in K; lia|]. cbn [app] in H. cbn [class_props]. unfold expect_var.
  next_here L. next_here L. do 4 px1 L. px1 L. px1 L. eapply wpx_mono; [exact (U toks L _ l N HS0)| |intros e q A; exact A].
  intros e q (A1 & A2 & A4). kx L. split; [assumption|]. split; [lia|weak1 A4].
Qed.
Lemma vrs_comma n x ti o ts : Init ti o -> (forall toks, late2 toks -> forall f mm acc p l, ahead n l -> here toks p (ts ++ l) -> List.length ts < f ->
    wpx (class_props toks (PE toks) f mm acc) p (fun _ q => here toks q l /\ p < q /\ hd_ok (fun t => negb (tok_in [KSemiColon] t)) l) (stop true toks l)) ->
  VrsE n (TVariable x :: ti ++ Kw KComma :: ts).
Proof.
  intros I U. split; [eauto|]. intros toks L f mm acc p l N H K. destruct f as [|f]; [cbn in K; lia|]. apps H. cbn [class_props]. unfold expect_var.
  next_here L. do 4 px1 L. eapply wpx_use; [apply (init_run ti o toks _ _ I L HS); reflexivity|]. intros d q (A1 & A2 & A3). next_here L. px1 L.
  assert (K2 : List.length ts < f) by (cbn in K; rewrite app_length in K; cbn in K; lia).
  eapply wpx_mono; [exact (U toks L f mm _ _ l N HS0 K2)| |intros e q' A; exact A]. intros r q' (B1 & B2 & B3). split; [assumption|]. split; [lia|assumption].
Qed.
Lemma vrs_next n x ti o : Init ti o -> no_var_next n -> VrsE n (TVariable x :: ti ++ [Kw KComma]).
Proof.
  intros I X. apply (vrs_comma n x ti o [] I). intros toks L f mm acc p l N H K. destruct f as [|f]; [cbn in K; lia|]. assert (C := nvar_hd n l X N). cbn [app] in H.
  cbn [class_props]. unfold expect_var. kx L. fin.
Qed.
Lemma vrs_more n x ti o ts : Init ti o -> VrsE n ts -> VrsE n (TVariable x :: ti ++ Kw KComma :: ts).
Proof. intros I (_ & U). exact (vrs_comma n x ti o ts I U). Qed.

Lemma nword_hd n l : no_word_next n -> ahead n l -> hd_ok (fun t => match t with TString _ => false | Kw k => negb (is_reserved_non_modifier k) | _ => true end) l.
Proof.
  intros A <-. destruct l as [|t l]; cbn in *; auto. destruct t as [k| | | | | | | |]; auto.
  destruct (is_reserved_non_modifier k) eqn:E; [|reflexivity]. exfalso. apply A. clear - E. destruct k; try discriminate E; vm_compute; tauto.
Qed.
Lemma ident_lt t s : Ident t s -> forall toks, late2 toks -> forall p l, here toks p (t :: l) ->
  wpx (parse_identifier toks) p (fun r q => q = S p) nofail.
Proof. intros I toks L p l H. eapply wpx_use; [exact (ident_str_run t s toks _ _ I L H)|]. intros r q (A & _). exact A. Qed.
Lemma cns_name n t s : Ident t s -> except [KEqual] n -> CnsE n [t].
Proof.
  intros I X toks L f mm acc p l N H K. destruct f as [|f]; [cbn in K; lia|]. assert (C := except_hd _ n l X N). cbn [app] in H. cbn [class_consts].
  next_here L. px1 L. eapply wpx_use; [exact (ident_lt t s I toks L _ _ H)|]. intros r q ->. kx L. fin.
Qed.
Lemma cns_value n t s ts : Ident t s -> UncE n [KSemiColon; KComma] ts -> CnsE n (t :: Kw KEqual :: ts).
Proof.
  intros I (_ & U) toks L f mm acc p l N H K. destruct f as [|f]; [cbn in K; lia|]. cbn [app] in H. cbn [class_consts].
  next_here L. px1 L. eapply wpx_use; [exact (ident_lt t s I toks L _ _ H)|]. intros r q ->. next_here L. px1 L. px1 L. px1 L.
  eapply wpx_mono; [exact (U toks L _ l N HS0)| |intros e q A; exact A].
  intros e q (A1 & A2 & A4). kx L. split; [assumption|]. split; [lia|weak1 A4].
Qed.
Lemma cns_comma n t s te e ts : Ident t s -> Full te e -> CnsE n ts -> CnsE n (t :: Kw KEqual :: te ++ Kw KComma :: ts).
Proof.
  intros I F U toks L f mm acc p l N H K. destruct f as [|f]; [cbn in K; lia|]. apps H. cbn [class_consts].
  next_here L. px1 L. eapply wpx_use; [exact (ident_lt t s I toks L _ _ H)|]. intros r q ->. next_here L. px1 L. px1 L. px1 L.
  eapply wpx_use; [apply (F toks L _ _ HS0); reflexivity|]. intros d q (A1 & A2 & A3 & A4). next_here L. px1 L.
  assert (K2 : List.length ts < f) by (cbn in K; rewrite app_length in K; cbn in K; lia).
  eapply wpx_mono; [exact (U toks L f mm _ _ l N HS1 K2)| |intros e' q' A; exact A]. intros r' q' (B1 & B2 & B3). split; [assumption|]. split; [lia|assumption].
Qed.
Lemma cns_none n : no_word_next n -> CnsE n [].
Proof.
  intros X toks L f mm acc p l N H K. destruct f as [|f]; [cbn in K; lia|]. assert (C := nword_hd n l X N). cbn [app] in H. cbn [class_consts]. unfold parse_identifier.
  px1 L. px1 L. destruct l as [|t l]; [kx L; fin|]. next_here L. px1 L. cbn in C. destruct t as [k| | | | | | | |]; try discriminate C; try (kx L; fin).
  apply negb_true_iff in C. rewrite C. kx L. fin.
Qed.
Lemma member_vars_broken n mm ts : VrsE n ts -> BadM n (mods_toks mm ++ ts).
Proof.
  intros ((x & r & ->) & U) toks L NE p l N H. unfold parse_class_statement, parse_member_modifiers. cbv zeta. rewrite <- !app_assoc in H. cbn [app] in H.
  assert (V := mods_novar mm _ (TVariable x) (r ++ l) eq_refl eq_refl). pose proof (mm_lt mm toks p _ H) as M. px1 L. px1 L.
  eapply wpx_use; [apply (mods_run mm toks L (lf toks) [] p _ H); [reflexivity|exact M]|]. intros r' q (A1 & A2 & ->). do 3 px1 L. px1 L.
  eapply wpx_mono; [apply (U toks L (lf toks) _ [] q l N A1)| |auto]; [destruct A1 as [A1 _]; cbn in *; rewrite app_length in A1; unfold lf; lia|].
  intros r' q' (B1 & B2 & B3). kx L. fin.
Qed.
Lemma member_consts_broken n mm ts : CnsE n ts -> BadM n (mods_toks mm ++ Kw KConst :: ts).
Proof.
  intros U toks L NE p l N H. unfold parse_class_statement, parse_member_modifiers. cbv zeta. rewrite <- !app_assoc in H. cbn [app] in H.
  assert (V := mods_novar mm _ (Kw KConst) (ts ++ l) eq_refl eq_refl). pose proof (mm_lt mm toks p _ H) as M. px1 L. px1 L.
  eapply wpx_use; [apply (mods_run mm toks L (lf toks) [] p _ H); [reflexivity|exact M]|]. intros r' q (A1 & A2 & ->). next_here L. do 3 px1 L. px1 L.
  eapply wpx_mono; [apply (U toks L (lf toks) _ [] (S q) l N HS)| |auto]; [destruct HS as [HS _]; cbn in *; rewrite app_length in HS; unfold lf; lia|].
  intros r' q' (B1 & B2 & B3). kx L. fin.
Qed.
Lemma vrs_none n : no_var_next n -> forall toks, late2 toks -> forall f mm acc p l, ahead n l -> here toks p l -> wpx (class_props toks (PE toks) (S f) mm acc) p no (stop true toks l).
Proof. intros X toks L f mm acc p l N H. assert (C := nvar_hd n l X N). cbn [class_props]. unfold expect_var. kx L. fin. Qed.
Lemma member_var n : no_var_next n -> BadM n [Kw KVar].
Proof.
  intros X toks L NE p l N H. cbn [app] in H. unfold parse_class_statement. cbv zeta. next_here L. px1 L. px1 L. use_no (vrs_none n X toks L (lf toks - 1) (member_modifiers_new [MPublic]) [] _ l N HS). auto.
Qed.
Lemma member_var_list n ts : VrsE n ts -> BadM n (Kw KVar :: ts).
Proof.
  intros (_ & U) toks L NE p l N H. cbn [app] in H. unfold parse_class_statement. cbv zeta. next_here L. px1 L. px1 L.
  eapply wpx_mono; [apply (U toks L (lf toks) _ [] (S p) l N HS)| |auto]; [destruct HS as [HS _]; cbn in *; rewrite app_length in HS; unfold lf; lia|].
  intros r' q' (B1 & B2 & B3). kx L. fin.
Qed.
(** ** Lists of names *)
Definition NmsE (n : option token) (ts : list token) : Prop :=
  forall toks, late2 toks -> forall f acc p l, ahead n l -> here toks p (ts ++ l) -> List.length ts < f -> wpx (name_list toks f acc) p no (stop true toks l).
Lemma nms_none n : no_name_next n -> except [KNsSeparator] n -> NmsE n [].
Proof.
  intros X Y toks L f acc p l N H K. destruct f as [|f]; [cbn in K; lia|]. assert (C := nname_hd n l X Y N). cbn [app] in H. cbn [name_list]. kx L. halt (name_halts toks L _ l H C). fin.
Qed.
Lemma nms_more n tn pa ts : Path tn pa -> NmsE n ts -> NmsE n (tn ++ Kw KComma :: ts).
Proof.
  intros (abs & fs & NF & -> & _) U toks L f acc p l N H K. destruct f as [|f]; [cbn in K; lia|]. apps H. cbn [name_list]. px1 L.
  eapply wpx_use; [apply (name_run toks L abs fs _ _ NF H); reflexivity|]. intros r q (A & _). next_here L. px1 L.
  apply (U toks L f _ _ l N HS). rewrite app_length in K. cbn in K. lia.
Qed.
Lemma nms_list n ts toks p l : NmsE n ts -> late2 toks -> ahead n l -> here toks p (ts ++ l) -> wpx (parse_name_list toks) p no (stop true toks l).
Proof. intros U L N H. apply (U toks L (lf toks) [] p l N H). destruct H as [H _]. rewrite app_length in H. unfold lf. lia. Qed.
Lemma member_use n ts : NmsE n ts -> BadM n (Kw KUse :: ts).
Proof.
  intros U toks L NE p l N H. cbn [app] in H. unfold parse_class_statement, parse_member_modifiers. cbv zeta. next_here L. px1 L. px1 L. unfold lf at 1. cbn [member_mods]. px L.
  use_no (nms_list n ts toks _ l U L N HS). auto.
Qed.
Lemma member_use_end n tss pas : tss <> [] -> Forall2 Path tss pas -> except [KSemiColon; KComma; KNsSeparator; KCurlyBracesOpen] n -> BadM n (Kw KUse :: commas tss).
Proof.
  intros NT F X toks L NE p l N H. assert (C := except_hd _ n l X N). cbn [app] in H. unfold parse_class_statement, parse_member_modifiers. cbv zeta. next_here L. px1 L. px1 L. unfold lf at 1. cbn [member_mods]. px L.
  eapply wpx_use; [apply (names_run tss pas toks _ _ NT F L HS); weak1 C|]. intros r q (A1 & A2 & _). kx L. fin.
Qed.
Lemma oo_extends n x : no_name_next n -> except [KNsSeparator] n -> BadO n OoClass [TString x; Kw KExtends].
Proof.
  intros X Y toks L NE p l N H B k. assert (C := nname_hd n l X Y N). cbn [app] in H. unfold expect_string. next_here L. next_here L. do 3 px1 L. px1 L. px1 L. px1 L.
  halt (name_halts toks L _ l HS0 C). fin.
Qed.
Lemma oo_implements n x te b ts : Base te b -> NmsE n ts -> BadO n OoClass (TString x :: te ++ Kw KImplements :: ts).
Proof.
  intros HB U toks L NE p l N H B k. apps H. unfold expect_string. next_here L. do 3 px1 L. px1 L.
  eapply wpx_use; [apply (base_run te b toks _ _ HB L HS); reflexivity|]. intros r q A1. cbv beta in A1. next_here L. px1 L. px1 L. use_no (nms_list n ts toks _ l U L N HS0). auto.
Qed.
Lemma oo_extends_list n x ts : NmsE n ts -> BadO n OoInterface (TString x :: Kw KExtends :: ts).
Proof.
  intros U toks L NE p l N H B k. apps H. unfold expect_string. next_here L. next_here L. do 3 px1 L. do 3 px1 L. px1 L. use_no (nms_list n ts toks _ l U L N HS0). auto.
Qed.
