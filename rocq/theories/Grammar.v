(** * Grammar: every sequence of tokens of the grammar in SpecGrammar is read as its tree *)
From Verif Require Import SpecGrammar.
From Verif Require Import Base Tokens Ast AstMap AstInd Lexer Parser Driver Spec SpecProg SpecRT SpecInterp ParserRel ParserFacts ParseRun ParseTac ParseExpr ParseStmt ParseDecl LexBase LexSteps LexTok LexWords LexNum LexMore LexFacts LexStr LexRun LexParse LexCrash Emit ProgNames RTBase RTExpr RTStmt Interp.
From Coq Require Import String.
Local Open Scope list_scope.

(** ** Trees only matter up to spans *)
Lemma same_strip a e e' : strip_expr e = strip_expr e' -> same a e -> same a e'.
Proof. intros E [H1 H2]. split; congruence. Qed.
Lemma vars_strip so ts e e' : strip_expr e = strip_expr e' -> VarS so ts e -> VarS so ts e'.
Proof.
  intros X [H1 H2]. split; [exact H1|]. intros toks L p l H R E K. apply (H2 toks L p l H R E). intros a q n A1 A2 A3 A4. apply K; auto. eapply same_strip; [exact X|exact A3].
Qed.
Lemma idx_strip v i : strip_expr (push_idx v i 0) = strip_expr (indexed v i).
Proof. destruct v as [n sp]. destruct n; reflexivity. Qed.
Lemma prop_strip v p : strip_expr (push_prop v p 0) = strip_expr (property v p).
Proof. destruct v as [n sp]. destruct n; reflexivity. Qed.
Lemma static_strip v p : strip_expr (push_static v p 0) = strip_expr (static_var v p).
Proof. destruct v as [n sp]. destruct n; reflexivity. Qed.

(** ** Expressions that reach as far as possible *)
Definition TailR (m : nat) (ts : list token) (e : expr) : Prop := forall toks, late2 toks -> forall prec p l, prec < m ->
  here toks p (ts ++ l) -> closing l -> wpx (PE toks prec) p (okq toks e p l) nofail.
Lemma chain_tail m f ts e : Chain m f ts e -> TailR m ts e.
Proof.
  intros Ch toks L prec p l M H C. apply (Ch toks L p l prec M H (closing_oplike l C) (closing_prec f l C)).
  intros a q n A1 A2 A3 A4. apply loop_stop with l; auto using closing_oplike, closing_prec; [lia|]. apply okq_i; auto.
Qed.
Lemma operand_tail m ts e : Operand closing ts e -> TailR m ts e.
Proof. intros O toks L prec p l _ H C. apply (operand_full closing ts e); auto. Qed.
Lemma tail_weak m m' ts e : m' <= m -> TailR m ts e -> TailR m' ts e.
Proof. intros LE T toks L prec p l M. apply T; [exact L|lia]. Qed.
Lemma tail_full m ts e : 0 < m -> TailR m ts e -> Full ts e.
Proof. intros M T toks L p l H C. apply (T toks L 0 p l M H C). Qed.
Lemma tail_bin ma fa mb x o k r ta a tb b : precedence k = Some x -> binop_of k = Some o -> assoc_right k = Some r -> 1 <= x ->
  x <= ma -> x <= fa -> right_bound r x < mb ->
  Chain ma fa ta a -> TailR mb tb b -> TailR x (ta ++ Kw k :: tb) (Ex (EBinary o a b) span_new).
Proof.
  intros P B A X1 X2 X3 X4 CA CB toks L prec p l PR H C.
  rewrite <- app_assoc in H. cbn [app] in H.
  apply (CA toks L p (Kw k :: tb ++ l) prec); [lia|exact H|eapply prec_oplike; eauto|cbn; rewrite P; lia|].
  intros a' q n A1 A2 A3 A4. destruct n as [|n]; [lia|]. cbn [binary_loop]. apply wpx_catch. unfold parse_binary_expression. px1 L.
  eapply (wpx_peek toks L); [exact A1|]. cbv beta iota. rewrite P. destruct (Nat.leb_spec x prec); [lia|]. destruct (binop_kind _ _ B) as [B1 B2].
  rewrite (binary_match k _ _ _ B1 B2). rewrite B, A. px L.
  assert (S1 : wpx (match r with true => psub x 1 | false => pret x end) (S q) (fun y q' => y = right_bound r x /\ q' = S q) nofail).
  { destruct r; px L; auto. }
  eapply wpx_use; [exact S1|]. intros y q' [-> ->]. px L.
  eapply wpx_use; [apply (CB toks L (right_bound r x) (S q) l X4); auto|].
  intros b' q2 (B3 & B4 & B5). px L. apply loop_stop with l; auto using closing_oplike, closing_prec.
  - cbn [List.length] in A4. lia.
  - apply okq_i; [exact B3|lia|]. apply same_bin; auto.
Qed.
(** what stands between [?] and [:] *)
Definition Mid (tt : list token) (th : option expr) : Prop := match th with Some t => TailR 5 tt t | None => tt = [] end.
Lemma mid_run tt th toks p l : Mid tt th -> late2 toks -> here toks p (tt ++ Kw KColon :: l) ->
  wpx (parse_opt_expression (PE toks) 4) p (fun o q2 => here toks q2 (Kw KColon :: l) /\ p <= q2 /\ option_map strip_expr o = option_map strip_expr th) nofail.
Proof.
  intros CT L HS. unfold parse_opt_expression. px1 L. destruct th as [t|].
  - cbn in CT. eapply wpx_use; [apply (CT toks L 4 _ _ ltac:(lia) HS); reflexivity|].
    intros b q2 (B1 & B2 & B3 & B4). px L. split; [auto|split; [lia|cbn; congruence]].
  - cbn in CT. subst tt. cbn [app] in HS. eapply wpx_mono; [apply (pe_fail toks 4 _ _ L HS); reflexivity|intros ? ? []|]. intros e' q' ->. px L. auto.
Qed.
Lemma chain_ternary2 mc fc me fe tc c tt th te e : 4 <= mc -> 4 <= fc -> 4 < me -> 4 <= fe -> Chain mc fc tc c -> Mid tt th -> Chain me fe te e ->
  Chain 4 4 (tc ++ Kw KQuestionMark :: tt ++ Kw KColon :: te) (Ex (ETernary c th e) span_new).
Proof.
  intros M1 F1 M2 F2 CC CT CE toks L p l prec PR H C PL R K. rewrite app_cons_assoc in H. rewrite <- app_assoc in H. cbn [app] in H.
  apply (CC toks L p _ prec ltac:(lia) H eq_refl); [cbn; lia|].
  intros a' q n A1 A2 [A3 A3'] A4. destruct n as [|n]; [lia|]. cbn [binary_loop]. apply wpx_catch. unfold parse_binary_expression. px L.
  cbn [precedence]. destruct (Nat.leb_spec 4 prec); [lia|]. px L.
  eapply wpx_use; [exact (mid_run tt th toks _ _ CT L HS)|]. intros o q2 (B1 & B2 & B3). px L.
  eapply wpx_use; [apply (chain_at me fe te e CE toks L 4 _ l M2 HS0 C); [eapply precle_weak; eauto|exact PL]|]. intros e' q3 (D1 & D2 & D3 & D4). px L.
  apply K; auto; [lia| |len_]. split; [|exact A3']. unfold strip_expr in *. cbn. congruence.
Qed.
Lemma tail_ternary mc fc me tc c tt th te e : 4 <= mc -> 4 <= fc -> 4 < me -> Chain mc fc tc c -> Mid tt th -> TailR me te e ->
  TailR 4 (tc ++ Kw KQuestionMark :: tt ++ Kw KColon :: te) (Ex (ETernary c th e) span_new).
Proof.
  intros M1 F1 M2 CC CT CE toks L prec p l PR H C. rewrite app_cons_assoc in H. rewrite <- app_assoc in H. cbn [app] in H.
  apply (CC toks L p _ prec ltac:(lia) H eq_refl); [cbn; lia|].
  intros a' q n A1 A2 [A3 A3'] A4. destruct n as [|n]; [lia|]. cbn [binary_loop]. apply wpx_catch. unfold parse_binary_expression. px L.
  cbn [precedence]. destruct (Nat.leb_spec 4 prec); [lia|]. px L.
  eapply wpx_use; [exact (mid_run tt th toks _ _ CT L HS)|]. intros o q2 (B1 & B2 & B3). px L.
  eapply wpx_use; [apply (CE toks L 4 _ l M2 HS0 C)|]. intros e' q3 (D1 & D2 & D3 & D4). px L.
  apply loop_stop with l; auto using closing_oplike, closing_prec; [cbn [List.length] in A4; lia|]. apply okq_i; [exact D1|lia|].
  split; [|exact A3']. unfold strip_expr in *. cbn. congruence.
Qed.
Lemma post_new_none tc x : ClsRef tc x -> Post oplike (Kw KNew :: tc) (Ex (ENew x []) span_new).
Proof.
  intros I. split; [eexists; eexists; split; reflexivity|]. intros toks L p l H C. cbn [app] in H.
  unfold parse_other_expression. px L. eapply wpx_use; [apply (clsref_run tc x toks _ _ I L HS); weak1 C|]. intros a q (A1 & A2 & A3 & A4).
  unfold oplike in C. px L. okk. split; [|cbn; lia]. unfold strip_expr in *. cbn. congruence.
Qed.

(** ** Array elements, with an optional comma behind them *)
Definition PairsR (ts : list token) (es : list (option expr * expr)) : Prop := forall toks, late2 toks -> forall p l, here toks p (ts ++ l) -> pairs_end l ->
  wpx (parse_array_pair_list toks (PE toks)) p (pairq toks es p l) nofail.
Lemma array_pairs_comma tss es : tss <> [] -> Forall2 Pair tss es -> forall toks, late2 toks -> forall n acc es0 p l, here toks p (commas tss ++ Kw KComma :: l) -> pairs_end l ->
  List.length tss < n -> map strip_pair acc = map strip_pair es0 -> wpx (array_pairs toks (PE toks) n acc) p (pairq toks (es0 ++ es) p l) nofail.
Proof.
  intros NE F. induction F as [|ts e tss es F1 F2 IH]; [contradiction|]. intros toks L n acc es0 p l H C LN SA. destruct n as [|n]; [cbn in LN; lia|]. cbn [array_pairs].
  destruct tss as [|b tss].
  + inversion F2; subst. cbn [commas] in H. unfold pairs_end in C.
    eapply (pair_run ts e toks (fun kv => let acc := acc ++ [kv] in look toks KComma (fun _ => array_pairs toks (PE toks) n acc) (pret acc))); eauto; [reflexivity|].
    intros a q A1 A2 A3. px L. destruct n as [|n]; [cbn in LN; lia|]. cbn [array_pairs]. px L.
    eapply wpx_mono; [apply (pe_fail toks PrNone _ l L HS); weak|intros ? ? []|]. intros e' q' ->. px L.
    split; auto. split; [lia|]. rewrite !map_app. cbn. congruence.
  + rewrite commas_cons in H.
    eapply (pair_run ts e toks (fun kv => let acc := acc ++ [kv] in look toks KComma (fun _ => array_pairs toks (PE toks) n acc) (pret acc))); eauto; [reflexivity|].
    intros a q A1 A2 A3. px L. eapply wpx_use; [apply (IH ltac:(discriminate) toks L n (acc ++ [a]) (es0 ++ [e]) (S q) l HS C)|].
    * cbn in *; lia.
    * rewrite !map_app. cbn. congruence.
    * intros r q' (B1 & B2 & B3). split; auto. split; [lia|]. rewrite <- app_assoc in B3. exact B3.
Qed.
Lemma pairs_none_r : PairsR [] [].
Proof. intros toks L p l H C. apply (pair_list_run [] []); auto. Qed.
Lemma pairs_some_r tss es (comma : bool) : tss <> [] -> Forall2 Pair tss es -> PairsR (commas tss ++ opt comma KComma) es.
Proof.
  intros NE F toks L p l H C. rewrite <- app_assoc in H. destruct comma; cbn [opt app] in H.
  - apply (array_pairs_comma tss es NE F toks L (lf toks) [] [] p l H C); auto.
    pose proof (pairs_len _ _ F). destruct H as [X _]. rewrite app_length in X. unfold lf. lia.
  - apply (pair_list_run tss es F toks L p l H C).
Qed.
Lemma var_array2 ts es : PairsR ts es -> Var (Kw KSquareBracketOpen :: ts ++ [Kw KSquareBracketClose]) (Ex (EArray es) span_new).
Proof.
  intros F. apply base_var; [exists (Kw KSquareBracketOpen); eexists; repeat split|]. intros toks L p l H.
  cbn [app] in H. rewrite <- app_assoc in H. cbn [app] in H. unfold parse_base_variable. px L.
  eapply wpx_mono; [apply (simple_fail toks p _ L H); reflexivity|intros ? ? []|]. intros e q ->. px L.
  unfold parse_dereferencable_scalar. px L. eapply wpx_use; [apply (F toks L _ _ HS); reflexivity|].
  intros r q (A1 & A2 & A3). px L. okk. apply same_array; auto. cbn. lia.
Qed.
Lemma var_array_word2 ts es : PairsR ts es -> Var (Kw KArray :: paren ts) (Ex (EArray es) span_new).
Proof.
  intros F. apply base_var; [exists (Kw KArray); eexists; repeat split|]. intros toks L p l H. unfold paren in H.
  cbn [app] in H. rewrite <- app_assoc in H. cbn [app] in H. unfold parse_base_variable. px L.
  eapply wpx_mono; [apply (simple_fail toks p _ L H); reflexivity|intros ? ? []|]. intros e q ->. px L.
  unfold parse_dereferencable_scalar. px L. eapply wpx_use; [apply (F toks L _ _ HS0); reflexivity|].
  intros r q (A1 & A2 & A3). px L. okk. apply same_array; auto. cbn. lia.
Qed.
Lemma list_assign2 ts es te e : PairsR ts es -> Full te e ->
  Post closing (Kw KList :: paren ts ++ Kw KEqual :: te) (Ex (EAssign (Ex (EList es) span_new) e) span_new).
Proof.
  intros F1 F2. split; [eexists; eexists; split; reflexivity|]. intros toks L p l H C. unfold paren in H. cbn [app] in H. rewrite <- !app_assoc in H. cbn [app] in H.
  eapply other_plain; eauto; [reflexivity|]. unfold parse_variable_expression. px1 L. eapply wpx_mono; [apply (var_fail toks p _ L H); reflexivity|intros ? ? []|]. intros x q ->. px L.
  eapply wpx_use; [apply (F1 toks L _ _ HS0); reflexivity|]. intros r q (A1 & A2 & A3). px L.
  eapply wpx_use; [apply (assign_run toks _ (Ex (EList es) span_new) te e KEqual OEq _ l L); auto; [|apply (full_no_amp te e F2)|apply (full_no_amp te e F2)]|].
  - split; [|cbn; lia]. unfold strip_expr. cbn. f_equal. f_equal. exact A3.
  - intros a q' (B1 & B2 & B3). okk. exact B3.
Qed.

(** ** Strings with variables *)
Definition text_free (st : encaps) (ts : list token) : Prop := text_first ts = true -> ec_str st = [].
Definition closer (k : kind) : Prop := k = KDoubleQuote \/ k = KHereDocEnd.
Definition PartsR (ts : list token) (es : list expr) : Prop :=
  hd_ok (fun t => behind_var t && negb (tok_in [KDoubleQuote] t)) ts /\ (es <> [] -> ts <> []) /\
  forall toks, late2 toks -> forall k n st p l, closer k -> here toks p (ts ++ Kw k :: l) -> ready st -> text_free st ts -> List.length ts < n ->
  wpx (encaps_loop toks (PE toks) n st) p (fun st' q => here toks q (Kw k :: l) /\ p <= q /\ ready st' /\ map strip_expr (finish st') = map strip_expr (finish st ++ es)) nofail.
Lemma parts_end ts es k l : closer k -> PartsR ts es -> var_end (ts ++ Kw k :: l).
Proof. intros K [H _]. destruct ts as [|t ts]; [destruct K as [-> | ->]; reflexivity|]. cbn in *. apply andb_prop in H. apply H. Qed.
Lemma parts_nil_r : PartsR [] [].
Proof.
  split; [exact Logic.I|]. split; [auto|]. intros toks L k n st p l K H R LF N. destruct n as [|n]; [inversion N|]. cbn [encaps_loop].
  cbn [app] in H. destruct K as [-> | ->]; (px L; eapply wpx_mono; [apply (var_fail toks p _ L H); reflexivity|intros ? ? []|]; intros e q ->; px L; rewrite app_nil_r; auto).
Qed.
Lemma parts_text_r s tl l : s <> [] -> text_first tl = false -> PartsR tl l -> PartsR (TCes s :: tl) (ex (EString s) :: l).
Proof.
  intros NE TF (P1 & P2 & P3). split; [reflexivity|]. split; [discriminate|]. intros toks L k n st p lr K H R LF N. destruct n as [|n]; [inversion N|]. cbn [encaps_loop].
  cbn [app] in H. px L. eapply wpx_use; [apply (P3 toks L k n _ _ lr K HS)|].
  - right. cbn. destruct (ec_start st); eauto.
  - intros X. congruence.
  - cbn in N. lia.
  - intros st' q (B1 & B2 & B3 & B4). split; [exact B1|]. split; [lia|]. split; [exact B3|]. rewrite B4. unfold finish. cbn [ec_parts ec_str]. rewrite (LF eq_refl). cbn [app].
    destruct s as [|c s]; [contradiction (NE eq_refl)|]. rewrite !app_nil_r, <- app_assoc. reflexivity.
Qed.
Lemma parts_var_r t ts e tl l : match t with TVariable _ => True | _ => False end -> Var (t :: ts) e -> PartsR tl l -> PartsR (t :: ts ++ tl) (e :: l).
Proof.
  intros T V P. split; [destruct t; try contradiction; reflexivity|]. split; [discriminate|]. pose proof P as (P1 & P2 & P3). intros toks L k n st p lr K H R LF N. destruct n as [|n]; [inversion N|]. cbn [encaps_loop].
  cbn [app] in H. rewrite <- app_assoc in H. destruct t as [| |v| | | | | |]; try contradiction. px L.
  eapply wpx_use; [apply (var_whole _ e V toks L p _ H (parts_end tl l k lr K P))|]. intros a q (B1 & B2 & B3 & B4). px1 L.
  eapply wpx_use; [apply flush_run; exact R|]. intros parts q' (-> & C). cbv beta.
  eapply wpx_use; [apply (P3 toks L k n _ _ lr K B1)|].
  - left. reflexivity.
  - intros _. reflexivity.
  - cbn in N. rewrite app_length in N. lia.
  - intros st' q' (D1 & D2 & D3 & D4). split; [exact D1|]. split; [lia|]. split; [exact D3|]. rewrite D4. unfold finish at 1. cbn [ec_parts ec_str]. rewrite app_nil_r, !map_app, C, <- app_assoc. cbn [map app]. rewrite B3. reflexivity.
Qed.
Lemma parts_code_r ts e tl l : Full ts e -> PartsR tl l -> PartsR (braces ts ++ tl) (e :: l).
Proof.
  intros F P. split; [reflexivity|]. split; [discriminate|]. pose proof P as (P1 & P2 & P3). intros toks L k n st p lr K H R LF N. destruct n as [|n]; [inversion N|]. cbn [encaps_loop].
  unfold braces in *. cbn [app] in H. rewrite <- !app_assoc in H. cbn [app] in H. px L.
  eapply wpx_use; [apply flush_run; exact R|]. intros parts q' (-> & C). cbv beta. px L.
  eapply wpx_use; [apply (F toks L _ _ HS); reflexivity|]. intros a q (B1 & B2 & B3 & B4). px L.
  eapply wpx_use; [apply (P3 toks L k n _ _ lr K HS0)|].
  - left. reflexivity.
  - intros _. reflexivity.
  - cbn in N. rewrite !app_length in N. cbn in N. lia.
  - intros st' q' (D1 & D2 & D3 & D4). split; [exact D1|]. split; [lia|]. split; [exact D3|]. rewrite D4. unfold finish at 1. cbn [ec_parts ec_str]. rewrite app_nil_r, !map_app, C, <- app_assoc. cbn [map app]. rewrite B3. reflexivity.
Qed.
Lemma parts_dollar_r x tl l : PartsR tl l -> PartsR (Kw KDollarCurlyBracesOpen :: TString x :: Kw KCurlyBracesClose :: tl) (ex (EVar (VName x)) :: l).
Proof.
  intros P. split; [reflexivity|]. split; [discriminate|]. pose proof P as (P1 & P2 & P3). intros toks L k n st p lr K H R LF N. destruct n as [|n]; [inversion N|]. cbn [encaps_loop].
  cbn [app] in H. px L. eapply wpx_use; [apply flush_run; exact R|]. intros parts q' (-> & C). cbv beta. unfold parse_identifier, parse_variable. px L.
  eapply (appendix_end toks _ _ _ _ _ _ L HS0); [reflexivity|pose proof (lf_gt toks _ _ HS0); lia|]. px L.
  eapply wpx_use; [apply (P3 toks L k n _ _ lr K HS1)|].
  - left. reflexivity.
  - intros _. reflexivity.
  - cbn in N. lia.
  - intros st' q' (D1 & D2 & D3 & D4). split; [exact D1|]. split; [lia|]. split; [exact D3|]. rewrite D4. unfold finish at 1. cbn [ec_parts ec_str]. rewrite app_nil_r, !map_app, C, <- app_assoc. cbn [map app]. reflexivity.
Qed.
Lemma parts_dollar_index_r x ti i tl l : Full ti i -> PartsR tl l ->
  PartsR (Kw KDollarCurlyBracesOpen :: TString x :: Kw KSquareBracketOpen :: ti ++ Kw KSquareBracketClose :: Kw KCurlyBracesClose :: tl) (ex (EArrayIdx (ex (EVar (VName x))) [Some i]) :: l).
Proof.
  intros F P. split; [reflexivity|]. split; [discriminate|]. pose proof P as (P1 & P2 & P3). intros toks L k n st p lr K H R LF N. destruct n as [|n]; [inversion N|]. cbn [encaps_loop].
  cbn [app] in H. rewrite <- !app_assoc in H. cbn [app] in H. px L. eapply wpx_use; [apply flush_run; exact R|]. intros parts q' (-> & C). cbv beta. unfold parse_identifier, parse_variable. px L.
  pose proof (lf_gt toks _ _ HS0) as G. destruct (lf toks) as [|m]; [lia|]. cbn [appendixes]. px L. unfold parse_opt_expression. px1 L.
  eapply wpx_use; [exact (F toks L _ _ HS1 eq_refl)|]. intros i' q' (B1 & B2 & B3 & B4). px L.
  eapply (appendix_end toks _ _ _ _ _ _ L HS2); [reflexivity|len_|]. px L.
  eapply wpx_use; [apply (P3 toks L k n _ _ lr K HS3)|].
  - left. reflexivity.
  - intros _. reflexivity.
  - cbn in N. rewrite !app_length in N. cbn in N. lia.
  - intros st' q2 (D1 & D2 & D3 & D4). split; [exact D1|]. split; [lia|]. split; [exact D3|]. rewrite D4. unfold finish at 1. cbn [ec_parts ec_str]. rewrite app_nil_r, !map_app, C, <- app_assoc. cbn [map app]. unfold strip_expr in *. cbn. rewrite B3. reflexivity.
Qed.
Lemma parts_dollar_code_r ts e tl l : Full ts e -> no_word ts = true -> PartsR tl l -> PartsR (Kw KDollarCurlyBracesOpen :: ts ++ Kw KCurlyBracesClose :: tl) (ex (EVar (VFetch e)) :: l).
Proof.
  intros F W P. split; [reflexivity|]. split; [discriminate|]. pose proof P as (P1 & P2 & P3). intros toks L k n st p lr K H R LF N. destruct n as [|n]; [inversion N|]. cbn [encaps_loop].
  cbn [app] in H. rewrite <- !app_assoc in H. cbn [app] in H. px L.
  eapply wpx_use; [apply flush_run; exact R|]. intros parts q' (-> & C). cbv beta. unfold parse_identifier.
  apply wpx_bind. eapply wpx_use with (Q := fun a q => here toks q (tl ++ Kw k :: lr) /\ p < q /\ strip_expr a = strip_expr (ex (EVar (VFetch e)))).
  { destruct ts as [|t ts']; [discriminate W|]. cbn [app] in HS.
    destruct t as [kk| | | | | | | |]; try discriminate W; [destruct kk; try discriminate W|..];
    (px L; cbn [is_reserved_non_modifier]; px L; eapply wpx_use; [apply (F toks L _ _ HS); reflexivity|]; intros a q (B1 & B2 & B3 & B4); px L; split; [first [exact HS2 | exact HS1 | exact HS0]|]; split; [lia|]; unfold strip_expr in *; cbn; rewrite B3; reflexivity). }
  intros a q (B1 & B2 & B3). cbv beta.
  eapply wpx_use; [apply (P3 toks L k n _ _ lr K B1)|].
  - left. reflexivity.
  - intros _. reflexivity.
  - cbn in N. rewrite !app_length in N. cbn in N. lia.
  - intros st' q' (D1 & D2 & D3 & D4). split; [exact D1|]. split; [lia|]. split; [exact D3|]. rewrite D4. unfold finish at 1. cbn [ec_parts ec_str]. rewrite app_nil_r, !map_app, C, <- app_assoc. cbn [map app]. rewrite B3. reflexivity.
Qed.

Lemma parts_list_run ts e es : PartsR ts (e :: es) -> forall toks, late2 toks -> forall k p l, closer k -> here toks p (ts ++ Kw k :: l) ->
  wpx (parse_encaps_list toks (PE toks)) p (fun a q => here toks q (Kw k :: l) /\ p <= q /\ strip_expr a = strip_expr (SpecInterp.joined e es)) nofail.
Proof.
  intros (P1 & P2 & P3) toks L k p l K H. unfold parse_encaps_list. px1 L.
  eapply wpx_use; [apply (P3 toks L k (lf toks) _ p l K H)|].
  - left. reflexivity.
  - intros _. reflexivity.
  - pose proof (lf_gt toks p _ H) as X. rewrite app_length in X. cbn in X. lia.
  - intros st q (B1 & B2 & B3 & B4). cbn [finish ec_parts ec_str app] in B4. unfold finish in B4. cbv beta.
    destruct (ec_str st) as [|c s] eqn:E.
    + rewrite app_nil_r in B4. px1 L. cbv beta. px1 L. cbv beta. destruct (ec_parts st) as [|x parts] eqn:P; [discriminate B4|]. cbv iota. set (pp := x :: parts) in *.
      px1 L. split; [exact B1|]. split; [exact B2|]. apply concat_joined. rewrite <- B4. f_equal. symmetry. apply app_removelast_last. unfold pp. discriminate.
    + destruct B3 as [B3|(a & B3)]; [congruence|]. rewrite B3. cbn [unwrap_p]. px L. destruct (ec_parts st) as [|x parts] eqn:P; px L.
      * split; [exact B1|]. split; [exact B2|]. apply (concat_joined e es []). rewrite <- B4. reflexivity.
      * split; [exact B1|]. split; [exact B2|]. apply concat_joined. rewrite <- B4, !map_app. reflexivity.
Qed.
Lemma concatenation_joined e l : concatenation e l = SpecInterp.joined e l.
Proof. revert e. induction l as [|x l IH]; intros e; [reflexivity|]. cbn. rewrite IH. reflexivity. Qed.
Lemma text_post ts e es : PartsR ts (e :: es) -> Post oplike (Kw KDoubleQuote :: ts ++ [Kw KDoubleQuote]) (concatenation e es).
Proof.
  intros P. split; [eexists; eexists; split; reflexivity|]. intros toks L p l H C. cbn [app] in H. rewrite <- app_assoc in H. cbn [app] in H.
  eapply to_scalar; eauto; [reflexivity|apply (var_fail toks p _ L H); reflexivity|].
  assert (ND : hd_ok (fun t => negb (tok_in [KDoubleQuote] t)) (ts ++ Kw KDoubleQuote :: l)).
  { pose proof P as (P1 & P2 & _). destruct ts as [|t ts]; [contradiction (P2 ltac:(discriminate) eq_refl)|]. cbn in *. apply andb_prop in P1. apply P1. }
  unfold parse_scalar. px L. cbn [scalar_of]. px L.
  eapply wpx_use; [apply (parts_list_run ts e es P toks L KDoubleQuote _ l (or_introl eq_refl) HS)|]. intros a q (B1 & B2 & B3). px L. okk. split; [|cbn; lia]. rewrite concatenation_joined, <- B3. destruct a. reflexivity.
Qed.

Lemma heredoc_post ts e es : PartsR ts (e :: es) -> Post oplike (Kw KHereDocStart :: ts ++ [Kw KHereDocEnd]) (concatenation e es).
Proof.
  intros P. split; [eexists; eexists; split; reflexivity|]. intros toks L p l H C. cbn [app] in H. rewrite <- app_assoc in H. cbn [app] in H.
  eapply to_scalar; eauto; [reflexivity|apply (var_fail toks p _ L H); reflexivity|].
  unfold parse_scalar. px L. cbn [scalar_of]. px L.
  eapply wpx_use; [apply (parts_list_run ts e es P toks L KHereDocEnd _ l (or_intror eq_refl) HS)|]. intros a q (B1 & B2 & B3). px L. okk. split; [|cbn; lia]. rewrite concatenation_joined, <- B3. destruct a. reflexivity.
Qed.

(** ** Names *)
Lemma fragments_frag fs : fragments fs = frag_tokens fs.
Proof. induction fs as [|a [|b r] IH]; [reflexivity..|]. cbn [fragments frag_tokens] in *. rewrite IH. reflexivity. Qed.
Lemma opt_flag b k : opt b k = flag b k.
Proof. reflexivity. Qed.
Lemma snoc_ne {A} (l : list A) x : l ++ [x] <> [].
Proof. destruct l; discriminate. Qed.
Lemma name_is_path ts p : Name ts p -> Path ts p.
Proof.
  intros [abs ns a]. exists abs, (ns ++ [a]). split; [apply snoc_ne|]. split; [|symmetry; apply name_path_of].
  unfold path_toks. rewrite abs_flag, fragments_frag. reflexivity.
Qed.
Lemma class_is_cls ts p : ClassName ts p -> Cls ts p.
Proof. intros [ts' p' N|]; [left; exact (name_is_path _ _ N)|right; auto]. Qed.
Lemma names_commas ts l : SpecGrammar.Names ts l -> exists tss, tss <> [] /\ ts = commas tss /\ Forall2 Path tss l.
Proof.
  induction 1 as [ts p N|ts p tl l N _ (tss & NE & -> & F)].
  - exists [ts]. split; [discriminate|]. split; [reflexivity|]. constructor; [apply name_is_path, N|constructor].
  - exists (ts :: tss). split; [discriminate|]. split; [destruct tss; [contradiction|reflexivity]|]. constructor; [apply name_is_path, N|exact F].
Qed.
Definition word_check (x : string * kind) : bool :=
  String.eqb (fst x) "die" || existsb (kind_eqb (snd x)) no_member_word ||
  (is_reserved_non_modifier (snd x) && match repr (snd x) with Some r => String.eqb r (fst x) | None => false end).
Lemma words_checked : forallb word_check keywords = true.
Proof. reflexivity. Qed.
Lemma word_ident t s : Word t s -> Ident t s.
Proof.
  intros [s'|w k I W N]; [left; reflexivity|right]. pose proof (proj1 (forallb_forall _ _) words_checked _ I) as C. unfold word_check in C. cbn [fst snd] in C.
  apply Bool.orb_prop in C. destruct C as [C|C]; [apply Bool.orb_prop in C; destruct C as [C|C]|].
  - apply String.eqb_eq in C. contradiction.
  - apply existsb_exists in C. destruct C as (x & X1 & X2). apply kind_eqb_eq in X2. subst. contradiction.
  - apply andb_prop in C. destruct C as [C1 C2]. destruct (repr k) as [r|] eqn:R; [|discriminate]. apply String.eqb_eq in C2. exists k, r. split; [reflexivity|]. split; [exact C1|]. split; [exact R|congruence].
Qed.
Lemma constant_resolves p : resolve_constant (Ex (EPath p) span_new) = constant_of p.
Proof.
  unfold constant_of, resolve_constant, const_name. destruct (Ast.namespace p); [reflexivity|]. cbv zeta.
  repeat match goal with |- context [str_eqb ?a ?b] => destruct (str_eqb a b); [reflexivity|] end. reflexivity.
Qed.

(** ** How expressions begin *)
Definition SH (ts : list token) : Prop := ts <> [] /\ stm_expr_head ts.
Lemma sh_app ts l : SH ts -> SH (ts ++ l).
Proof.
  intros [NE H]. split; [destruct ts; [contradiction|discriminate]|]. destruct ts as [|t [|t' r]]; [contradiction| |].
  - destruct t as [k| | | | | | | |]; try exact Logic.I. destruct k; try exact Logic.I; destruct H.
  - cbn [app]. destruct t as [k| | | | | | | |]; try exact Logic.I. destruct k; try exact Logic.I; cbn in *; [|exact H].
    destruct H as [H|(H1 & H2 & H3)]; [auto|right]. destruct r; [contradiction|]. split; [exact H1|]. split; [exact H2|discriminate].
Qed.
Definition plain_head (t : token) : bool := negb (tok_in [KStatic; KFunction] t).
Lemma sh_plain t ts : plain_head t = true -> SH (t :: ts).
Proof. intros H. split; [discriminate|]. destruct t as [k| | | | | | | |]; try exact Logic.I. destruct k; try exact Logic.I; discriminate H. Qed.
Lemma sh_path ts p l : Path ts p -> SH (ts ++ l).
Proof.
  intros (abs & fs & NE & -> & _). destruct (path_head abs fs NE) as (t & r & -> & H). cbn [app]. apply sh_plain. destruct t as [k| | | | | | | |]; try reflexivity; try discriminate.
  destruct k; discriminate || reflexivity.
Qed.
Lemma sh_cls ts p l : Cls ts p -> SH (ts ++ Kw KScopeOp :: l).
Proof. intros [H|(-> & _)]; [exact (sh_path ts p _ H)|]. split; [discriminate|exact Logic.I]. Qed.

(** ** Chains of conditions *)
Definition IfR (ts : list token) (s : stmt) : Prop := (exists tc r, ts = cond_toks tc ++ r) /\ forall toks, late2 toks -> forall p l, here toks p (ts ++ l) -> stm_end l ->
  forall n acc sp, List.length ts < n ->
  wpx (c <~ parse_condition toks (PE toks) ;; b <~ parse_statement_extract_block (PS toks) ;;
       if_arms toks (PE toks) (PS toks) n (acc ++ [St (SIf c (fst b) []) (mk_span sp (sp_end (snd b)))])) p
    (fun r q => here toks q l /\ p < q /\ exists y ys, r = acc ++ y :: ys /\ exists z, fold_ifs (y :: ys) = Some z /\ strip_stmt z = strip_stmt s) nofail.
Lemma fold_ifs_cons x y ys : fold_ifs (x :: y :: ys) = if_fold_step (fold_ifs (y :: ys)) x.
Proof.
  unfold fold_ifs. change (rev (x :: y :: ys)) with (rev (y :: ys) ++ [x]). destruct (rev (y :: ys)) as [|z r] eqn:E.
  - apply (f_equal (@List.length stmt)) in E. rewrite rev_length in E. discriminate.
  - cbn [app]. rewrite fold_left_app. reflexivity.
Qed.
Lemma paren_cond ts : paren ts = cond_toks ts.
Proof. reflexivity. Qed.
Lemma if_only_r tc c tb b : Full tc c -> BodyC stm_end tb b -> IfR (paren tc ++ tb) (st (SIf c b [])).
Proof.
  intros F B. split; [eexists; eexists; reflexivity|]. intros toks L p l H C n acc sp N. rewrite paren_cond, <- app_assoc in H.
  px1 L. eapply wpx_use; [exact (cond_run tc c toks _ _ F L H)|]. intros c' q (A1 & A2 & A3 & A4). cbv beta. px1 L.
  eapply wpx_use; [exact (body_run _ tb b toks q _ B L A1 C)|]. intros b' q' (B1 & B2 & B3). cbv beta.
  destruct n as [|n]; [lia|]. cbn [if_arms]. unfold stm_end in C. px L. split; [exact B1|]. split; [lia|]. eexists; exists []. split; [reflexivity|].
  eexists. split; [reflexivity|]. unfold strip_stmt, strip_expr in *. cbn. congruence.
Qed.
Lemma if_else_r tc c tb b te e : Full tc c -> BodyC any tb b -> BodyC stm_end te e -> IfR (paren tc ++ tb ++ Kw KElse :: te) (st (SIf c b e)).
Proof.
  intros F B BE. split; [eexists; eexists; reflexivity|]. intros toks L p l H C n acc sp N. rewrite paren_cond, <- !app_assoc in H. cbn [app] in H.
  px1 L. eapply wpx_use; [exact (cond_run tc c toks _ _ F L H)|]. intros c' q (A1 & A2 & A3 & A4). cbv beta. px1 L.
  eapply wpx_use; [exact (body_run any tb b toks q _ B L A1 Logic.I)|]. intros b' q' (B1 & B2 & B3). cbv beta.
  destruct n as [|n]; [lia|]. cbn [if_arms]. px L.
  eapply wpx_use; [exact (body_run _ te e toks _ _ BE L HS C)|]. intros e' q2 (D1 & D2 & D3). cbv beta.
  destruct n as [|n]; [rewrite !app_length in N; cbn in N; rewrite app_length in N; cbn in N; lia|]. cbn [if_arms]. unfold stm_end in C. px L. split; [exact D1|]. split; [lia|].
  eexists; eexists. split; [rewrite <- app_assoc; reflexivity|].
  eexists. split; [reflexivity|]. unfold strip_stmt, strip_expr in *. cbn. congruence.
Qed.
Lemma strip_is_if s c b e : strip_stmt s = strip_stmt (st (SIf c b e)) -> exists c' b' e' sp, s = St (SIf c' b' e') sp.
Proof. intros H. destruct (strip_if _ _ _ _ H) as (c' & b' & e' & sp & -> & _). eauto. Qed.
Lemma if_elseif_r tc c tb b ti i : Full tc c -> BodyC any tb b -> IfR ti i -> (exists c b e, i = st (SIf c b e)) -> IfR (paren tc ++ tb ++ Kw KElseIf :: ti) (st (SIf c b [i])).
Proof.
  intros F B (_ & BE) (ci & bi & ei & EI). split; [eexists; eexists; reflexivity|]. intros toks L p l H C n acc sp N. rewrite paren_cond, <- !app_assoc in H. cbn [app] in H.
  px1 L. eapply wpx_use; [exact (cond_run tc c toks _ _ F L H)|]. intros c' q (A1 & A2 & A3 & A4). cbv beta. px1 L.
  eapply wpx_use; [exact (body_run any tb b toks q _ B L A1 Logic.I)|]. intros b' q' (B1 & B2 & B3). cbv beta.
  destruct n as [|n]; [lia|]. cbn [if_arms]. next_here L. px1 L.
  eapply wpx_use; [apply (BE toks L _ l HS C n)|].
  - rewrite !app_length in N. cbn in N. lia.
  - intros r q2 (D1 & D2 & y & ys & -> & z & Z1 & Z2). split; [exact D1|]. split; [lia|]. eexists; exists (y :: ys). split; [rewrite <- app_assoc; reflexivity|].
    rewrite fold_ifs_cons, Z1. rewrite EI in Z2. destruct (strip_is_if _ _ _ _ Z2) as (c1 & b1 & e1 & sp1 & ->). rewrite <- EI in Z2. eexists. split; [reflexivity|].
    transitivity (St (SIf (strip_expr c') (map strip_stmt (fst b')) [strip_stmt (St (SIf c1 b1 e1) sp1)]) span_new); [reflexivity|]. rewrite Z2, A3, B3. reflexivity.
Qed.
Lemma wpx_bind3 {A B C D} (m1 : P A) (m2 : A -> P B) (f : A -> B -> P C) (k : C -> P D) p Q E :
  wpx (a <~ m1 ;; b <~ m2 a ;; f a b) p (fun x q => wpx (k x) q Q E) E -> wpx (a <~ m1 ;; b <~ m2 a ;; x <~ f a b ;; k x) p Q E.
Proof. unfold wpx, pbind, pcatch, pthrow. destruct (m1 p) as [a q| | |]; auto. destruct (m2 a q) as [b q'| | |]; auto. destruct (f a b q'); auto. Qed.
Lemma if_stm ts s : IfR ts s -> StmC stm_end (Kw KIf :: ts) s.
Proof.
  intros ((tc & r & E) & R). split; [eexists; eexists; split; reflexivity|]. intros toks L p l H C. cbn [app] in H.
  apply wpx_PS. unfold parse_statement_body. px L. unfold parse_if.
  apply (wpx_bind3 (parse_condition toks (PE toks)) (fun _ => parse_statement_extract_block (PS toks)) (fun c b => if_arms toks (PE toks) (PS toks) (lf toks) [St (SIf c (fst b) []) (mk_span (sp_start (sp_at toks p)) (sp_end (snd b)))])).
  eapply wpx_use; [apply (R toks L _ l HS C (lf toks) [])|].
  - pose proof (lf_gt toks _ _ HS) as X. rewrite app_length in X. lia.
  - intros r' q (A1 & A2 & y & ys & -> & z & Z1 & Z2). cbn [app]. rewrite Z1. px L. oks. exact Z2.
Qed.
