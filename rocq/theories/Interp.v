(** * Interp: double-quoted strings *)
From Verif Require Import Base Tokens Ast AstMap AstInd Lexer Parser Printer Driver Spec SpecProg SpecRT SpecInterp SmallFacts ParserRel ParserFacts LexBase LexSteps LexTok LexWords LexNum LexMore LexFacts LexStr LexRun LexParse LexCrash ParseRun ParseTac ParseExpr ParseStmt ParseDecl Emit ProgNames RTBase RTExpr RTStmt.
From Coq Require Import String Ascii.

(** ** From the pieces to the tokens *)
Definition part_tokens (p : dq_part) : list token :=
  match p with
  | DqLit b => [frag_token b]
  | DqRef v None => [TVariable v]
  | DqRef v (Some p) => [TVariable v; Kw KObjectOp; TString p]
  end.
Lemma dq_lit_app a b l : dq_lit (a ++ b) l = dq_lit a (dq_lit b l).
Proof.
  destruct a as [|x a]; [reflexivity|]. destruct b as [|y b]; [rewrite app_nil_r; reflexivity|]. cbn [app].
  destruct l as [|[b'|v p] l]; cbn [dq_lit app]; rewrite <- ?app_assoc; reflexivity.
Qed.
Lemma tokens_parts ps : forall bs, dq_tokens bs ps = flat_map part_tokens (dq_lit bs (dq_parts ps)).
Proof.
  induction ps as [|p ps IH]; intros bs; [destruct bs; reflexivity|].
  destruct p; cbn [dq_tokens dq_parts]; rewrite ?IH, ?dq_lit_app; try reflexivity; destruct bs; reflexivity.
Qed.
(** no two literals in a row, no empty literals *)
Fixpoint alternating (l : list dq_part) : Prop :=
  match l with
  | DqLit b :: r => b <> [] /\ match r with DqLit _ :: _ => False | _ => True end /\ alternating r
  | _ :: r => alternating r
  | [] => True
  end.
Lemma alternating_lit b l : alternating l -> alternating (dq_lit b l).
Proof.
  intros H. destruct b as [|x b]; [exact H|]. destruct l as [|[b'|v p] l]; cbn in *.
  - split; [discriminate|auto].
  - destruct H as (_ & H & K). split; [discriminate|auto].
  - split; [discriminate|auto].
Qed.
Lemma parts_alternate ps : alternating (dq_parts ps).
Proof. induction ps as [|p ps IH]; [exact I|]. destruct p; cbn [dq_parts alternating]; auto using alternating_lit. Qed.

(** ** From the tokens to the tree *)
Definition finish (st : encaps) : list expr :=
  ec_parts st ++ match ec_str st with [] => [] | s => [the_string s] end.
Definition ready (st : encaps) : Prop := ec_str st = [] \/ exists a, ec_start st = Some a.
Definition lit_free (st : encaps) (ps : list dq_part) : Prop :=
  match ps with DqLit _ :: _ => ec_str st = [] | _ => True end.
Lemma flush_run st p : ready st -> wpx (encaps_flush st) p (fun l q => q = p /\ map strip_expr l = map strip_expr (finish st)) nofail.
Proof.
  intros R. unfold encaps_flush, finish. destruct (ec_str st) as [|c s] eqn:E.
  - cbn. rewrite app_nil_r. auto.
  - destruct R as [R|(a & R)]; [congruence|]. rewrite R. cbn. split; auto. rewrite !map_app. reflexivity.
Qed.
Lemma part_var x e : part_means x e -> (forall b, x <> DqLit b) -> Var (part_tokens x) e.
Proof.
  intros [s F|v|v p] N.
  - contradiction (N _ eq_refl).
  - apply var_simple.
  - change (part_tokens (DqRef v (Some p))) with ([TVariable v] ++ Kw KObjectOp :: [TString p]).
    change (the_property v p) with (Ex (enode (push_prop (the_variable v) (Ex (EPath (path_identifier false p)) span_new) 0)) span_new).
    apply (var_prop false [TVariable v] (the_variable v)); [apply var_simple|]. right. left. eauto.
Qed.
Lemma encaps_run ps es : Forall2 part_means ps es -> alternating ps -> forall toks, late2 toks -> forall n st p l, here toks p (flat_map part_tokens ps ++ Kw KDoubleQuote :: l) ->
  ready st -> lit_free st ps -> List.length ps < n ->
  wpx (encaps_loop toks (PE toks) n st) p (fun st' q => here toks q (Kw KDoubleQuote :: l) /\ p <= q /\ ready st' /\ map strip_expr (finish st') = map strip_expr (finish st ++ es)) nofail.
Proof.
  induction 1 as [|x e ps es M F IH]; intros A toks L n st p l H R LF N; (destruct n as [|n]; [cbn in N; lia|]); cbn [encaps_loop].
  - cbn [flat_map app] in H. px L. eapply wpx_mono; [apply (var_fail toks p _ L H); reflexivity|intros ? ? []|]. intros e q ->. px L. rewrite app_nil_r. auto.
  - cbn [flat_map] in H. rewrite <- app_assoc in H.
    assert (VE : var_end (flat_map part_tokens ps ++ Kw KDoubleQuote :: l)).
    { destruct ps as [|y ps]; [reflexivity|]. inversion F as [|? ? ? ? My F']; subst. destruct My as [s Fs|v|v q]; [|reflexivity..]. cbn [flat_map part_tokens app]. rewrite frag_ces by exact Fs. reflexivity. }
    destruct M as [s Fs|v|v q].
    + cbn [part_tokens app] in H. rewrite frag_ces in H by exact Fs. cbn [app lit_free] in H, LF. cbn [alternating] in A. destruct A as (A1 & A2 & A3). px L.
      eapply wpx_use; [apply (IH A3 toks L n _ _ l HS)|].
      * right. cbn. destruct (ec_start st); eauto.
      * destruct ps as [|[] ?]; auto. contradiction.
      * cbn in N. lia.
      * intros st' q (B1 & B2 & B3 & B4). split; [exact B1|]. split; [lia|]. split; [exact B3|]. rewrite B4. unfold finish. cbn [ec_parts ec_str]. rewrite LF. cbn [app].
        destruct s as [|c s]; [contradiction (A1 eq_refl)|]. rewrite !app_nil_r, <- app_assoc. reflexivity.
    + change (alternating ps) in A. cbn [part_tokens app] in H. px L.
      eapply wpx_use; [apply (var_whole [TVariable v] (the_variable v) (var_simple false v) toks L p _ H VE)|]. intros a q (B1 & B2 & B3 & B4). px1 L.
      eapply wpx_use; [apply flush_run; exact R|]. intros parts q' (-> & C). cbv beta.
      eapply wpx_use; [apply (IH A toks L n _ _ l B1)|].
      * left. reflexivity.
      * destruct ps as [|[] ?]; cbn; auto.
      * cbn in N. lia.
      * intros st' q' (D1 & D2 & D3 & D4). split; [exact D1|]. split; [lia|]. split; [exact D3|]. rewrite D4. unfold finish at 1. cbn [ec_parts ec_str]. rewrite app_nil_r, !map_app, C, <- app_assoc. cbn [map app]. rewrite B3. reflexivity.
    + change (alternating ps) in A. cbn [part_tokens app] in H.
      assert (V : Var [TVariable v; Kw KObjectOp; TString q] (the_property v q)).
      { apply (part_var (DqRef v (Some q)) (the_property v q)); [constructor|discriminate]. }
      px L. eapply wpx_use; [apply (var_whole _ _ V toks L p _ H VE)|]. intros a q1 (B1 & B2 & B3 & B4). px1 L.
      eapply wpx_use; [apply flush_run; exact R|]. intros parts q' (-> & C). cbv beta.
      eapply wpx_use; [apply (IH A toks L n _ _ l B1)|].
      * left. reflexivity.
      * destruct ps as [|[] ?]; cbn; auto.
      * cbn in N. lia.
      * intros st' q' (D1 & D2 & D3 & D4). split; [exact D1|]. split; [lia|]. split; [exact D3|]. rewrite D4. unfold finish at 1. cbn [ec_parts ec_str]. rewrite app_nil_r, !map_app, C, <- app_assoc. cbn [map app]. rewrite B3. reflexivity.
Qed.
Lemma concat_joined e l : forall parts a, map strip_expr (parts ++ [a]) = map strip_expr (e :: l) -> strip_expr (concat_parts parts a) = strip_expr (joined e l).
Proof.
  revert e. induction l as [|x l IH]; intros e parts a E.
  - destruct parts as [|y parts]; [injection E as E; exact E|]. apply (f_equal (@List.length _)) in E. cbn in E. rewrite map_length, app_length in E. cbn in E. lia.
  - destruct parts as [|y parts]; [apply (f_equal (@List.length _)) in E; cbn in E; lia|]. cbn [app map] in E. injection E as E1 E2. cbn [concat_parts fold_right joined].
    fold (concat_parts parts a). specialize (IH x parts a E2). unfold strip_expr in *. cbn. congruence.
Qed.
Lemma encaps_list_run ps e es : Forall2 part_means ps (e :: es) -> alternating ps -> forall toks, late2 toks -> forall p l, here toks p (flat_map part_tokens ps ++ Kw KDoubleQuote :: l) ->
  wpx (parse_encaps_list toks (PE toks)) p (fun a q => here toks q (Kw KDoubleQuote :: l) /\ p <= q /\ strip_expr a = strip_expr (joined e es)) nofail.
Proof.
  intros F A toks L p l H. unfold parse_encaps_list. px1 L.
  assert (N : List.length ps <= List.length (flat_map part_tokens ps)).
  { clear. induction ps as [|x ps IH]; [auto|]. cbn [flat_map List.length]. rewrite app_length. destruct x as [b|v [q|]]; cbn; lia. }
  eapply wpx_use; [apply (encaps_run ps (e :: es) F A toks L (lf toks) _ p l H)|].
  - left. reflexivity.
  - destruct ps as [|[] ?]; cbn; auto.
  - pose proof (lf_gt toks p _ H) as X. rewrite app_length in X. cbn in X. lia.
  - intros st q (B1 & B2 & B3 & B4). cbn [finish ec_parts ec_str app] in B4. unfold finish in B4. cbv beta.
    destruct (ec_str st) as [|c s] eqn:E.
    + rewrite app_nil_r in B4. px1 L. cbv beta. px1 L. cbv beta. destruct (ec_parts st) as [|x parts] eqn:P; [discriminate B4|]. cbv iota. set (pp := x :: parts) in *.
      px1 L. split; [exact B1|]. split; [exact B2|]. apply concat_joined. rewrite <- B4. f_equal. symmetry. apply app_removelast_last. unfold pp. discriminate.
    + destruct B3 as [B3|(a & B3)]; [congruence|]. rewrite B3. cbn [unwrap_p]. px L. destruct (ec_parts st) as [|x parts] eqn:P; px L.
      * split; [exact B1|]. split; [exact B2|]. apply (concat_joined e es []). rewrite <- B4. reflexivity.
      * split; [exact B1|]. split; [exact B2|]. apply concat_joined. rewrite <- B4, !map_app. reflexivity.
Qed.
Lemma interp_post ps e es : Forall2 part_means ps (e :: es) -> alternating ps ->
  Post oplike (Kw KDoubleQuote :: flat_map part_tokens ps ++ [Kw KDoubleQuote]) (joined e es).
Proof.
  intros F A. split; [eexists; eexists; split; reflexivity|]. intros toks L p l H C. cbn [app] in H. rewrite <- app_assoc in H. cbn [app] in H.
  eapply to_scalar; eauto; [reflexivity|apply (var_fail toks p _ L H); reflexivity|].
  assert (ND : hd_ok (fun t => negb (tok_in [KDoubleQuote] t)) (flat_map part_tokens ps ++ Kw KDoubleQuote :: l)).
  { inversion F as [|x ? ps' ? M F']; subst. destruct M as [s Fs|v|v q]; [|reflexivity..]. cbn [flat_map part_tokens app]. rewrite frag_ces by exact Fs. reflexivity. }
  unfold parse_scalar. px L. cbn [scalar_of]. px L.
  eapply wpx_use; [apply (encaps_list_run ps e es F A toks L _ l HS)|]. intros a q (B1 & B2 & B3). px L. okk. split; [|cbn; lia]. rewrite <- B3. destruct a. reflexivity.
Qed.
Lemma empty_post : Post oplike [Kw KDoubleQuote; Kw KDoubleQuote] (the_string []).
Proof.
  split; [eexists; eexists; split; reflexivity|]. intros toks L p l H C. cbn [app] in H.
  eapply to_scalar; eauto; [reflexivity|apply (var_fail toks p _ L H); reflexivity|]. unfold parse_scalar. px L. cbn [scalar_of]. px L. okk. apply same_span. cbn. lia.
Qed.

(** ** Whole programs *)
Lemma parts_sees ps es : Forall2 part_means ps es -> flat_map sees (flat_map part_tokens ps) = flat_map part_tokens ps.
Proof.
  induction 1 as [|x e ps es M F IH]; [reflexivity|]. cbn [flat_map]. rewrite flat_map_app, IH. f_equal. destruct M as [s Fs|v|v q]; [|reflexivity..]. cbn [part_tokens]. rewrite frag_ces by exact Fs. reflexivity.
Qed.
Lemma dq_program ps ts e : dq_ok ps (s2l """;") = true -> flat_map sees (dq_tokens [] ps) = ts -> Post oplike (Kw KDoubleQuote :: ts ++ [Kw KDoubleQuote]) e ->
  parses_to (s2l "<?php echo """ ++ dq_text ps ++ s2l """;") [St (SEcho [e]) span_new].
Proof.
  intros C S P. change (s2l "<?php echo """) with (s2l "<?php" ++ s2l " " ++ s2l "echo" ++ s2l " " ++ s2l """"). rewrite <- !app_assoc.
  eapply (program_parses _ [_]); [|discriminate|constructor; [apply top_stm, stm_any, (stm_echo [Kw KDoubleQuote :: ts ++ [Kw KDoubleQuote]] [e]); [discriminate|constructor; [|constructor]]|constructor]].
  - cbn [List.concat commas]. apps. do 3 lx. assert (X : exists toks, lexes LInScripting [] (s2l """" ++ dq_text ps ++ s2l """;") toks /\ flat_map sees toks = Kw KDoubleQuote :: ts ++ [Kw KDoubleQuote; Kw KSemiColon]).
    { assert (Z : seen LInScripting [] (s2l ";" ++ []) [Kw KSemiColon]) by (lx; apply seen_end). destruct Z as (toks & T1 & T2).
      eexists. split; [exact (lex_dq [] ps (s2l ";") toks C T1)|]. cbn [flat_map sees app]. rewrite flat_map_app, S. cbn [flat_map]. rewrite T2. reflexivity. }
    replace ((Kw KDoubleQuote :: ts ++ [Kw KDoubleQuote]) ++ [Kw KSemiColon]) with (Kw KDoubleQuote :: ts ++ [Kw KDoubleQuote; Kw KSemiColon]) by (cbn [app]; rewrite <- app_assoc; reflexivity).
    exact X.
  - apply (chain_full 18 17); [lia|]. apply operand_chain, post_operand; auto.
Qed.
Lemma interpolated ps e es : dq_ok ps (s2l """;") = true -> Forall2 part_means (dq_parts ps) (e :: es) ->
  parses_to (s2l "<?php echo """ ++ dq_text ps ++ s2l """;") [St (SEcho [joined e es]) span_new].
Proof.
  intros C F. apply (dq_program ps (flat_map part_tokens (dq_parts ps))); auto.
  - rewrite tokens_parts. cbn [dq_lit]. eapply parts_sees; eauto.
  - apply interp_post; [exact F|apply parts_alternate].
Qed.
Lemma no_var_parts ps : forallb no_ref ps = true -> dq_parts ps = dq_lit (flat_map dq_bytes ps) [].
Proof.
  induction ps as [|p ps IH]; intros H; [reflexivity|]. cbn [forallb] in H. apply andb_prop in H. destruct H as [H1 H2].
  destruct p; try discriminate H1; cbn [dq_parts flat_map dq_bytes]; rewrite IH, dq_lit_app by exact H2; reflexivity.
Qed.
Lemma decoded ps s : dq_ok ps (s2l """;") = true -> forallb no_ref ps = true -> Forall scalar s -> flat_map dq_bytes ps = encode s ->
  parses_to (s2l "<?php echo """ ++ dq_text ps ++ s2l """;") [St (SEcho [the_string s]) span_new].
Proof.
  intros C V F E. pose proof (no_var_parts ps V) as D. rewrite E in D. destruct s as [|c s].
  - apply (dq_program ps []); auto; [|apply empty_post]. rewrite tokens_parts. cbn [dq_lit]. rewrite D. reflexivity.
  - apply (interpolated ps (the_string (c :: s)) []); auto. rewrite D.
    assert (X : encode (c :: s) <> []).
    { intros X. change (encode (c :: s)) with (enc1 c ++ encode s) in X. apply app_eq_nil in X. destruct X as [X _]. pose proof (SmallFacts.enc1_len c) as Y. rewrite X in Y. inversion Y. }
    destruct (encode (c :: s)) eqn:Y; [contradiction|]. cbn [dq_lit]. rewrite <- Y. constructor; [constructor; exact F|constructor].
Qed.
Lemma decoded_simple ps : dq_ok ps (s2l """;") = true -> forallb simple ps = true -> Forall scalar (flat_map dq_text1 ps) ->
  parses_to (s2l "<?php echo """ ++ dq_text ps ++ s2l """;") [St (SEcho [the_string (flat_map dq_chars ps)]) span_new].
Proof.
  intros C S F. apply decoded; auto.
  - clear - S. induction ps as [|p ps IH]; [reflexivity|]. cbn in *. apply andb_prop in S. destruct S as [S1 S2]. rewrite (IH S2). destruct p; discriminate || reflexivity.
  - assert (SC : forall x, (x < 128)%N -> scalar x) by (intros x X; unfold scalar; lia). clear C. induction ps as [|p ps IH]; [constructor|]. cbn [forallb flat_map] in *. apply andb_prop in S. destruct S as [S1 S2]. apply Forall_app in F. destruct F as [F1 F2]. apply Forall_app. split; [|auto].
    destruct p; try discriminate S1; cbn [dq_chars dq_text1] in *; [exact F1|]. inversion F1 as [|? ? G1 G2]; subst. inversion G2; subst.
    repeat (match goal with |- context [if ?b then _ else _] => destruct b end; [constructor; [apply SC; reflexivity|constructor]|]). constructor; [auto|constructor; [auto|constructor]].
  - clear C. induction ps as [|p ps IH]; [reflexivity|]. cbn [forallb flat_map] in *. apply andb_prop in S. destruct S as [S1 S2]. apply Forall_app in F. destruct F as [F1 F2]. rewrite encode_app, (IH S2 F2). f_equal.
    destruct p; try discriminate S1; cbn [dq_chars dq_bytes]; [unfold encode; cbn; rewrite app_nil_r; reflexivity|]. unfold dq_escape.
    destruct (N.eqb_spec c 110); [reflexivity|]. destruct (N.eqb_spec c 114); [reflexivity|]. destruct (N.eqb_spec c 116); [reflexivity|]. destruct (N.eqb_spec c 102); [reflexivity|]. destruct (N.eqb_spec c 118); [reflexivity|].
    destruct (N.eqb_spec c 34); [subst; reflexivity|]. destruct (N.eqb_spec c 92); [subst; reflexivity|]. destruct (N.eqb_spec c 36); [subst; reflexivity|]. cbn [orb].
    unfold encode. cbn [flat_map]. rewrite app_nil_r. reflexivity.
Qed.
