(** * Safe: no parser function panics on tokens that are not suspect (proofs for C44) *)
From Verif Require Import Base Tokens Ast Parser Wp ParserMono Driver SpecGrammar SpecPanic SafeWp.
From Verif Require Import ParseRun ParseExpr ParseStmt ParseDecl Grammar GrammarAll GrammarTop.
From Coq Require Import Lia.
Local Open Scope list_scope.

Section Safe.
Variable toks : list tokspan.
Notation len := (List.length toks).
Notation ts := (map fst toks).
Definition ahead_late (p : nat) : Prop := forall q t, p <= q -> nth_error toks q = Some t -> 2 <= sp_start (snd t).
Hypothesis NS : ~ suspect ts.
Hypothesis Late : late2 toks.
Hypothesis HL : forall p k sp, nth_error toks p = Some (Kw k, sp) -> In k [KFunction; KElse; KNsSeparator; KAmpersand] -> ahead_late p.

(** ** What is not there *)
Lemma no_dollar p sp : nth_error toks p <> Some (Kw KDollar, sp).
Proof. intros N. apply NS. right. left. exact (nth_in toks p _ sp N). Qed.
Lemma no_unset p sp : nth_error toks p <> Some (Kw KCastUnset, sp).
Proof. intros N. apply NS. do 2 right. left. exact (nth_in toks p _ sp N). Qed.
Lemma not_empty : toks <> [].
Proof. intros E. apply NS. left. unfold tokspan in *. rewrite E. reflexivity. Qed.
Lemma closed p sp b : nth_error toks p = Some (Kw KParenthesesOpen, sp) -> ~ path toks b (S p) len 0.
Proof.
  intros N (_ & _ & [H _] & _). apply NS. do 3 right. left. exists (firstn p ts), (tl toks (S p)).
  split; [rewrite <- (tl_cons toks p _ sp N); apply tl_split|]. intros u v E. apply (H u v). rewrite <- E.
  rewrite (seg_tl toks (S p) len), (tl_nil toks), app_nil_r; [reflexivity|]. apply nth_lt in N. exact N.
Qed.
Lemma parameters p sp (r : bool) name b : nth_error toks p = Some (Kw KFunction, sp) ->
  tl toks (S p) = (if r then [Kw KAmpersand] else []) ++ name ++ Kw KParenthesesOpen :: b -> (name = [] \/ exists s, name = [TString s]) ->
  ~ ~ exists tp l c, Params (Lost := strict) tp l /\ b = tp ++ Kw KParenthesesClose :: c.
Proof.
  intros N E NM X. apply NS. do 4 right. left. exists (firstn p ts), r, name, b. split; [|auto].
  rewrite <- E, <- (tl_cons toks p _ sp N). apply tl_split.
Qed.
Lemma else_ok p sp q k sp' : nth_error toks p = Some (Kw KElse, sp) -> p < q -> nth_error toks q = Some (Kw k, sp') -> In k [KElse; KElseIf] ->
  ~ ~ exists tb s c, Stmt (Lost := strict) false tb s /\ tl toks (S p) = tb ++ c /\
    forall t, hd_error c = Some t -> ~ one_of [KElse; KElseIf; KCatch; KFinally] t.
Proof.
  intros N L N' K X. apply NS. do 5 right. left. exists (firstn p ts), (tl toks (S p)).
  split; [rewrite <- (tl_cons toks p _ sp N); apply tl_split|]. split; [|exact X].
  exists (Kw k). split; [|exists k; auto]. rewrite (seg_tl toks (S p) q) by lia. apply in_or_app. right. rewrite (tl_cons toks q _ sp' N'). left. reflexivity.
Qed.
Lemma one_instanceof p sp q sp' : nth_error toks p = Some (Kw KInstanceOf, sp) -> nth_error toks q = Some (Kw KInstanceOf, sp') -> p < q ->
  ~ unbroken (seg toks (S p) q).
Proof.
  intros N N' L U. apply NS. do 6 right. left. exists (firstn p ts), (seg toks (S p) q), (tl toks (S q)). split; [|exact U].
  rewrite <- (tl_cons toks q _ sp' N'), <- (seg_tl toks (S p) q L), <- (tl_cons toks p _ sp N). apply tl_split.
Qed.
Definition trait_block (p : nat) : Prop := exists q s sp sp', nth_error toks q = Some (TString s, sp) /\ nth_error toks (S q) = Some (Kw KCurlyBracesOpen, sp') /\
  S (S q) <= p /\ Forall adaptation_token (seg toks (S (S q)) p).
Lemma trait_tl p : trait_block p -> forall b, tl toks p = b ->
  ((exists c, b = Kw KYield :: c) \/ (exists c, b = Kw KAs :: c /\ forall s' c', c <> TString s' :: c')) -> False.
Proof.
  intros (q & s & sp & sp' & N & N' & L & F) b E X. apply NS. do 7 right. left. exists (firstn q ts), s, (seg toks (S (S q)) p), b.
  split; [|auto]. rewrite <- E, <- (seg_tl toks (S (S q)) p L), <- (tl_cons toks _ _ _ N'), <- (tl_cons toks _ _ _ N). apply tl_split.
Qed.
Lemma trait_yield p sp : trait_block p -> nth_error toks p <> Some (Kw KYield, sp).
Proof. intros T N. apply (trait_tl p T _ eq_refl). left. eexists. apply (tl_cons toks _ _ _ N). Qed.
Lemma trait_as p sp : trait_block p -> nth_error toks p = Some (Kw KAs, sp) -> exists s sp', nth_error toks (S p) = Some (TString s, sp').
Proof.
  intros T N. destruct (nth_error toks (S p)) as [[t sp']|] eqn:N'.
  - destruct t as [k| | | | | | | |]; try (exfalso; apply (trait_tl p T _ eq_refl); right; eexists; split; [apply (tl_cons toks _ _ _ N)|]; intros s' c'; rewrite (tl_cons toks _ _ _ N'); discriminate).
    eauto.
  - exfalso. apply (trait_tl p T _ eq_refl). right. eexists. split; [apply (tl_cons toks _ _ _ N)|]. intros s' c' X.
    apply nth_error_None in N'. unfold tl in X. rewrite skipn_all2 in X by (rewrite map_length; unfold tokspan in *; lia). discriminate.
Qed.
Lemma word_behind p k sp sp' : nth_error toks p = Some (Kw k, sp) -> In k [KScopeOp; KDollarCurlyBracesOpen; KConst] -> nth_error toks (S p) <> Some (Kw KYield, sp').
Proof.
  intros N K N'. apply NS. do 8 right. left. exists (firstn p ts), k, [], (tl toks (S (S p))). split; [|auto].
  cbn [app]. rewrite <- (tl_cons toks _ _ _ N'), <- (tl_cons toks _ _ _ N). apply tl_split.
Qed.
Lemma word_const p sp q sp1 sp' : nth_error toks p = Some (Kw KConst, sp) -> p < q -> unbroken (seg toks (S p) q) ->
  nth_error toks q = Some (Kw KComma, sp1) -> nth_error toks (S q) <> Some (Kw KYield, sp').
Proof.
  intros N L U N1 N'. apply NS. do 8 right. left. exists (firstn p ts), KConst, (seg toks (S p) q ++ [Kw KComma]), (tl toks (S (S q))). split.
  - rewrite <- app_assoc. cbn [app]. rewrite <- (tl_cons toks _ _ _ N'), <- (tl_cons toks _ _ _ N1), <- (seg_tl toks (S p) q L), <- (tl_cons toks _ _ _ N). apply tl_split.
  - right. split; [reflexivity|]. split; [|eauto]. apply unbroken_app; [exact U|apply unbroken_one; discriminate].
Qed.
Lemma string_ok p k sp : nth_error toks p = Some (Kw k, sp) -> In k [KDoubleQuote; KHereDocStart] -> no_string (tl toks (S p)) = false.
Proof.
  intros N K. destruct (no_string (tl toks (S p))) eqn:E; [|reflexivity]. exfalso. apply NS. do 9 right. exists (firstn p ts), k, (tl toks (S p)).
  split; [|auto]. rewrite <- (tl_cons toks _ _ _ N). apply tl_split.
Qed.

(** ** The steps of the proofs *)
Definition sub (b : bool) (p q : nat) : Prop := path toks b p q 0.
Definition is_inst (e : expr) : Prop := match enode e with EInstanceOf _ _ => True | _ => False end.
(** the tree is that of an [instanceof] read before [q] in the same expression *)
Definition instat (e : expr) (q : nat) : Prop :=
  is_inst e -> exists i sp, i < q /\ nth_error toks i = Some (Kw KInstanceOf, sp) /\ unbroken (seg toks (S i) q).
Lemma instat_tok e q t sp : instat e q -> nth_error toks q = Some (t, sp) -> t <> Kw KSemiColon -> instat e (S q).
Proof.
  intros H N T I. destruct (H I) as (i & si & L & Ni & U). exists i, si. split; [lia|]. split; [exact Ni|].
  rewrite (seg_S toks (S i) q t sp) by (assumption || lia). apply unbroken_app; [exact U|apply unbroken_one, T].
Qed.
Lemma instat_sub e q r : instat e q -> sub true q r -> instat e r.
Proof.
  intros H (A & B & _ & D) I. destruct (H I) as (i & si & L & Ni & U). exists i, si. split; [lia|]. split; [exact Ni|].
  rewrite (seg_app toks (S i) q r) by lia. apply unbroken_app; auto.
Qed.
Lemma sub_unbroken p q : sub true p q -> unbroken (seg toks p q).
Proof. intros (_ & _ & _ & U). auto. Qed.
Lemma instat_no e q : ~ is_inst e -> instat e q.
Proof. intros H I. contradiction. Qed.
Lemma late_mono p q : ahead_late p -> p <= q -> ahead_late q.
Proof. intros H L r t R. apply H. lia. Qed.

Create HintDb safe.
Ltac pl := repeat match goal with H : path _ _ _ _ _ |- _ => apply path_le in H; destruct H | H : nth_error toks _ = Some _ |- _ => apply nth_lt in H end; unfold tokspan in *; lia.
Ltac grow := repeat match goal with
  | H : path toks ?b ?p ?q ?n, T : nth_error toks ?q = Some (?t, ?sp) |- _ =>
    lazymatch goal with _ : path toks b p (S q) _ |- _ => fail | _ => idtac end;
    lazymatch t with
    | Kw KParenthesesOpen => pose proof (path_open toks b p q n sp H T)
    | Kw KParenthesesClose => pose proof (path_close toks b p q _ sp H T)
    | Kw KSemiColon => pose proof (path_semi toks p q n sp H T)
    | _ => pose proof (path_tok toks b p q n t sp H T eq_refl ltac:(discriminate))
    end
  end.
Ltac absorb := repeat match goal with K : sub ?b1 ?q ?r |- _ =>
    repeat (match goal with H : path toks ?b ?p q ?n |- _ =>
      lazymatch goal with _ : path toks b p r _ |- _ => fail | _ => idtac end;
      first [pose proof (path_sub toks b p q n r H K) | pose proof (path_subf toks p q n r b1 H K)] end);
    destruct (path_le toks _ _ _ _ K); clear K end.
Ltac norm := repeat match goal with H : _ /\ _ |- _ => destruct H end;
  repeat match goal with H : ?x = ?y |- _ => is_var x; lazymatch type of x with nat => subst x end end; try contradiction; absorb; grow.
Ltac use := eapply wps_use; [ solve [ eauto 4 with safe ] | cbv beta; intros ? ? ?; norm | cbv beta; intros ? ? ?; norm ].
Ltac begin b := match goal with |- wps _ ?p _ _ => assert (path toks b p p 0) by (apply path_refl; pl) end.
Ltac st :=
  match goal with
  | |- wps (pbind _ _) _ _ _ => apply wps_bind
  | |- wps (pcatch _ _ _) _ _ _ => apply wps_catch
  | |- wps (deepest _ _ _) _ _ _ => apply wps_deepest
  | |- wps (deepest_unpack _) _ _ _ => apply wps_deepest_unpack; intros
  | |- wps (pret _) _ _ _ => apply wps_ret
  | |- wps (perr _) _ _ _ => apply wps_err
  | |- wps (pthrow _) _ _ _ => apply wps_throw
  | |- wps pfuel _ _ _ => apply wps_fuel
  | |- wps getpos _ _ _ => apply wps_getpos
  | |- wps (setpos _) _ _ _ => apply wps_setpos
  | |- wps (peek _) _ _ _ => apply wps_peek
  | |- wps (prev_end _) _ _ _ => apply wps_prev_end; [pl|pl|intros ?]
  | |- wps (look _ _ _ _) _ _ _ => apply wps_look; [intros ? ? ?; grow|]
  | |- wps (look_var _ _ _) _ _ _ => apply wps_look_var; [intros ? ? ? ?; grow|]
  | |- wps (look_string _ _ _) _ _ _ => apply wps_look_string; [intros ? ? ? ?; grow|]
  | |- wps (look_ces _ _ _) _ _ _ => apply wps_look_ces; [intros ? ? ? ?; grow|]
  | |- wps (sees _ _) _ _ _ => apply wps_sees; [intros ? ? ?|]
  | |- wps (expect _ _) _ _ _ => unfold expect
  | |- wps (expect_or _ _ _) _ _ _ => unfold expect_or
  | |- wps (expect_var _) _ _ _ => unfold expect_var
  | |- wps (expect_string _) _ _ _ => unfold expect_string
  | |- _ => use
  | |- wps (let (_, _) := ?x in _) _ _ _ => destruct x
  | |- wps (match ?x with _ => _ end) _ _ _ => let E := fresh "E" in destruct x eqn:E
  | |- _ => progress cbv beta zeta
  end.
Ltac psub := unfold sub; match goal with
  | H : path toks ?b ?p ?q ?n |- path toks ?b ?p ?q 0 => exact (path_weak toks b p q n H)
  | H : path toks ?b ?p ?q ?n |- path toks false ?p ?q 0 => exact (path_false toks b p q n H) end.
Ltac inst1 := first
  [ assumption
  | apply instat_no; solve [assumption | intros []]
  | match goal with H : instat ?e ?q, N : nth_error toks ?q = Some (?t, ?sp) |- instat (Ex (enode ?e) _) (S ?q) => exact (instat_tok e q t sp H N ltac:(discriminate)) end
  | match goal with H : instat ?e ?q, N : nth_error toks ?q = Some (?t, ?sp) |- instat ?e (S ?q) => exact (instat_tok e q t sp H N ltac:(discriminate)) end
  | match goal with H : instat ?e ?q |- instat ?e ?r => apply (instat_sub e q r H); psub end ].
Ltac fin := repeat match goal with |- _ /\ _ => split | |- sub _ _ _ => psub | |- True => exact I | |- instat _ _ => inst1 | |- _ < _ => assumption | |- _ <= _ => assumption end.
Ltac go := repeat st; fin; try solve [pl].
Hint Extern 5 (_ <= _) => pl : safe.
Hint Extern 5 (_ < _) => pl : safe.
Hint Extern 5 (instat _ _) => inst1 : safe.

Notation good b m p := (wps m p (fun _ q => sub b p q) (fun _ q => sub b p q)).

Lemma parse_simple_variable_w p : p <= len ->
  wps (parse_simple_variable toks) p (fun r q => sub true p q /\ p < q /\ (ahead_late p -> 1 <= sp_start (snd r))) (fun _ q => q = p).
Proof.
  intros L. unfold parse_simple_variable. begin true. st; [exfalso; eapply no_dollar; eauto|].
  st; [|st; reflexivity]. st. split; [psub|]. split; [lia|]. intros G. specialize (G p _ (le_n p) H0). cbn in *. lia.
Qed.
Hint Resolve parse_simple_variable_w : safe.
Lemma parse_simple_variable_expr_w p : p <= len ->
  wps (parse_simple_variable_expr toks) p (fun e q => sub true p q /\ instat e q /\ p < q /\ (ahead_late p -> 1 <= estart e)) (fun _ q => q = p).
Proof. intros L. unfold parse_simple_variable_expr. begin true. go. auto. Qed.
Hint Resolve parse_simple_variable_expr_w : safe.

Definition named (t : token) : Prop := match t with TString _ => True | Kw KNsSeparator => True | _ => False end.
Definition ends_named (q : nat) : Prop := exists r s sp, q = S r /\ nth_error toks r = Some (TString s, sp).
Lemma named_adapt l : Forall named l -> Forall adaptation_token l.
Proof. apply Forall_impl. intros [[]| | | | | | | |] H; try contradiction; cbn; auto. Qed.
Lemma named_S p q t sp : p <= q -> nth_error toks q = Some (t, sp) -> named t -> Forall named (seg toks p q) -> Forall named (seg toks p (S q)).
Proof. intros L N T F. rewrite (seg_S toks p q t sp L N). apply Forall_app. split; [exact F|]. constructor; [exact T|constructor]. Qed.
Lemma named_app p q r : p <= q -> q <= r -> Forall named (seg toks p q) -> Forall named (seg toks q r) -> Forall named (seg toks p r).
Proof. intros A B F G. rewrite (seg_app toks p q r A B). apply Forall_app. auto. Qed.

Lemma ns_fragments_w n : forall acc p, p <= len ->
  wps (ns_fragments toks n acc) p
    (fun l q => sub true p q /\ p < q /\ ends_named q /\ Forall named (seg toks p q) /\
       exists s sp, nth_error toks p = Some (TString s, sp) /\ l <> [] /\ hd ([], span_new) l = hd ([], span_new) (acc ++ [(s, sp)]))
    (fun _ q => sub true p q).
Proof.
  induction n; intros acc p L; [apply wps_fuel|]. cbn [ns_fragments]. begin true.
  st; [|st; psub]. cbv zeta. st. st.
  assert (X : Forall named (seg toks p (S p))) by (rewrite (seg_one toks p _ _ H0); repeat constructor).
  assert (Y : forall l q, l = acc ++ [(s, sp)] -> q = S p -> sub true p q /\ p < q /\ ends_named q /\ Forall named (seg toks p q) /\
    exists s sp, nth_error toks p = Some (TString s, sp) /\ l <> [] /\ hd ([], span_new) l = hd ([], span_new) (acc ++ [(s, sp)])).
  { intros l q -> ->. split; [psub|]. split; [lia|]. split; [exists p, s, sp; auto|]. split; [exact X|]. exists s, sp. split; [exact H0|]. split; [destruct acc; discriminate|reflexivity]. }
  st; [|st; apply Y; reflexivity]. st. st.
  destruct (nth_error toks (S (S p))) as [[[]]|] eqn:N; try (st; st; st; apply Y; reflexivity).
  eapply wps_use; [apply (IHn (acc ++ [(s, sp)]) (S (S p))); pl| |]; cbv beta.
  - intros l q (A & B & C & D & s9 & sp9 & N9 & NE & E). absorb. split; [psub|]. split; [lia|]. split; [exact C|]. split.
    + apply (named_app p (S (S p))); [lia|lia| |exact D]. apply (named_S p (S p) _ _ ltac:(lia) H3); [exact Logic.I|exact X].
    + exists s, sp. split; [exact H0|]. split; [exact NE|]. rewrite E, <- app_assoc. destruct acc; reflexivity.
  - intros e q A. absorb. psub.
Qed.
Lemma parse_namespace_name_w p : p <= len ->
  wps (parse_namespace_name toks) p (fun r q => sub true p q /\ p < q /\ ends_named q /\ Forall named (seg toks p q) /\ (ahead_late p -> 2 <= sp_start (snd r)))
    (fun _ q => sub true p q).
Proof.
  intros L. unfold parse_namespace_name. begin true. st. eapply wps_use; [apply ns_fragments_w, L| |]; cbv beta.
  - intros l q (A & B & C & D & s & sp & N & NE & E). st. split; [exact A|]. split; [exact B|]. split; [exact C|]. split; [exact D|].
    intros G. cbn [snd]. unfold span_of_fragments. cbn [sp_start mk_span]. rewrite E. cbn. exact (G p _ (le_n p) N).
  - auto.
Qed.
Lemma parse_name_w p : p <= len ->
  wps (parse_name toks) p (fun r q => sub true p q /\ p < q /\ ends_named q /\ Forall named (seg toks p q) /\ (ahead_late p -> 1 <= sp_start (snd r)))
    (fun _ q => sub true p q).
Proof.
  intros L. unfold parse_name. begin true. st. st; [st|st].
  - st. eapply wps_use; [apply parse_namespace_name_w; pl| |]; cbv beta.
    + intros r q (A & B & C & D & E). assert (G : ahead_late (S p)) by (apply (late_mono p); [eapply HL; eauto; cbn; auto|lia]). specialize (E G).
      st. apply wps_psub; [lia|]. st. absorb. split; [psub|]. split; [lia|]. split; [exact C|]. split.
      * apply (named_app p (S p)); [lia|lia| |exact D]. rewrite (seg_one toks p _ _ H0). repeat constructor.
      * intros _. cbn. lia.
    + intros e q A. absorb. psub.
  - st. eapply wps_use; [apply parse_namespace_name_w; pl| |]; cbv beta; [|auto].
    intros r q (A & B & C & D & E). st. repeat (split; [assumption|]). intros G. specialize (E G). lia.
Qed.
Hint Resolve parse_namespace_name_w parse_name_w : safe.
Lemma adapt_S p q t sp : p <= q -> nth_error toks q = Some (t, sp) -> adaptation_token t -> Forall adaptation_token (seg toks p q) -> Forall adaptation_token (seg toks p (S q)).
Proof. intros L N T F. rewrite (seg_S toks p q t sp L N). apply Forall_app. split; [exact F|]. constructor; [exact T|constructor]. Qed.
Lemma adapt_app p q r : p <= q -> q <= r -> Forall adaptation_token (seg toks p q) -> Forall adaptation_token (seg toks q r) -> Forall adaptation_token (seg toks p r).
Proof. intros A B F G. rewrite (seg_app toks p q r A B). apply Forall_app. auto. Qed.
Lemma name_list_w n : forall acc p, p <= len ->
  wps (name_list toks n acc) p (fun _ q => sub true p q /\ p < q /\ ends_named q /\ Forall adaptation_token (seg toks p q)) (fun _ q => sub true p q).
Proof.
  induction n; intros acc p L; [apply wps_fuel|]. cbn [name_list]. begin true. st. use; [|psub]. cbv zeta. match goal with F : Forall named _ |- _ => pose proof (named_adapt _ F) as A end.
  st.
  - eapply wps_use; [apply IHn; pl| |]; cbv beta; intros; norm; [|psub]. split; [psub|]. split; [lia|]. split; [assumption|].
    apply (adapt_app p (S p')); [lia|lia| |assumption]. eapply adapt_S; [lia|eassumption|cbn; auto|assumption].
  - st. split; [psub|]. auto.
Qed.
Lemma parse_name_list_w p : p <= len ->
  wps (parse_name_list toks) p (fun _ q => sub true p q /\ p < q /\ ends_named q /\ Forall adaptation_token (seg toks p q)) (fun _ q => sub true p q).
Proof. apply name_list_w. Qed.
Hint Resolve parse_name_list_w : safe.
Notation named_expr m p :=
  (wps m p (fun e q => sub true p q /\ p < q /\ ~ is_inst e /\ (ahead_late p -> 1 <= estart e)) (fun _ q => sub true p q)).
Lemma parse_name_as_expr_w p : p <= len -> named_expr (parse_name_as_expr toks) p.
Proof. intros L. unfold parse_name_as_expr. begin true. go; auto. Qed.
Hint Resolve parse_name_as_expr_w : safe.
Lemma parse_class_name_w p : p <= len -> named_expr (parse_class_name toks) p.
Proof.
  intros L. unfold parse_class_name. begin true. st; [st; fin; [lia|intros []|]|apply parse_name_as_expr_w, L].
  intros G. specialize (G p _ (le_n p) H0). change (2 <= sp_start sp) in G. change (1 <= sp_start sp). lia.
Qed.
Hint Resolve parse_class_name_w : safe.
Lemma parse_identifier_w p : p <= len -> (forall sp, nth_error toks p <> Some (Kw KYield, sp)) ->
  wps (parse_identifier toks) p (fun _ q => sub true p q /\ q = S p /\ Forall adaptation_token (seg toks p q)) (fun _ q => q = p).
Proof.
  intros L Y. unfold parse_identifier. begin true. st. st. destruct (nth_error toks p) as [[[k|s| | | | | | |] sp]|] eqn:N; try (st; reflexivity).
  - destruct (is_reserved_non_modifier k) eqn:R; [|st; reflexivity]. st. apply wps_adv.
    assert (X : path toks true p (S p) 0) by (eapply path_tok; eauto; [destruct k; try discriminate R; reflexivity|intros E; injection E as ->; discriminate R]).
    assert (A : Forall adaptation_token (seg toks p (S p))) by (rewrite (seg_one toks p _ _ N); constructor; [cbn; auto|constructor]).
    destruct (repr k) eqn:E; [st; fin; [reflexivity|exact A]|]. destruct k; try discriminate R; try discriminate E. destruct (Y sp eq_refl).
  - st. apply wps_adv. grow. st. fin; [reflexivity|]. rewrite (seg_one toks p _ _ N). constructor; [cbn; auto|constructor].
Qed.
Lemma identifier_expr_w p : p <= len -> (forall sp, nth_error toks p <> Some (Kw KYield, sp)) ->
  wps (parse_identifier_as_expr toks) p (fun _ q => sub true p q /\ q = S p) (fun _ q => q = p).
Proof.
  intros L Y. unfold parse_identifier_as_expr. begin true. st. eapply wps_use; [apply parse_identifier_w; auto| |]; cbv beta; [|auto].
  intros a q (A & B & _). st. auto.
Qed.
Lemma resolve_no e : ~ is_inst e -> ~ is_inst (resolve_constant e).
Proof. destruct e as [n sp]. destruct n; cbn; auto. intros _. destruct (namespace p); [intros []|]. repeat match goal with |- context [if ?b then _ else _] => destruct b end; intros []. Qed.
Lemma parse_constant_w p : p <= len -> wps (parse_constant toks) p (fun e q => sub true p q /\ instat e q) (fun _ q => sub true p q).
Proof.
  intros L. unfold parse_constant. begin true. st. eapply wps_use; [apply parse_class_name_w, L| |]; cbv beta; intros; norm; [|psub]. cbv zeta.
  st; [|st; split; [psub|apply instat_no, resolve_no; assumption]]. st.
  eapply wps_use; [apply identifier_expr_w; [pl|intros sp0; eapply word_behind; eauto; cbn; auto]| |]; cbv beta; intros; norm; [st; fin|subst; psub].
Qed.
Hint Resolve parse_constant_w : safe.
Lemma member_mods_w n : forall acc p, p <= len -> good true (member_mods toks n acc) p.
Proof. induction n; intros acc p L; [apply wps_fuel|]. cbn [member_mods]. begin true. go. Qed.
Lemma parse_member_modifiers_w p : p <= len -> good true (parse_member_modifiers toks) p.
Proof. apply member_mods_w. Qed.
Hint Resolve parse_member_modifiers_w : safe.
Lemma trait_more p q : trait_block p -> p <= q -> Forall adaptation_token (seg toks p q) -> trait_block q.
Proof. intros (r & s & sp & sp' & A & B & C & D) L F. exists r, s, sp, sp'. split; [exact A|]. split; [exact B|]. split; [lia|]. apply (adapt_app _ p q); auto. Qed.
Lemma patmr_w p : p <= len ->
  wps (parse_absolute_trait_method_reference toks) p (fun _ q => sub true p q /\ p < q /\ Forall adaptation_token (seg toks p q)) (fun _ q => sub true p q).
Proof.
  intros L. unfold parse_absolute_trait_method_reference. begin true. st. use; [|psub]. st. st. st; [|st; psub]. st. st.
  eapply wps_use; [apply parse_identifier_w; [pl|intros sp0; eapply word_behind; eauto; cbn; auto]| |]; cbv beta; intros; norm; [|subst; psub].
  st. split; [psub|]. split; [lia|]. apply (adapt_app p (S p')); [lia|lia| |assumption]. eapply adapt_S; [lia|eassumption|cbn; auto|apply named_adapt; assumption].
Qed.
Lemma class_mods_w n : forall acc p, p <= len ->
  wps (class_mods toks n acc) p (fun l q => sub true p q /\ List.length l + p = List.length acc + q) (fun _ q => sub true p q).
Proof.
  induction n; intros acc p L; [apply wps_fuel|]. cbn [class_mods]. begin true.
  st; [|st; [|st; split; [psub|lia]]].
  all: eapply wps_use; [apply IHn; pl| |]; cbv beta; intros; norm; [|psub]; split; [psub|rewrite app_length in *; cbn in *; lia].
Qed.

Section Knot.
Variables (pe : nat -> P expr) (ps : P stmt).
Hypothesis Mpe : forall prec, ple (pe prec) (PE toks prec).
Hypothesis Mps : ple ps (PS toks).
Notation gexp m p := (wps m p (fun e q => sub true p q /\ instat e q) (fun _ q => sub true p q)).
Hypothesis Hpe : forall prec p, p <= len -> gexp (pe prec) p.
Hypothesis Hps : forall p, p <= len -> good false ps p.
Hint Resolve Hpe Hps : safe.

Lemma parse_opt_expression_w prec p : p <= len -> wps (parse_opt_expression pe prec) p (fun _ q => sub true p q) (fun _ _ => False).
Proof. intros. unfold parse_opt_expression. begin true. go. Qed.
Hint Resolve parse_opt_expression_w : safe.
Lemma expression_list_w n : forall acc p, p <= len -> good true (expression_list toks pe n acc) p.
Proof. induction n; intros acc p L; [apply wps_fuel|]. cbn [expression_list]. begin true. go. Qed.
Lemma parse_expression_list_w p : p <= len -> good true (parse_expression_list toks pe) p.
Proof. apply expression_list_w. Qed.
Hint Resolve parse_expression_list_w : safe.
Lemma argument_list_w n : forall acc p, p <= len -> good true (argument_list toks pe n acc) p.
Proof. induction n; intros acc p L; [apply wps_fuel|]. cbn [argument_list]. begin true. go. Qed.
Hint Resolve argument_list_w : safe.
Lemma parse_argument_list_w p sp : nth_error toks p = Some (Kw KParenthesesOpen, sp) ->
  wps (parse_argument_list toks pe) p (fun _ q => sub true p q /\ p < q) (fun _ q => sub true p q /\ q < len).
Proof.
  intros N. unfold parse_argument_list. begin true. assert (path toks true (S p) (S p) 0) by (apply path_refl; pl).
  assert (C : forall q, path toks true (S p) q 0 -> q < len).
  { intros q Hq. pose proof (path_le _ _ _ _ _ Hq). destruct (Nat.eq_dec q len) as [->|]; [destruct (closed p sp true N Hq)|lia]. }
  st. st. apply wps_look'; [|intros X; destruct (X sp N)]. intros ? ? ?. grow. st. go. all: apply C; eauto using path_weak.
Qed.
Hint Resolve parse_argument_list_w : safe.
Lemma array_pairs_w n : forall acc p, p <= len -> good true (array_pairs toks pe n acc) p.
Proof. induction n; intros acc p L; [apply wps_fuel|]. cbn [array_pairs]. begin true. go. Qed.
Lemma parse_array_pair_list_w p : p <= len -> good true (parse_array_pair_list toks pe) p.
Proof. apply array_pairs_w. Qed.
Hint Resolve parse_array_pair_list_w : safe.
Notation vexp m p :=
  (wps m p (fun e q => sub true p q /\ instat e q /\ p < q /\ (ahead_late p -> 1 <= estart e)) (fun _ q => sub true p q)).
Ltac late1 := intros; match goal with G : ahead_late ?p, N : nth_error toks ?p = Some (_, ?sp) |- 1 <= _ =>
  let X := fresh in pose proof (G p _ (le_n p) N) as X; change (2 <= sp_start sp) in X; change (1 <= sp_start sp); lia end.
Lemma parse_dereferencable_scalar_w p : p <= len -> vexp (parse_dereferencable_scalar toks pe) p.
Proof. intros. unfold parse_dereferencable_scalar. begin true. go. all: late1. Qed.
Hint Resolve parse_dereferencable_scalar_w : safe.
Lemma parse_property_name_w p : p <= len -> gexp (parse_property_name toks pe) p.
Proof. intros. unfold parse_property_name. begin true. go. Qed.
Hint Resolve parse_property_name_w : safe.
Lemma parse_base_variable_w b p : p <= len -> vexp (parse_base_variable toks pe b) p.
Proof. intros. unfold parse_base_variable. begin true. cbv zeta. destruct b; go. all: try assumption. all: late1. Qed.
Hint Resolve parse_base_variable_w : safe.
Lemma parse_const_scoped_w b p : p <= len -> vexp (parse_const_scoped toks b) p.
Proof.
  intros. unfold parse_const_scoped. begin true. st. st. cbv zeta. st. use; [|go]. st; [|go]. st. use; [go; auto|]. destruct b; [go|]. st.
  eapply wps_use; [apply identifier_expr_w; [pl|intros ?; eapply word_behind; eauto; cbn; auto]| |]; cbv beta; intros; norm; go. auto.
Qed.
Hint Resolve parse_const_scoped_w : safe.
Lemma parse_fn_call_base_item_w b p : p <= len -> vexp (parse_fn_call_base_item toks b) p.
Proof. intros. unfold parse_fn_call_base_item. begin true. destruct b; go. all: auto. Qed.
Hint Resolve parse_fn_call_base_item_w : safe.
Lemma push_idx_ok v i e : ~ is_inst (push_idx v i e) /\ estart (push_idx v i e) = estart v.
Proof. destruct v as [[] sp]; split; try reflexivity; intros []. Qed.
Lemma push_prop_ok v i e : ~ is_inst (push_prop v i e) /\ estart (push_prop v i e) = estart v.
Proof. destruct v as [[] sp]; split; try reflexivity; intros []. Qed.
Lemma push_static_ok v i e : ~ is_inst (push_static v i e) /\ estart (push_static v i e) = estart v.
Proof. destruct v as [[] sp]; split; try reflexivity; intros []. Qed.
Lemma appendixes_w n : forall b v p, p <= len -> instat v p ->
  wps (appendixes toks pe n b v) p (fun e q => sub true p q /\ instat e q /\ (1 <= estart v -> 1 <= estart e)) (fun _ q => sub true p q /\ q < len).
Proof.
  induction n; intros b v p L V; [apply wps_fuel|]. cbn [appendixes]. begin true.
  assert (R : forall v' q m, path toks true p q m -> ~ is_inst v' -> estart v' = estart v ->
    wps (appendixes toks pe n b v') q (fun e q => sub true p q /\ instat e q /\ (1 <= estart v -> 1 <= estart e)) (fun _ q => sub true p q /\ q < len)).
  { intros v' q m Hq NI E. eapply wps_use; [apply IHn; [pl|apply instat_no, NI]| |]; cbv beta; intros; norm; fin. rewrite <- E. assumption. }
  set (calls := if b then pret v else _).
  assert (RC : forall q m, path toks true p q m -> wps calls q (fun e q => sub true p q /\ instat e q /\ (1 <= estart v -> 1 <= estart e)) (fun _ q => sub true p q /\ q < len)).
  { intros q m Hq. unfold calls. destruct b; [st; fin; auto|]. st. st; [|st; fin; auto]. cbv iota. st.
    eapply wps_use; [eapply parse_argument_list_w; eassumption| |]; cbv beta; intros; norm; [|fin]. st. st. eapply R; [eassumption|intros []|reflexivity]. }
  clearbody calls.
  set (statics := look toks KScopeOp _ calls).
  assert (RS : forall q m, path toks true p q m -> wps statics q (fun e q => sub true p q /\ instat e q /\ (1 <= estart v -> 1 <= estart e)) (fun _ q => sub true p q /\ q < len)).
  { intros q m Hq. unfold statics. st; [|eapply RC; eassumption]. st. use; [|eapply RC; eassumption]. st. st. eapply R; [eassumption|apply push_static_ok..]. }
  clearbody statics.
  set (props := look toks KObjectOp _ statics).
  assert (RP : forall q m, path toks true p q m -> wps props q (fun e q => sub true p q /\ instat e q /\ (1 <= estart v -> 1 <= estart e)) (fun _ q => sub true p q /\ q < len)).
  { intros q m Hq. unfold props. st; [|eapply RS; eassumption]. st. use; [|eapply RS; eassumption]. st. st. eapply R; [eassumption|apply push_prop_ok..]. }
  clearbody props.
  st; [|eapply RP; eassumption]. st. use.
  st; [|eapply RP; eassumption]. st. st. eapply R; [eassumption|apply push_idx_ok..].
Qed.
Hint Resolve appendixes_w : safe.
Lemma variable_base_w b p : p <= len ->
  wps (variable_base toks pe b) p (fun e q => sub true p q /\ instat e q /\ p < q /\ (ahead_late p -> 1 <= estart e)) (fun _ q => q = p).
Proof.
  intros. unfold variable_base. begin true. go. all: try reflexivity. all: try assumption. all: eauto using late_mono with arith.
Qed.
Hint Resolve variable_base_w : safe.
Lemma parse_variable_w b p : p <= len ->
  wps (parse_variable toks pe b None) p (fun e q => sub true p q /\ instat e q /\ p < q /\ (ahead_late p -> 1 <= estart e)) (fun _ q => sub true p q /\ (q = p \/ q < len)).
Proof. intros. unfold parse_variable. begin true. go. all: auto. Qed.
Lemma parse_variable_some b v p : p <= len -> ~ is_inst v ->
  wps (parse_variable toks pe b (Some v)) p (fun e q => sub true p q /\ instat e q) (fun _ q => sub true p q).
Proof. intros. unfold parse_variable. begin true. st. st. eapply wps_use; [apply appendixes_w; [pl|apply instat_no; assumption]| |]; cbv beta; intros; norm; fin. Qed.
Hint Resolve parse_variable_w parse_variable_some : safe.
Lemma parse_class_name_reference_w p : p <= len -> good true (parse_class_name_reference toks pe) p.
Proof. intros. unfold parse_class_name_reference. begin true. go. Qed.
Hint Resolve parse_class_name_reference_w : safe.
Lemma operator_kind k np : precedence k = Some np -> k <> KQuestionMark -> k <> KInstanceOf ->
  binop_of k <> None /\ assoc_right k <> None /\ 1 <= np /\ is KParenthesesClose (Kw k) = false /\ k <> KSemiColon.
Proof.
  intros H A B. destruct k; vm_compute in H; try discriminate H; try congruence; injection H as <-; repeat split; try (vm_compute; congruence); lia.
Qed.
Lemma parse_binary_expression_w left prec p : p <= len -> instat left p ->
  wps (parse_binary_expression toks pe left prec) p
    (fun o q => sub true p q /\ match o with Some l => instat l q | None => q = p end) (fun _ q => sub true p q).
Proof.
  intros L V. unfold parse_binary_expression. begin true. st. st.
  destruct (nth_error toks p) as [[[k| | | | | | | |] sp]|] eqn:N; try (st; split; [psub|reflexivity]).
  destruct (precedence k) as [np|] eqn:PK; [|st; split; [psub|reflexivity]].
  destruct (np <=? prec); [st; split; [psub|reflexivity]|].
  assert (D : k = KQuestionMark \/ k = KInstanceOf \/ (k <> KQuestionMark /\ k <> KInstanceOf)) by (destruct k; auto; right; right; split; discriminate).
  destruct D as [->|[->|[D1 D2]]].
  - st. apply wps_adv. grow. go.
  - st. apply wps_adv. grow. destruct left as [nd sp1]. assert (NI : ~ is_inst (Ex nd sp1)).
    { intros I. destruct (V I) as (i & si & Li & Ni & U). exact (one_instanceof i si p sp Ni N Li U). }
    assert (G : wps (right <~ parse_class_name_reference toks pe;; pret (Some (Ex (EInstanceOf (Ex nd sp1) right) (mk_span (estart (Ex nd sp1)) (eend right))))) (S p)
      (fun (o : option expr) (q : nat) => sub true p q /\ match o with Some l => instat l q | None => q = p end) (fun _ q => sub true p q)).
    { st. eapply wps_use; [apply parse_class_name_reference_w; pl| |]; cbv beta; intros.
      - assert (B : unbroken (seg toks (S p) p')) by (apply sub_unbroken; assumption). norm. st. split; [psub|]. intros _. exists p, sp. split; [lia|]. split; [exact N|exact B].
      - norm. psub. }
    destruct nd; try exact G. exfalso. apply NI. exact I.
  - destruct (operator_kind k np PK D1 D2) as (B1 & B2 & B3 & B4 & B5).
    st. apply wps_adv. assert (path toks true p (S p) 0) by (eapply path_tok; eauto; congruence).
    assert (G : wps (o <~ unwrap_p (binop_of k);; np' <~ match assoc_right k with Some true => Parser.psub np 1 | Some false => pret np | None => ppanic PUnimplemented end;;
      right <~ pe np';; pret (Some (Ex (EBinary o left right) (mk_span (estart left) (eend right))))) (S p)
      (fun (o : option expr) (q : nat) => sub true p q /\ match o with Some l => instat l q | None => q = p end) (fun _ q => sub true p q)).
    { destruct (binop_of k); [|congruence]. destruct (assoc_right k) as [[]|]; [| |congruence]; cbn [unwrap_p]; go. apply wps_psub; [lia|]. go. }
    destruct k; try exact G; congruence.
Qed.
Lemma binary_loop_w n : forall prec left p, p <= len -> instat left p -> gexp (binary_loop toks pe n prec left) p.
Proof.
  induction n; intros prec left p L V; [apply wps_fuel|]. cbn [binary_loop]. begin true. st.
  eapply wps_use; [apply parse_binary_expression_w; [exact L|exact V]| |]; cbv beta.
  - intros [l|] q (A & B); [|subst; st; fin]. norm. eapply wps_use; [apply IHn; [pl|exact B]| |]; cbv beta; intros; norm; fin.
  - intros e q A. norm. st. fin.
Qed.
Hint Resolve binary_loop_w : safe.
Lemma pseb_w p : p <= len -> good false (parse_statement_extract_block ps) p.
Proof. intros. unfold parse_statement_extract_block. begin false. go. Qed.
Hint Resolve pseb_w : safe.
Lemma inner_statements_w n : forall acc p, p <= len -> good false (inner_statements toks ps n acc) p.
Proof. induction n; intros acc p L; [apply wps_fuel|]. cbn [inner_statements]. begin false. go. Qed.
Lemma pisl_w p : p <= len -> good false (parse_inner_statement_list toks ps) p.
Proof.
  intros L. unfold parse_inner_statement_list. pose proof not_empty as NE. pose proof (inner_statements_w (lf toks) [] p L) as X.
  destruct toks; [congruence|exact X].
Qed.
Hint Resolve pisl_w : safe.
Lemma parse_param_type_w p : p <= len -> good true (parse_param_type toks) p.
Proof. intros. unfold parse_param_type. begin true. go. Qed.
Hint Resolve parse_param_type_w : safe.
Lemma parse_is_ref_w p : p <= len -> good true (parse_is_ref toks) p.
Proof. intros. unfold parse_is_ref. begin true. go. Qed.
Lemma parse_is_variadic_w p : p <= len -> good true (parse_is_variadic toks) p.
Proof. intros. unfold parse_is_variadic. begin true. go. Qed.
Hint Resolve parse_is_ref_w parse_is_variadic_w : safe.
Lemma parameter_list_w n : forall acc p, p <= len -> good true (parameter_list toks pe n acc) p.
Proof. induction n; intros acc p L; [apply wps_fuel|]. cbn [parameter_list]. begin true. go. Qed.
Lemma parse_parameter_list_w p : p <= len -> good true (parse_parameter_list toks pe) p.
Proof. apply parameter_list_w. Qed.
Lemma use_vars_w n : forall acc p, p <= len -> good true (use_vars toks n acc) p.
Proof. induction n; intros acc p L; [apply wps_fuel|]. cbn [use_vars]. begin true. go. Qed.
Hint Resolve use_vars_w : safe.
Lemma here_tl p : p <= len -> ahead_late p -> here toks p (tl toks p).
Proof.
  intros L G. split; [|split; [|right]].
  - unfold tl. rewrite skipn_length, map_length. unfold tokspan in *. lia.
  - unfold tl. symmetry. apply skipn_map.
  - apply Forall_forall. intros t I. apply In_nth_error in I as (n & N). apply (G (p + n) t); [lia|]. rewrite <- N. symmetry. clear.
    revert p. induction toks as [|x l IH]; intros [|p]; cbn; try reflexivity; [destruct n; reflexivity|apply IH].
Qed.
(** the parameters are followed by the closing parenthesis *)
Lemma parameters_end p q sp (r : bool) name pr q' : nth_error toks p = Some (Kw KFunction, sp) -> p < q -> q <= len ->
  tl toks (S p) = (if r then [Kw KAmpersand] else []) ++ name ++ Kw KParenthesesOpen :: tl toks q -> (name = [] \/ exists s, name = [TString s]) ->
  parse_parameter_list toks pe q = POk pr q' -> (forall sp', nth_error toks q' <> Some (Kw KParenthesesClose, sp')) -> False.
Proof.
  intros N L L2 E NM R X. apply (parameters p sp r name _ N E NM). intros (tp & l & c & PA & B).
  destruct (params_all strict_block strict_class strict_whole strict_stmt _ _ PA) as (tss & -> & F).
  assert (G : ahead_late q) by (apply (late_mono p); [eapply HL; [exact N|cbn; auto]|lia]).
  pose proof (here_tl q L2 G) as H. rewrite B in H.
  pose proof (params_run tss l F toks Late (lf toks) [] [] q (Kw KParenthesesClose :: c) H (ex_intro _ c eq_refl)) as Y.
  specialize (Y (params_len _ _ _ _ _ F H (ex_intro _ c eq_refl)) eq_refl). unfold wpx in Y. destruct (parse_parameter_list_m toks pe (PE toks) Mpe q) as [Z|Z]; [congruence|].
  unfold parse_parameter_list in *. rewrite <- Z, R in Y. destruct Y as (Y & _). apply here_cons in Y; [|exact Late]. destruct Y as (Y & _). exact (X _ Y).
Qed.
Lemma wps_eq {A} (m : P A) p Q E : wps m p Q E -> wps m p (fun a q => Q a q /\ m p = POk a q) E.
Proof. unfold wps. destruct (m p); auto. Qed.
Lemma parse_function_declaration_w sp0 cl ab sp p : nth_error toks p = Some (Kw KFunction, sp) ->
  wps (parse_function_declaration toks pe ps sp0 cl ab) (S p)
    (fun s q => sub false (S p) q /\ S p < q /\
       if cl then exists d s1 s2, s = St (SExpr (Ex (EFunction d) s1)) s2 else exists nm d s2, s = St (SDecl (DFunction nm d)) s2)
    (fun _ q => sub false (S p) q).
Proof.
  intros N. assert (L : S p <= len) by pl. unfold parse_function_declaration. begin false. st.
  eapply wps_use with (Q := fun (r : bool) q => sub true (S p) q /\ tl toks (S p) = (if r then [Kw KAmpersand] else []) ++ tl toks q) (E := fun _ _ => False).
  { unfold parse_is_ref. begin true. go; [apply (tl_cons toks _ _ _ H1)|reflexivity]. }
  2:{ intros e q []. } intros r q (A1 & A2). norm. st.
  eapply wps_use with (Q := fun nm q' => sub true q q' /\ (exists ws, tl toks q = ws ++ tl toks q' /\ (ws = [] \/ exists s, ws = [TString s])) /\ if cl then nm = None else exists s, nm = Some s) (E := fun _ q' => q' = q).
  { begin true. destruct cl; go; eauto; [exists []; split; [reflexivity|auto]|]. match goal with T : nth_error toks q = Some (TString ?s, _) |- _ => exists [TString s]; split; [apply (tl_cons toks _ _ _ T)|eauto] end. }
  2:{ intros e q' ->. fin. } intros nm q1 (B1 & (ws & B2 & B3) & B4). norm. st. unfold expect. st; [|st; fin]. st. st.
  assert (L1 : S q1 <= len) by pl.
  eapply wps_use; [apply wps_eq, (parse_parameter_list_w (S q1) L1)| |]; cbv beta; [|intros; norm; fin].
  intros pr q2 (C1 & C2). norm. st. apply wps_look'.
  2:{ intros X. destruct (snd pr); [st; fin|]. exfalso. eapply (parameters_end p (S q1) sp r ws pr q2 N); [lia|exact L1| |exact B3|exact C2|exact X].
      rewrite A2, B2. f_equal. f_equal. match goal with T : nth_error toks q1 = Some _ |- _ => apply (tl_cons toks _ _ _ T) end. }
  intros sp2 N2 LL. grow. st. st. apply wps_use with (Q := fun _ q' => sub true (S q2) q') (E := fun _ q' => sub true (S q2) q').
  { begin true. destruct cl; go. }
  2:{ intros; norm; fin. }
  intros us q3 D. norm. st. apply wps_use with (Q := fun _ q' => sub false q3 q') (E := fun _ q' => sub false q3 q').
  { begin false. destruct ab; go. }
  2:{ intros; norm; fin. }
  intros nb q4 F. norm. st. apply wps_use with (Q := fun _ q' => sub false q4 q') (E := fun _ q' => sub false q4 q').
  { begin false. destruct nb; go. }
  2:{ intros; norm; fin. }
  intros body q5 G. norm. st. st. st. fin; [pl|]. destruct cl; [subst nm; eauto|]. destruct B4 as (s & ->). eauto.
Qed.

Lemma class_consts_w n : forall mods acc c p sp, nth_error toks c = Some (Kw KConst, sp) -> sub true (S c) p -> (forall sp, nth_error toks p <> Some (Kw KYield, sp)) ->
  good true (class_consts toks pe n mods acc) p.
Proof.
  induction n; intros mods acc c p sp N U Y; [apply wps_fuel|]. cbn [class_consts]. assert (L : p <= len) by (apply path_le in U; lia). begin true. st.
  eapply wps_use; [apply parse_identifier_w; [exact L|exact Y]| |]; cbv beta; [|intros e q ->; fin]. intros i q (A1 & A2 & _).
  assert (path toks true (S c) q 0) by (apply (path_sub toks true (S c) p 0 q U A1)). subst q. norm. st. unfold expect. st; [|st; fin]. st. st.
  eapply wps_use; [apply Hpe; pl| |]; cbv beta; [|intros; norm; fin]. intros e q B. norm. cbv zeta. st; [|st; fin].
  eapply wps_use; [eapply (IHn mods _ c (S q) sp N)| |]; cbv beta.
  - unfold sub. assumption.
  - intros sp'. eapply (word_const c sp q); [exact N|pl| |eassumption]. apply sub_unbroken. unfold sub. assumption.
  - intros; norm; fin.
  - intros; norm; fin.
Qed.
Lemma class_props_w n : forall mods acc p, p <= len -> good true (class_props toks pe n mods acc) p.
Proof. induction n; intros mods acc p L; [apply wps_fuel|]. cbn [class_props]. begin true. go. Qed.
Hint Resolve class_props_w : safe.
Lemma trait_tok p t sp : trait_block p -> nth_error toks p = Some (t, sp) -> adaptation_token t -> trait_block (S p).
Proof. intros T N A. apply (trait_more p (S p) T); [lia|]. rewrite (seg_one toks p t sp N). constructor; [exact A|constructor]. Qed.
Lemma trait_uses_w n : forall first acc p, p <= len -> trait_block p -> good false (trait_uses toks n first acc) p.
Proof.
  induction n; intros first acc p L T; [apply wps_fuel|]. cbn [trait_uses]. begin false. st.
  apply wps_use with (Q := fun _ q => sub false p q /\ trait_block q) (E := fun _ q => q = p).
  { destruct first; [st; split; [psub|exact T]|]. st. st. st; [|st; reflexivity]. st. st. split; [psub|]. eapply trait_tok; eauto. cbn. auto 10. }
  2:{ intros e q ->. fin. }
  intros _ q (A & B). clear T. norm. st. st. st.
  apply wps_use with (Q := fun r q' => match r with None => q' <= len /\ sub false q q' | Some _ => sub false q q' /\ trait_block q' end) (E := fun _ q' => sub false q q').
  { assert (LQ : q <= len) by pl. begin false. st. eapply wps_use; [apply patmr_w; exact LQ| |]; cbv beta.
    - intros r q' (C & D & F). st. split; [norm; fin|]. apply (trait_more q q' B); [lia|exact F].
    - intros e q' C. st. st. st. eapply wps_use; [apply parse_identifier_w; [exact LQ|intros sp; apply trait_yield, B]| |]; cbv beta.
      + intros r q1 (D & -> & F). st. split; [norm; fin|]. apply (trait_more q (S q) B); [lia|exact F].
      + intros e' q1 ->. st. split; [exact LQ|fin]. }
  2:{ intros; norm; fin. }
  intros [[pa m]|] q1 C; [|norm; st; fin]. destruct C as (C & D). norm. cbv zeta.
  assert (AS : forall q2, path toks false p q2 0 -> trait_block q2 -> 
    wps (look toks KAs (fun _ => look_string toks (fun s _ => trait_uses toks n false (acc ++ [TUAs pa m member_modifiers_none (Some s)])) (ppanic PUnimplemented)) (trait_uses toks n false acc)) q2
      (fun _ q => sub false p q) (fun _ q => sub false p q)).
  { intros q2 P2 T2. apply wps_look; [intros spa NA LA; grow|].
    - destruct (trait_as q2 _ T2 NA) as (s & sp' & N). apply wps_look_string'; [|intros X; exfalso; exact (X _ _ N)]. intros s' sp2 N2 L2. grow.
      eapply wps_use; [apply IHn; [pl|]| |]; cbv beta; [|intros; norm; fin|intros; norm; fin].
      eapply trait_tok; [|exact N2|exact I]. eapply trait_tok; [exact T2|exact NA|]. cbn. auto 10.
    - eapply wps_use; [apply IHn; [pl|exact T2]| |]; cbv beta; intros; norm; fin. }
  destruct pa as [p0|]; [|apply AS; assumption]. st; [|apply AS; assumption]. st. unfold parse_name_list.
  eapply wps_use; [apply name_list_w; pl| |]; cbv beta; [|intros; norm; fin]. intros names q3 (E1 & E2 & _ & E3).
  assert (T3 : trait_block q3). { apply (trait_more (S q1) q3); [|lia|exact E3]. eapply trait_tok; eauto. cbn. auto 10. }
  norm. eapply wps_use; [apply IHn; [pl|exact T3]| |]; cbv beta; intros; norm; fin.
Qed.
Lemma parse_class_statement_w p : p <= len -> good false (parse_class_statement toks pe ps) p.
Proof.
  intros L. unfold parse_class_statement. begin false. cbv zeta. st; [go|]. st. use; [|fin]. st.
  { st. unfold parse_name_list. eapply wps_use; [apply name_list_w; pl| |]; cbv beta; [|intros; norm; fin]. intros ns q (A & B & C & D). norm.
    st; [st; fin|]. st. st. st; [|st; fin]. st. st; [st; fin|].
    assert (T : trait_block (S q)). { destruct C as (r & s & sp' & -> & N). eexists r, s, sp', _. split; [exact N|]. split; [eassumption|]. split; [lia|]. rewrite seg_nil. constructor. }
    st. eapply wps_use; [apply trait_uses_w; [pl|exact T]| |]; cbv beta; [|intros; norm; fin]. intros us q1 F. norm. go. }
  st.
  { st. eapply wps_use; [eapply parse_function_declaration_w; eassumption| |]; cbv beta; [|intros; norm; fin].
    intros s q (A & _ & nm & d & s2 & ->). norm. st. fin. }
  st.
  { st. eapply wps_use; [eapply class_consts_w; [eassumption|apply path_refl; pl|intros sp'; eapply word_behind; [eassumption|cbn; auto]]| |]; cbv beta; intros; norm; go. }
  go.
Qed.
Hint Resolve parse_class_statement_w : safe.
Lemma class_statements_w n : forall acc p, p <= len -> good false (class_statements toks pe ps n acc) p.
Proof. induction n; intros acc p L; [apply wps_fuel|]. cbn [class_statements]. begin false. go. Qed.
Lemma parse_class_statement_list_w p : p <= len -> good false (parse_class_statement_list toks pe ps) p.
Proof.
  intros L. unfold parse_class_statement_list. pose proof not_empty as NE. pose proof (class_statements_w (lf toks) [] p L) as X.
  destruct toks; [congruence|exact X].
Qed.
Hint Resolve parse_class_statement_list_w : safe.
Lemma parse_oo_declaration_w p : p <= len -> good false (parse_oo_declaration toks pe ps) p.
Proof.
  intros L. unfold parse_oo_declaration. begin false. st.
  apply wps_use with (Q := fun ot q => sub true p q /\ match ot with OoClass => q = p | _ => q = S p end) (E := fun _ _ => False).
  { begin true. repeat (st; [st; fin; reflexivity|]). st. fin. reflexivity. }
  2:{ intros e q []. }
  intros ot q (A & B). st.
  apply wps_use with (Q := fun l q' => sub true p q' /\ List.length l + S p = q') (E := fun _ q => sub true p q).
  { assert (path toks true p p 0) by (apply path_refl; exact L). norm. destruct ot; subst; [|st; split; [psub|reflexivity]|st; split; [psub|reflexivity]].
    st. eapply wps_use; [apply class_mods_w; exact L| |]; cbv beta; [|intros; norm; fin]. intros l q' (C & D). norm. cbn in D. go; lia. }
  2:{ intros; norm; fin. }
  intros l q' (C & D). norm. subst q'. st. st. st. apply wps_psub; [lia|]. st. apply wps_psub; [lia|]. st. apply wps_span_at; [pl|]. intros sp0.
  st. unfold expect_string. st; [|st; fin]. st. st.
  apply wps_use with (Q := fun _ q' => sub true (S (List.length l + S p)) q') (E := fun _ q' => sub true (S (List.length l + S p)) q').
  { begin true. destruct ot; go. }
  2:{ intros; norm; fin. }
  intros ext q1 E. norm. st.
  apply wps_use with (Q := fun _ q' => sub true q1 q') (E := fun _ q' => sub true q1 q').
  { begin true. destruct ot; go. }
  2:{ intros; norm; fin. }
  intros imp q2 F. norm. go.
Qed.
Hint Resolve parse_oo_declaration_w : safe.

(** ** Strings *)
Definition starter (t : token) : bool :=
  match t with
  | TCes _ | TString _ | TVariable _ => true
  | Kw k => match k with KStatic | KNsSeparator | KParenthesesOpen | KArray | KSquareBracketOpen => true | _ => false end
  | _ => false
  end.
Lemma variable_base_no p : p <= len -> (forall t sp, nth_error toks p = Some (t, sp) -> starter t = false) ->
  wps (variable_base toks pe false) p (fun _ _ => False) (fun _ q => q = p).
Proof.
  intros L S. unfold variable_base, parse_const_scoped, parse_fn_call_base_item, parse_base_variable, parse_class_name, parse_name_as_expr, parse_name, parse_namespace_name, lf.
  cbn [ns_fragments]. unfold parse_simple_variable_expr, parse_simple_variable, parse_dereferencable_scalar.
  repeat (match goal with
    | |- wps (look _ _ _ _) _ _ _ => apply wps_look; [let N := fresh in intros ? N ?; first [discriminate (S _ _ N) | exfalso; eapply no_dollar; exact N]|]
    | |- wps (look_var _ _ _) _ _ _ => apply wps_look_var; [let N := fresh in intros ? ? N ?; discriminate (S _ _ N)|]
    | |- wps (look_string _ _ _) _ _ _ => apply wps_look_string; [let N := fresh in intros ? ? N ?; discriminate (S _ _ N)|]
    | |- wps (look_ces _ _ _) _ _ _ => apply wps_look_ces; [let N := fresh in intros ? ? N ?; discriminate (S _ _ N)|]
    | |- wps (pbind _ _) _ _ _ => apply wps_bind
    | |- wps (pcatch _ _ _) _ _ _ => apply wps_catch
    | |- wps (deepest _ _ _) _ _ _ => apply wps_deepest
    | |- wps (deepest_unpack _) _ _ _ => apply wps_deepest_unpack; intros
    | |- wps (pret _) _ _ _ => apply wps_ret
    | |- wps (perr _) _ _ _ => apply wps_err
    | |- wps (pthrow _) _ _ _ => apply wps_throw
    | |- wps getpos _ _ _ => apply wps_getpos
    | |- wps (setpos _) _ _ _ => apply wps_setpos
    end; cbv beta zeta iota). all: reflexivity.
Qed.
Definition accessor (k : kind) : bool := match k with KParenthesesOpen | KSquareBracketOpen | KScopeOp | KObjectOp => true | _ => false end.
Lemma appendixes_stop n v p : (forall k sp, nth_error toks p = Some (Kw k, sp) -> accessor k = false) ->
  wps (appendixes toks pe n false v) p (fun e q => e = v /\ q = p) (fun _ _ => False).
Proof.
  intros S. destruct n; [apply wps_fuel|]. cbn [appendixes].
  repeat (match goal with
    | |- wps (look _ _ _ _) _ _ _ => apply wps_look; [let N := fresh in intros ? N ?; discriminate (S _ _ N)|]
    | |- wps (sees _ _) _ _ _ => apply wps_sees; [let N := fresh in intros ? N ?; discriminate (S _ _ N)|]
    | |- wps (pbind _ _) _ _ _ => apply wps_bind
    | |- wps (pret _) _ _ _ => apply wps_ret
    end; cbv beta zeta iota). auto.
Qed.
Lemma reaches_tl p : reaches (tl toks p) = false ->
  (forall k sp, nth_error toks p = Some (Kw k, sp) -> accessor k = false) \/
  (exists sp s sp', nth_error toks p = Some (Kw KObjectOp, sp) /\ nth_error toks (S p) = Some (TString s, sp') /\
    forall k sp, nth_error toks (S (S p)) = Some (Kw k, sp) -> accessor k = false).
Proof.
  intros R. destruct (nth_error toks p) as [[t sp]|] eqn:N; [|left; discriminate]. rewrite (tl_cons toks p t sp N) in R.
  destruct t as [k| | | | | | | |]; try (left; discriminate).
  destruct (accessor k) eqn:A; [|left; intros k' sp' E; injection E as -> _; exact A].
  right. destruct k; try discriminate A; try discriminate R.
  destruct (nth_error toks (S p)) as [[t' sp']|] eqn:N'.
  2:{ apply nth_error_None in N'. unfold tl in R. rewrite skipn_all2 in R by (rewrite map_length; unfold tokspan in *; lia). discriminate R. }
  rewrite (tl_cons toks (S p) t' sp' N') in R. destruct t' as [k'|s| | | | | | |]; try discriminate R.
  exists sp, s, sp'. split; [reflexivity|]. split; [reflexivity|]. intros k sp2 N2. rewrite (tl_cons toks _ _ _ N2) in R. destruct k; try reflexivity; discriminate R.
Qed.
Lemma appendixes_easy n v p : p <= len -> instat v p -> reaches (tl toks p) = false ->
  wps (appendixes toks pe n false v) p (fun e q => sub true p q /\ instat e q) (fun _ _ => False).
Proof.
  intros L V R. begin true. destruct (reaches_tl p R) as [S|(sp & s & sp' & N1 & N2 & S)].
  - eapply wps_use; [apply appendixes_stop, S| |]; cbv beta; [intros e q (-> & ->); fin|intros e q []].
  - destruct n; [apply wps_fuel|]. cbn [appendixes]. apply wps_look; [intros sp1 X; rewrite X in N1; discriminate|].
    apply wps_look'; [|intros X; destruct (X _ N1)]. intros sp1 _ _. grow. st. unfold parse_property_name. st. st. st.
    unfold parse_simple_variable_expr, parse_simple_variable. st. apply wps_look; [intros sp2 X; rewrite X in N2; discriminate|].
    apply wps_look_var; [intros s2 sp2 X; rewrite X in N2; discriminate|]. st. st. st.
    apply wps_look_string'; [|intros X; destruct (X _ _ N2)]. intros s2 sp2 _ _. st. st. st.
    eapply wps_use; [apply appendixes_stop, S| |]; cbv beta; [intros e q (-> & ->)|intros e q []]. split; [psub|]. apply instat_no. apply push_prop_ok.
Qed.
Definition J (st : encaps) : Prop := ec_str st <> [] -> ec_start st <> None.
Definition parts_ok (l : list expr) (q : nat) : Prop := Forall (fun e => instat e q) l.
Definition full (st : encaps) : Prop := ec_str st <> [] \/ ec_parts st <> [].
Lemma parts_sub l p q : parts_ok l p -> sub true p q -> parts_ok l q.
Proof. intros F H. eapply Forall_impl; [|exact F]. intros e I. exact (instat_sub e p q I H). Qed.
Lemma parts_add l e p : parts_ok l p -> instat e p -> parts_ok (l ++ [e]) p.
Proof. intros F H. apply Forall_app. split; [exact F|]. constructor; [exact H|constructor]. Qed.
Lemma encaps_flush_w st p : J st -> parts_ok (ec_parts st) p -> wps (encaps_flush st) p (fun l q => q = p /\ parts_ok l p) (fun _ _ => False).
Proof.
  intros H F. unfold encaps_flush, J in *. destruct (ec_str st); [st; auto|]. destruct (ec_start st); [|exfalso; apply H; congruence].
  cbn [unwrap_p]. st. st. st. split; [reflexivity|]. apply parts_add; [exact F|]. apply instat_no. intros [].
Qed.
Lemma app_ne {A} (l : list A) x : l ++ [x] <> [].
Proof. destruct l; discriminate. Qed.
Notation encaps_post st p := (fun st' q => sub true p q /\ J st' /\ parts_ok (ec_parts st') q /\ (full st -> full st')).
Lemma encaps_loop_w n : forall st p, p <= len -> J st -> parts_ok (ec_parts st) p ->
  wps (encaps_loop toks pe n st) p (encaps_post st p) (fun _ q => sub true p q).
Proof.
  induction n; intros st p L HJ F; [apply wps_fuel|]. cbn [encaps_loop]. begin true.
  assert (R : forall st' q m, path toks true p q m -> J st' -> parts_ok (ec_parts st') q -> full st' \/ ~ full st -> 
    wps (encaps_loop toks pe n st') q (encaps_post st p) (fun _ q => sub true p q)).
  { intros st' q m Hq J' F' U. eapply wps_use; [apply IHn; [pl|exact J'|exact F']| |]; cbv beta; intros; norm; fin; auto. tauto. }
  st.
  { eapply R; [eassumption| | |].
    - intros _. cbn. destruct (ec_start st); discriminate.
    - apply (parts_sub _ p); [exact F|psub].
    - destruct (ec_str st) eqn:ES; [|left; left; cbn; destruct s; discriminate]. destruct (ec_parts st) eqn:EP; [|left; right; cbn; discriminate].
      right. intros [X|X]; congruence. }
  st.
  { assert (F1 : parts_ok (ec_parts st) (S p)) by (apply (parts_sub _ p); [exact F|psub]).
    st. eapply wps_use; [apply encaps_flush_w; [exact HJ|exact F1]| |]; cbv beta; [|intros ? ? []]. intros l q (-> & Fl). st.
    apply wps_use with (Q := fun e q => sub true (S p) q /\ instat e q) (E := fun _ q => sub true (S p) q).
    { begin true. st. eapply wps_use; [apply parse_identifier_w; [pl|intros sp'; eapply word_behind; [eassumption|cbn; auto]]| |]; cbv beta.
      - intros i q (A & _ & _). norm. st. eapply wps_use; [apply parse_variable_some; [pl|intros []]| |]; cbv beta; [|intros; norm; fin]. intros e q1 (B & C). norm. go.
      - intros e q ->. go. }
    2:{ intros; norm; fin. }
    intros e q (A & B). assert (F2 : parts_ok (l ++ [e]) q) by (apply parts_add; [apply (parts_sub _ (S p)); assumption|exact B]). norm.
    eapply R; [eassumption|intros X; destruct (X eq_refl)|exact F2|left; right; apply app_ne]. }
  st.
  { assert (F1 : parts_ok (ec_parts st) (S p)) by (apply (parts_sub _ p); [exact F|psub]).
    st. eapply wps_use; [apply encaps_flush_w; [exact HJ|exact F1]| |]; cbv beta; [|intros ? ? []]. intros l q (-> & Fl). st.
    eapply wps_use; [apply Hpe; pl| |]; cbv beta; [|intros; norm; fin]. intros e q (A & B).
    assert (F2 : parts_ok (l ++ [e]) q) by (apply parts_add; [apply (parts_sub _ (S p)); assumption|exact B]). norm. st. unfold expect. st; [|st; fin]. st.
    eapply R; [eassumption|intros X; destruct (X eq_refl)| |left; right; apply app_ne].
    apply (parts_sub _ q); [exact F2|]. eapply path_tok; [apply path_refl; pl|eassumption|reflexivity|discriminate]. }
  st. eapply wps_use; [apply parse_variable_w; exact L| |]; cbv beta.
  - intros e q (A & B & _). st. eapply wps_use; [apply encaps_flush_w; [exact HJ|apply (parts_sub _ p); [exact F|exact A]]| |]; cbv beta; [|intros ? ? []].
    intros l q1 (-> & Fl). norm. eapply R; [eassumption|intros X; destruct (X eq_refl)|apply parts_add; assumption|left; right; apply app_ne].
  - intros e q (A & _). st. split; [exact A|]. split; [exact HJ|]. split; [|auto]. apply (parts_sub _ p); assumption.
Qed.
Lemma encaps_first p : p <= len -> no_string (tl toks p) = false ->
  wps (encaps_loop toks pe (lf toks) (mkEncaps [] [] None 0)) p
    (fun st q => sub true p q /\ J st /\ parts_ok (ec_parts st) q /\ (full st \/ forall s sp, nth_error toks q <> Some (TCes s, sp))) (fun _ q => sub true p q).
Proof.
  intros L NO. unfold lf. set (n := S (List.length toks)). set (st0 := mkEncaps [] [] None 0). begin true.
  assert (J0 : J st0) by (intros X; destruct (X eq_refl)). assert (P0 : forall q, parts_ok (ec_parts st0) q) by (intros; constructor).
  assert (R : forall st' q m, path toks true p q m -> J st' -> parts_ok (ec_parts st') q -> full st' ->
    wps (encaps_loop toks pe n st') q (fun st q => sub true p q /\ J st /\ parts_ok (ec_parts st) q /\ (full st \/ forall s sp, nth_error toks q <> Some (TCes s, sp))) (fun _ q => sub true p q)).
  { intros st' q m Hq J' F' U. eapply wps_use; [apply encaps_loop_w; [pl|exact J'|exact F']| |]; cbv beta; intros; norm; fin; auto. }
  cbn [encaps_loop]. apply wps_look_ces'; [intros s sp N Ls; grow|intros NC].
  { eapply R; [eassumption|intros _; discriminate|constructor|]. left. cbn. rewrite (tl_cons toks p _ sp N) in NO. destruct s; [discriminate NO|discriminate]. }
  st.
  { cbn [encaps_flush ec_str ec_parts st0]. st. st. st.
    apply wps_use with (Q := fun e q => sub true (S p) q /\ instat e q) (E := fun _ q => sub true (S p) q).
    { begin true. st. eapply wps_use; [apply parse_identifier_w; [pl|intros sp'; eapply word_behind; [eassumption|cbn; auto]]| |]; cbv beta.
      - intros i q (A & _ & _). norm. st. eapply wps_use; [apply parse_variable_some; [pl|intros []]| |]; cbv beta; [|intros; norm; fin]. intros e q1 (B & C). norm. go.
      - intros e q ->. go. }
    2:{ intros; norm; fin. }
    intros e q (A & B). norm. eapply R; [eassumption|intros X; destruct (X eq_refl)|constructor; [exact B|constructor]|right; discriminate]. }
  st.
  { cbn [encaps_flush ec_str ec_parts st0]. st. st. st. eapply wps_use; [apply Hpe; pl| |]; cbv beta; [|intros; norm; fin]. intros e q (A & B). norm. st. unfold expect. st; [|st; fin]. st.
    eapply R; [eassumption|intros X; destruct (X eq_refl)| |right; discriminate]. constructor; [|constructor]. eapply instat_tok; [exact B|eassumption|discriminate]. }
  st.
  destruct (nth_error toks p) as [[t sp]|] eqn:N; [destruct (starter t) eqn:ST|].
  - rewrite (tl_cons toks p _ sp N) in NO. assert (V : exists v, t = TVariable v).
    { destruct t as [k|s| | | | | | |]; try discriminate ST; try discriminate NO; eauto; [destruct k; discriminate|exfalso; eapply NC; reflexivity]. }
    destruct V as (v & ->). cbn [no_string] in NO. unfold parse_variable. st.
    eapply wps_use with (Q := fun e q => q = S p /\ ~ is_inst e) (E := fun _ _ => False); [|intros e q (-> & NI)|intros e q []].
    { unfold variable_base, parse_const_scoped, parse_fn_call_base_item, parse_base_variable, parse_class_name, parse_name_as_expr, parse_name, parse_namespace_name, lf.
      cbn [ns_fragments]. unfold parse_simple_variable_expr, parse_simple_variable.
      repeat (match goal with
        | |- wps (look _ _ _ _) _ _ _ => apply wps_look; [let M := fresh in intros ? M ?; rewrite M in N; discriminate N|]
        | |- wps (look_var _ _ _) _ _ _ => unfold look_var
        | |- wps (look_string _ _ _) _ _ _ => apply wps_look_string; [let M := fresh in intros ? ? M ?; rewrite M in N; discriminate N|]
        | |- wps (peek _) _ _ _ => apply wps_peek; rewrite N
        | |- wps adv _ _ _ => apply wps_adv
        | |- wps (pbind _ _) _ _ _ => apply wps_bind
        | |- wps (pcatch _ _ _) _ _ _ => apply wps_catch
        | |- wps (deepest _ _ _) _ _ _ => apply wps_deepest
        | |- wps (pret _) _ _ _ => apply wps_ret
        | |- wps (perr _) _ _ _ => apply wps_err
        | |- wps (pthrow _) _ _ _ => apply wps_throw
        | |- wps getpos _ _ _ => apply wps_getpos
        | |- wps (setpos _) _ _ _ => apply wps_setpos
        end; cbv beta zeta iota). split; [reflexivity|intros []]. }
    grow. eapply wps_use; [apply appendixes_easy; [pl|apply instat_no, NI|exact NO]| |]; cbv beta; [|intros e' q []].
    intros e' q (A & B). st. cbn [encaps_flush ec_str ec_parts st0]. st. norm. eapply R; [eassumption|intros X; destruct (X eq_refl)|constructor; [exact B|constructor]|right; discriminate].
  - unfold parse_variable. st. eapply wps_use; [apply variable_base_no; [exact L|]| |]; cbv beta.
    + intros t' sp' N'. rewrite N in N'. injection N' as <- <-. exact ST.
    + intros ? ? [].
    + intros e q ->. st. split; [psub|]. split; [exact J0|]. split; [constructor|]. right. rewrite N. exact NC.
  - unfold parse_variable. st. eapply wps_use; [apply variable_base_no; [exact L|congruence]| |]; cbv beta.
    + intros ? ? [].
    + intros e q ->. st. split; [psub|]. split; [exact J0|]. split; [constructor|]. right. congruence.
Qed.
Lemma concat_ok l e q : parts_ok l q -> instat e q -> instat (concat_parts l e) q.
Proof. intros F H. destruct l as [|x l]; [exact H|]. apply instat_no. intros []. Qed.
Lemma parse_encaps_list_w p : p <= len -> no_string (tl toks p) = false -> gexp (parse_encaps_list toks pe) p.
Proof.
  intros L NO. unfold parse_encaps_list. st. eapply wps_use; [apply encaps_first; assumption| |]; cbv beta; [|auto]. intros st q (A & B & C & D). st.
  apply wps_use with (Q := fun o q' => q' = q /\ match o with Some e => ~ is_inst e | None => ec_str st = [] end) (E := fun _ _ => False).
  { unfold J in B. destruct (ec_str st); [st; auto|]. destruct (ec_start st); [|exfalso; apply B; congruence]. cbn [unwrap_p]. st. st. st. split; [reflexivity|intros []]. }
  2:{ intros ? ? []. }
  intros o q' (-> & E). destruct (ec_parts st) as [|x l] eqn:EP.
  - destruct o; [st; split; [exact A|apply instat_no, E]|]. apply wps_look_ces; [|st; exact A]. intros s sp N _. destruct D as [[X|X]|X]; [congruence|congruence|destruct (X _ _ N)].
  - destruct o; st; (split; [exact A|]); apply concat_ok.
    + exact C.
    + apply instat_no, E.
    + rewrite (app_removelast_last (Ex (EInt 0) span_new)) in C by discriminate. apply Forall_app in C. apply C.
    + rewrite (app_removelast_last (Ex (EInt 0) span_new)) in C by discriminate. apply Forall_app in C as (_ & C). inversion C. assumption.
Qed.
Lemma instat_node a s s' q : instat (Ex a s) q -> instat (Ex a s') q.
Proof. auto. Qed.
Lemma parse_scalar_w p : p < len -> gexp (parse_scalar toks pe) p.
Proof.
  intros L. unfold parse_scalar. begin true. st. st. destruct (nth_error toks p) as [[x sp]|] eqn:N; [|apply nth_error_None in N; unfold tokspan in *; lia].
  destruct (scalar_of x) as [e|] eqn:SC.
  - st. apply wps_adv. assert (path toks true p (S p) 0).
    { eapply path_tok; eauto; [destruct x as [[]| | | | | | | |]; try discriminate SC; reflexivity|destruct x as [[]| | | | | | | |]; discriminate]. }
    st. fin. apply instat_no. destruct x as [[]| | | | | | | |]; try discriminate SC; injection SC as <-; intros [].
  - assert (G : gexp (pcatch (parse_dereferencable_scalar toks pe) pret (fun _ => parse_constant toks)) p) by go.
    destruct x as [k| | | | | | | |]; try exact G. destruct k; try exact G; clear G.
    + st. apply wps_adv. grow. st; [go|]. st. eapply wps_use; [apply parse_encaps_list_w; [pl|eapply string_ok; [exact N|cbn; auto]]| |]; cbv beta; [|intros; norm; fin].
      intros e q (A & B). norm. unfold respan. go.
    + st. apply wps_adv. grow. st. eapply wps_use; [apply parse_encaps_list_w; [pl|eapply string_ok; [exact N|cbn; auto]]| |]; cbv beta; [|intros; norm; fin].
      intros e q (A & B). norm. unfold respan. go.
Qed.
Lemma isset_args_w n : forall many acc p, p <= len ->
  wps (isset_args toks pe n many acc) p (fun l q => sub true p q /\ (many = false -> List.length l = S (List.length acc))) (fun _ q => sub true p q).
Proof.
  induction n; intros many acc p L; [apply wps_fuel|]. cbn [isset_args]. begin true. go. all: intros; try discriminate. rewrite app_length. cbn. lia.
Qed.
Hint Resolve isset_args_w : safe.
Lemma assign_tok t sp o : assign_of (Some (t, sp)) = Some o -> is KParenthesesClose t = false /\ t <> Kw KSemiColon.
Proof. destruct t as [[]| | | | | | | |]; try discriminate; intros _; split; try reflexivity; discriminate. Qed.
Lemma parse_assign_w var p : p <= len -> instat var p -> gexp (parse_assign toks pe var) p.
Proof.
  intros L V. unfold parse_assign. begin true. st. st. destruct (assign_of _) as [o|] eqn:A; [|st; fin].
  destruct (nth_error toks p) as [[t sp]|] eqn:N; [|discriminate A]. destruct (assign_tok _ _ _ A) as (B & C). st. apply wps_adv.
  assert (path toks true p (S p) 0) by (eapply path_tok; eauto). st.
  apply wps_use with (Q := fun _ q => sub true (S p) q) (E := fun _ _ => False); [begin true; destruct o; go|intros r q D|intros ? ? []].
  norm. st. use; [|fin]. st. st. st. split; [psub|]. apply instat_no. destruct o; try (intros []; fail). destruct r; intros [].
Qed.
Hint Resolve parse_assign_w : safe.
Lemma parse_variable_expression_w p : p < len -> gexp (parse_variable_expression toks pe) p.
Proof.
  intros L. unfold parse_variable_expression. assert (L0 : p <= len) by lia. begin true. st. eapply wps_use; [apply parse_variable_w; exact L0| |]; cbv beta.
  - intros e q (A & B & C & _). norm. eapply wps_use; [apply parse_assign_w; [pl|exact B]| |]; cbv beta; intros; norm; fin.
  - intros e q (A & B). cbv zeta. assert (LQ : q < len) by (destruct B; subst; lia). clear B. norm. st; [go|]. st; [go|]. st.
    eapply wps_use; [apply parse_scalar_w; exact LQ| |]; cbv beta; intros; norm; go.
Qed.
Hint Resolve parse_variable_expression_w : safe.
Lemma parse_internal_w rest p : p < len -> gexp rest p -> gexp (parse_internal toks pe rest) p.
Proof.
  intros L R. unfold parse_internal. assert (L0 : p <= len) by lia. begin true. st. st.
  destruct (nth_error toks p) as [[[k| | | | | | | |] sp]|] eqn:N; try exact R.
  assert (X : (cast_ty k <> None \/ include_of k <> None) \/ k = KCastUnset \/ k = KIsset \/ k = KEmpty \/ (cast_ty k = None /\ include_of k = None /\ k <> KCastUnset /\ k <> KIsset /\ k <> KEmpty)).
  { destruct k; cbn; try (left; left; discriminate); try (left; right; discriminate); auto; do 4 right; repeat split; discriminate. }
  destruct X as [X|[X|[X|[X|X]]]].
  - assert (path toks true p (S p) 0).
    { eapply path_tok; eauto; [destruct k; try reflexivity; destruct X as [X|X]; exfalso; apply X; reflexivity|intros E; injection E as ->; destruct X as [X|X]; exfalso; apply X; reflexivity]. }
    destruct (cast_ty k); [st; apply wps_adv; go|]. destruct (include_of k); [|destruct X; congruence]. st. apply wps_adv. go.
  - subst. destruct (no_unset _ _ N).
  - subst. cbn [cast_ty include_of]. st. apply wps_adv. grow. go.
  - subst. cbn [cast_ty include_of]. st. apply wps_adv. grow. st. unfold expect. st; [|st; fin]. st. st.
    eapply wps_use; [apply isset_args_w; pl| |]; cbv beta; [|intros; norm; fin]. intros l q (A & B). specialize (B eq_refl). norm. st. st; [|st; fin]. st.
    destruct l as [|e [|]]; try discriminate B. st. fin.
  - destruct X as (-> & -> & X1 & X2 & X3). destruct k; try exact R; congruence.
Qed.
Lemma closure_sub p q sp : nth_error toks p = Some (Kw KFunction, sp) -> sub false (S p) q -> sub true p q.
Proof. intros N H. unfold sub in *. eapply path_fun; [apply path_refl|exact N|exact H]. apply nth_lt in N. lia. Qed.
Lemma parse_other_expression_w p : p < len -> gexp (parse_other_expression toks pe ps) p.
Proof.
  intros L. unfold parse_other_expression. assert (L0 : p <= len) by lia. begin true.
  assert (G : gexp (parse_internal toks pe (parse_variable_expression toks pe)) p) by (apply parse_internal_w; [exact L|apply parse_variable_expression_w; exact L]).
  st.
  { st. use; [|fin]. st. st.
    - cbv iota. st. eapply wps_use; [eapply parse_argument_list_w; eassumption| |]; cbv beta; intros; norm; go.
    - cbv iota. go. }
  st; [go|]. st; [go|]. st; [go|]. st; [|exact G].
  st. eapply wps_use; [eapply parse_function_declaration_w; eassumption| |]; cbv beta.
  - intros s q (A & _ & d & s1 & s2 & ->). st. split; [eapply closure_sub; eassumption|]. apply instat_no. intros [].
  - intros e q A. eapply closure_sub; eassumption.
Qed.
Lemma parse_postfix_expression_w p : p < len -> gexp (parse_postfix_expression toks pe ps) p.
Proof.
  intros L. unfold parse_postfix_expression. assert (L0 : p <= len) by lia. begin true. st.
  eapply wps_use; [apply parse_other_expression_w; exact L| |]; cbv beta; intros; norm; go.
Qed.
Lemma parse_unary_expression_w prec p : p <= len -> gexp (parse_unary_expression toks pe ps prec) p.
Proof.
  intros L. unfold parse_unary_expression. begin true. st. st. destruct (nth_error toks p) as [[x sp]|] eqn:N; [|st; fin]. st.
  apply wps_use with (Q := fun e q => sub true p q /\ instat e q) (E := fun _ q => sub true p q).
  { destruct (unop_of x) as [o|] eqn:U; [|apply parse_postfix_expression_w; eapply nth_lt; exact N].
    st. apply wps_adv. assert (path toks true p (S p) 0).
    { eapply path_tok; eauto; [destruct x as [[]| | | | | | | |]; try discriminate U; reflexivity|intros ->; discriminate U]. }
    go. }
  2:{ auto. }
  intros e q (A & B). norm. eapply wps_use; [apply binary_loop_w; [pl|exact B]| |]; cbv beta; intros; norm; fin.
Qed.

(** ** Statements *)
Lemma parse_foreach_variable_w p : p <= len -> good true (parse_foreach_variable toks pe) p.
Proof.
  intros L. unfold parse_foreach_variable, parse_is_ref. begin true. st. st.
  - st. st. eapply wps_use; [apply parse_variable_w; pl| |]; cbv beta; [|intros; norm; fin]. intros e q (A & _ & _ & B). norm. st.
    assert (1 <= estart e). { apply B. apply (late_mono p); [|lia]. eapply HL; [eassumption|cbn; auto]. }
    apply wps_psub; [assumption|]. st. fin.
  - go.
Qed.
Hint Resolve parse_foreach_variable_w : safe.
Lemma static_vars_w n : forall acc p, p <= len -> good true (static_vars toks pe n acc) p.
Proof. induction n; intros acc p L; [apply wps_fuel|]. cbn [static_vars]. begin true. go. Qed.
Hint Resolve static_vars_w : safe.
Lemma parse_static_var_decl_w sp p : p <= len -> good false (parse_static_var_decl toks pe sp) p.
Proof. intros L. unfold parse_static_var_decl. begin false. go. Qed.
Lemma global_vars_w n : forall acc p, p <= len -> good true (global_vars toks n acc) p.
Proof. induction n; intros acc p L; [apply wps_fuel|]. cbn [global_vars]. begin true. go. Qed.
Hint Resolve global_vars_w : safe.
Lemma parse_global_var_decl_w sp p : p <= len -> good false (parse_global_var_decl toks sp) p.
Proof. intros L. unfold parse_global_var_decl. begin false. go. Qed.
Hint Resolve parse_static_var_decl_w parse_global_var_decl_w : safe.
Lemma parse_braced_w p : p <= len -> wps (parse_braced toks ps) p (fun _ q => sub false p q /\ p < q) (fun _ q => sub false p q).
Proof. intros L. unfold parse_braced. begin false. go. Qed.
Hint Resolve parse_braced_w : safe.
Lemma catch_clauses_w n : forall acc p, p <= len -> good false (catch_clauses toks ps n acc) p.
Proof. induction n; intros acc p L; [apply wps_fuel|]. cbn [catch_clauses]. begin false. go. Qed.
Hint Resolve catch_clauses_w : safe.
Lemma parse_try_w sp p : p <= len -> good false (parse_try toks ps sp) p.
Proof. intros L. unfold parse_try. begin false. go. Qed.
Lemma unset_vars_w n : forall acc p, p <= len -> good true (unset_vars toks pe n acc) p.
Proof. induction n; intros acc p L; [apply wps_fuel|]. cbn [unset_vars]. begin true. go. Qed.
Hint Resolve unset_vars_w : safe.
Lemma parse_unset_w sp p : p <= len -> good false (parse_unset toks pe sp) p.
Proof. intros L. unfold parse_unset. begin false. go. Qed.
Lemma parse_foreach_w sp p : p <= len -> good false (parse_foreach toks pe ps sp) p.
Proof. intros L. unfold parse_foreach. begin false. go. Qed.
Lemma parse_for_w sp p : p <= len -> good false (parse_for toks pe ps sp) p.
Proof. intros L. unfold parse_for. begin false. go. Qed.
Lemma switch_cases_w n : forall cs conds p, p <= len -> good false (switch_cases toks pe ps n cs conds) p.
Proof. induction n; intros cs conds p L; [apply wps_fuel|]. cbn [switch_cases]. begin false. cbv zeta. go. Qed.
Hint Resolve switch_cases_w : safe.
Lemma parse_switch_w sp p : p <= len -> good false (parse_switch toks pe ps sp) p.
Proof. intros L. unfold parse_switch. begin false. go. Qed.
Lemma parse_condition_w p : p <= len -> good true (parse_condition toks pe) p.
Proof. intros L. unfold parse_condition. begin true. go. Qed.
Hint Resolve parse_condition_w : safe.
Lemma parse_while_w sp p : p <= len -> good false (parse_while toks pe ps sp) p.
Proof. intros L. unfold parse_while. begin false. go. Qed.
Lemma parse_do_w sp p : p <= len -> good false (parse_do toks pe ps sp) p.
Proof. intros L. unfold parse_do. begin false. go. Qed.
Definition is_if (s : stmt) : Prop := exists c b sp, s = St (SIf c b []) sp.
Lemma fold_ifs_steps r : Forall is_if r -> forall c b e sp, fold_left if_fold_step r (Some (St (SIf c b e) sp)) <> None.
Proof. induction 1 as [|x l (c & b & sp & ->) F IH]; intros c' b' e' sp'; [discriminate|]. apply IH. Qed.
Lemma fold_ifs_if l : l <> [] -> Forall is_if l -> fold_ifs l <> None.
Proof.
  intros N F. unfold fold_ifs. apply Forall_rev in F. destruct (rev l) as [|x r] eqn:E.
  - apply (f_equal (@rev _)) in E. rewrite rev_involutive in E. destruct (N E).
  - inversion F as [|? ? (c & b & sp & ->) F']. subst. apply fold_ifs_steps, F'.
Qed.
Lemma fold_ifs_block l b sp : l <> [] -> Forall is_if l -> fold_ifs (l ++ [St (SBlock b) sp]) <> None.
Proof.
  intros N F. unfold fold_ifs. rewrite rev_app_distr. cbn [rev app]. apply Forall_rev in F. destruct (rev l) as [|x r] eqn:E.
  - apply (f_equal (@rev _)) in E. rewrite rev_involutive in E. destruct (N E).
  - inversion F as [|? ? (c & b' & sp' & ->) F']. subst. apply fold_ifs_steps, F'.
Qed.
(** the statement behind [else] is not followed by another arm *)
Lemma else_end p sp s r k sp' : nth_error toks p = Some (Kw KElse, sp) -> ps (S p) = POk s r -> S p <= r ->
  nth_error toks r = Some (Kw k, sp') -> In k [KElse; KElseIf] -> False.
Proof.
  intros N R LR N' K. apply (else_ok p sp r k sp' N); [lia|exact N'|exact K|]. intros (tb & s0 & c & ST & E & X).
  destruct (stmt_all strict_block strict_class strict_whole strict_stmt _ _ _ ST) as [_ ALL].
  assert (LP : S p <= len) by (apply nth_lt in N; exact N).
  assert (G : ahead_late (S p)) by (apply (late_mono p); [eapply HL; [exact N|cbn; auto]|lia]).
  pose proof (here_tl (S p) LP G) as H. rewrite E in H.
  assert (SE : stm_end c).
  { destruct c as [|t c]; [exact I|]. cbn. destruct t as [k0| | | | | | | |]; try reflexivity. specialize (X _ eq_refl).
    destruct k0; try reflexivity; exfalso; apply X; eexists; (split; [|reflexivity]); cbn; auto. }
  specialize (ALL toks Late (S p) c H SE). unfold wpx in ALL. destruct (Mps (S p)) as [Z|Z]; [congruence|]. rewrite <- Z, R in ALL.
  destruct ALL as (A & _). destruct A as (A1 & A2 & _). rewrite <- skipn_map in A2. change (tl toks r = c) in A2. rewrite (tl_cons toks r _ sp' N') in A2. subst c.
  apply (X _ eq_refl). exists k. split; [|reflexivity]. destruct K as [<-|[<-|[]]]; cbn; auto.
Qed.
Lemma if_arms_stop n acc p : (forall k sp, nth_error toks p = Some (Kw k, sp) -> ~ In k [KElse; KElseIf]) ->
  wps (if_arms toks pe ps n acc) p (fun l q => l = acc /\ q = p) (fun _ _ => False).
Proof.
  intros X. destruct n; [apply wps_fuel|]. cbn [if_arms]. repeat (apply wps_look; [intros sp N _; exfalso; apply (X _ _ N); cbn; auto|]). st. auto.
Qed.
Lemma if_arms_w n : forall acc p, p <= len -> acc <> [] -> Forall is_if acc ->
  wps (if_arms toks pe ps n acc) p (fun l q => sub false p q /\ fold_ifs l <> None) (fun _ q => sub false p q).
Proof.
  induction n; intros acc p L NE F; [apply wps_fuel|]. cbn [if_arms]. begin false. st; [|st].
  - st. use; [|fin]. st. use; [|fin]. eapply wps_use; [apply IHn; [pl|apply app_ne|]| |]; cbv beta; [|intros; norm; fin; assumption|intros; norm; fin].
    apply Forall_app. split; [exact F|]. constructor; [|constructor]. do 3 eexists. reflexivity.
  - st. unfold parse_statement_extract_block. st. eapply wps_use; [apply wps_eq; apply (Hps (S p)); pl| |]; cbv beta; [|intros; norm; fin].
    intros s q (A & B). assert (LQ : S p <= q) by (apply path_le in A; lia). norm.
    assert (Y : forall acc', fold_ifs acc' <> None -> wps (if_arms toks pe ps n acc') q (fun l q => sub false p q /\ fold_ifs l <> None) (fun _ q => sub false p q)).
    { intros acc' FF. eapply wps_use; [apply if_arms_stop| |]; cbv beta; [|intros l q' (-> & ->); fin; exact FF|intros ? ? []].
      intros k sp' N K. eapply else_end; [eassumption|exact B|exact LQ|exact N|exact K]. }
    destruct s as [[] sp']; st; apply Y; apply fold_ifs_block; assumption.
  - st. fin. apply fold_ifs_if; assumption.
Qed.
Lemma parse_if_w sp p : p <= len -> good false (parse_if toks pe ps sp) p.
Proof.
  intros L. unfold parse_if. begin false. st. use; [|fin]. st. use; [|fin]. st.
  eapply wps_use; [apply if_arms_w; [pl|discriminate|]| |]; cbv beta; [|intros; norm|intros; norm; fin].
  - constructor; [|constructor]. do 3 eexists. reflexivity.
  - destruct (fold_ifs a1); [st; fin|congruence].
Qed.
Hint Resolve parse_if_w parse_do_w parse_while_w parse_switch_w parse_for_w parse_foreach_w parse_unset_w parse_try_w : safe.
Lemma parse_expr_stmt_w d p : p <= len -> good false (parse_expr_stmt toks pe d) p.
Proof. intros L. unfold parse_expr_stmt. begin false. go. Qed.
Hint Resolve parse_expr_stmt_w : safe.
Lemma simple_stmt_w t sp m p : p <= len -> simple_stmt toks pe t sp = Some m -> good true m p /\ is KParenthesesClose t = false.
Proof.
  intros L E. destruct t as [k| | | | | | | |]; try discriminate E; [destruct k; try discriminate E|]; injection E as <-; (split; [|reflexivity]); begin true; go.
Qed.
Lemma parse_other_stmt_w d p : p <= len -> good false (parse_other_stmt toks pe d) p.
Proof.
  intros L. unfold parse_other_stmt. begin false. st. st. destruct (nth_error toks p) as [[x sp]|] eqn:N; [|st; fin].
  destruct (simple_stmt toks pe x sp) as [m|] eqn:E; [|go]. st. apply wps_adv.
  assert (LS : S p <= len) by (apply nth_lt in N; exact N). destruct (simple_stmt_w _ _ _ (S p) LS E) as (G & C).
  assert (path toks false p (S p) 0). { destruct x as [k| | | | | | | |]; try (eapply path_tok; eauto; discriminate). destruct k; try (eapply path_tok; eauto; discriminate). }
  st. eapply wps_use; [exact G| |]; cbv beta; intros; norm; go.
Qed.
Hint Resolve parse_other_stmt_w : safe.
Lemma look_restore_w k d m rest p : p <= len ->
  (forall sp, nth_error toks p = Some (Kw k, sp) -> good false (m sp) (S p)) -> k <> KParenthesesClose -> k <> KSemiColon -> (forall d', good false (rest d') p) ->
  good false (look_restore toks k d m rest) p.
Proof.
  intros L M K1 K2 R. unfold look_restore. begin false. st. st. apply wps_look; [|apply R]. intros sp N LL. st.
  assert (path toks false p (S p) 0) by (eapply path_tok; eauto; [destruct k; try reflexivity; congruence|congruence]).
  eapply wps_use; [apply (M _ N)| |]; cbv beta; intros; norm; [fin|]. st. st. apply R.
Qed.
Lemma parse_statement_body_w p : p <= len -> good false (parse_statement_body toks pe ps) p.
Proof.
  intros L. unfold parse_statement_body. begin false.
  do 10 (apply wps_look; [intros ? ? ?; grow; go|]).
  apply look_restore_w; [exact L| |discriminate|discriminate|intros d]; [intros; apply parse_static_var_decl_w; pl|].
  apply look_restore_w; [exact L| |discriminate|discriminate|intros d']; [intros; apply parse_global_var_decl_w; pl|].
  apply look_restore_w; [exact L| |discriminate|discriminate|intros d2].
  { intros sp N. eapply wps_use; [eapply parse_function_declaration_w; exact N| |]; cbv beta; [intros a q (A & _); exact A|intros e q A; exact A]. }
  go.
Qed.

Lemma use_clauses_w n : forall acc p, p <= len -> good true (use_clauses toks n acc) p.
Proof. induction n; intros acc p L; [apply wps_fuel|]. cbn [use_clauses]. begin true. go. Qed.
Hint Resolve use_clauses_w : safe.
Lemma parse_top_statement_w p : p <= len -> good false (parse_top_statement toks ps) p.
Proof. intros L. unfold parse_top_statement. begin false. go. Qed.
Hint Resolve parse_top_statement_w : safe.
Lemma top_statements_w n : forall acc p, p <= len -> good false (top_statements toks ps n acc) p.
Proof. induction n; intros acc p L; [apply wps_fuel|]. cbn [top_statements]. begin false. go. Qed.
Lemma parse_top_statement_list_w p : p <= len -> good false (parse_top_statement_list toks ps) p.
Proof.
  intros L. unfold parse_top_statement_list. pose proof not_empty as NE. pose proof (top_statements_w (lf toks) [] p L) as X.
  destruct toks; [congruence|exact X].
Qed.
End Knot.
Lemma knot_w f : f <= parse_fuel toks ->
  (forall prec p, p <= len -> wps (parse_expression toks f prec) p (fun e q => sub true p q /\ instat e q) (fun _ q => sub true p q)) /\
  (forall p, p <= len -> good false (parse_statement toks f) p).
Proof.
  induction f as [|f IH]; intros L; [split; intros; apply wps_fuel|]. destruct IH as (A & B); [lia|].
  destruct (knot_m toks f (parse_fuel toks)) as (M1 & M2); [lia|]. split.
  - intros prec p. apply parse_unary_expression_w; auto.
  - intros p. apply parse_statement_body_w; auto.
Qed.
Lemma parse_top_safe pan : parse_top toks <> PPanic pan.
Proof.
  destruct (knot_w (parse_fuel toks) (le_n _)) as (A & B).
  destruct (knot_m toks (parse_fuel toks) (parse_fuel toks) (le_n _)) as (M1 & M2).
  pose proof (parse_top_statement_list_w _ _ M1 M2 A B 0 (Nat.le_0_l _)) as X.
  unfold parse_top. unfold wps in X. destruct (parse_top_statement_list _ _ 0); congruence || contradiction.
Qed.
End Safe.
