(** * TextMain2: the induction over the rules of SpecText (proofs for C41, C42) *)
From Verif Require Import Base Tokens Ast AstMap Lexer Parser Printer Driver Spec SpecMixed SpecText SpecCrash SpecUnread SpecRun SpecGrammar SmallFacts ParserTermination ParserFacts LexBase LexSteps LexWords LexTok LexNum LexStr LexMore LexRun LexParse LexFacts LexMono LexTotal LexCrash LexProg LexText TextTok TextProof UnreadProof TextMain UnreadInside.
From Coq Require Import String Ascii.
Local Open Scope list_scope.

(** ** Scripts *)
Lemma g_close_tag E st r toks : lexg E LInitial st r toks -> lexg E LInScripting st (s2l "?>" ++ r) (Kw KCloseTag :: toks).
Proof.
  intros L. destruct (struct_op "?>" KCloseTag r ltac:(cbn; tauto)) as [I PO].
  eapply g_step; [discriminate|apply (step_op st "?>" KCloseTag r LInitial st I PO eq_refl)|discriminate|exact L].
Qed.
Lemma g_arrow E st r toks : lexg E LLookingForProperty (LInScripting :: st) r toks -> lexg E LInScripting st (s2l "->" ++ r) (Kw KObjectOp :: toks).
Proof.
  intros L. destruct (struct_op "->" KObjectOp r ltac:(cbn; tauto)) as [I PO].
  eapply g_step; [discriminate|apply (step_op st "->" KObjectOp r LLookingForProperty (LInScripting :: st) I PO eq_refl)|discriminate|exact L].
Qed.
Lemma prop_arrow E st r toks : lexg E LLookingForProperty st r toks -> lexg E LLookingForProperty st (s2l "->" ++ r) (Kw KObjectOp :: toks).
Proof.
  intros L. eapply g_step with (m' := LLookingForProperty) (st' := st) (r := r); [discriminate| |discriminate|exact L].
  exists 0. intros code nt lf s LF H M ST Q. unfold scan. rewrite M. unfold looking_for_property_token. unfold tbind at 1, whitespace. rewrite (tbind_input _ _ _ _ H).
  change (whitespace_loop (s2l "->" ++ r) s) with s.
  exists (mk_span (src_pos s) (src_pos s + 2)), (set_pos (src_pos s + 2) s). split; [|split; [exact (at_move_eq code s (s2l "->") r _ H eq_refl)|cbn; repeat split; auto; lia]].
  apply ret_ok. rewrite (match_alias code s _ "->" KObjectOp ANone H) by (repeat constructor). change (to_lower (s2l "->")) with (s2l "->"). rewrite starts_with_app. reflexivity.
Qed.
Lemma g_arrows E st x us r toks : Arrows x us -> lexg E LLookingForProperty (LInScripting :: st) r toks -> lexg E LInScripting st (x ++ r) (us ++ toks).
Proof.
  intros A L.
  assert (G : forall x us, Arrows x us -> lexg E LLookingForProperty (LInScripting :: st) (x ++ r) (us ++ toks)).
  { clear x us A. induction 1 as [|w x ts W A IH]; [apply prop_arrow, L|]. rewrite <- !app_assoc. cbn [app]. apply prop_arrow, g_ws; auto. }
  destruct A as [|w x ts W A]; [apply g_arrow, L|]. rewrite <- !app_assoc. cbn [app]. apply g_arrow, g_ws; auto.
Qed.
Lemma arrows_no_end x us : Arrows x us -> ~ In (Kw KEnd) us.
Proof. induction 1; intros [X|X]; [discriminate|destruct X|discriminate|auto]. Qed.
Lemma text_raw us d inp d' r ts d2 q : ~ In (Kw KEnd) us -> (exists w, inp = w ++ r) ->
  (forall E base toks, lexg E LInScripting (stk d' base) r toks -> lexg E LInScripting (stk d base) inp (us ++ toks)) ->
  reads_text d' r ts d2 q -> reads_text d inp (us ++ ts) d2 q.
Proof.
  intros N (w & W) S (N2 & (w2 & W2) & G). split; [intros X; apply in_app_or in X; tauto|].
  split; [exists (w ++ w2); rewrite W, W2, app_assoc; reflexivity|].
  intros E base toks L. rewrite <- app_assoc. apply S, G, L.
Qed.

(** a whole string: pieces, then the end *)
Lemma literal_no_end b l : Literal b l -> ~ In (Kw KEnd) l.
Proof. intros L. apply literal_pend in L. subst l. apply pend_no_end. Qed.
Lemma no_end_app {A} (x : A) (a b : list A) : ~ In x a -> ~ In x b -> ~ In x (a ++ b).
Proof. intros H1 H2 X. apply in_app_or in X. tauto. Qed.
Lemma quoted_run q d whole inp us b l x c y r ts d' z : Opened q whole inp -> is_now q = false -> reads_pieces q [] inp us b (x ++ r) -> x = c :: y -> special q c = true -> Literal b l ->
  inside_run l q b (x ++ r) r -> reads_text d r ts d' z -> reads_text d whole (Kw (fst (quote_kinds q)) :: (us ++ l) ++ Kw (snd (quote_kinds q)) :: ts) d' z.
Proof.
  intros O NW (N & (w & W) & G) X SP L I T. destruct G as [_ G]; [rewrite X; apply runs_head, SP|].
  destruct (opened_part _ _ _ O) as (v & _ & V).
  assert (NE : ~ In (Kw KEnd) (us ++ l)) by (apply no_end_app; [exact N|eapply literal_no_end; exact L]).
  replace (Kw (fst (quote_kinds q)) :: (us ++ l) ++ Kw (snd (quote_kinds q)) :: ts) with ((Kw (fst (quote_kinds q)) :: (us ++ l) ++ [Kw (snd (quote_kinds q))]) ++ ts) by (cbn [app]; rewrite <- (app_assoc (us ++ l)); reflexivity).
  apply (text_raw _ d whole d r); [|exists (v ++ w ++ x); rewrite V, W, <- !app_assoc; reflexivity| |exact T].
  - intros [E|E]; [destruct q; discriminate|]. revert E. apply no_end_app; [exact NE|intros [E|[]]; destruct q; discriminate].
  - intros E base toks LX. cbn [app]. apply (string_ok E _ q whole inp (us ++ l) r toks O NW); [eapply pieces_inside; [exact G|exact I]|exists (w ++ x); rewrite W, app_assoc; reflexivity|exact NE|exact LX].
Qed.

(** ** Code that cannot be read *)
Definition from_in (r : str) (x : fate) : Prop := match x with Reports _ from _ => exists w, r = w ++ from | _ => True end.
Lemma from_app w r x : from_in r x -> from_in (w ++ r) x.
Proof. destruct x; cbn; auto. intros (v & ->). exists (w ++ v). rewrite app_assoc. reflexivity. Qed.
Lemma from_self r c n : from_in r (Reports c r n).
Proof. exists []. reflexivity. Qed.
Definition stuck_run (top : bool) (d : nat) (r : str) (x : fate) : Prop :=
  from_in r x /\ forall base, (top = true -> base = []) -> exists toks, lexg (ends x) LInScripting (stk d base) r toks /\ (toks = [] \/ x = Panics).
Lemma ends_stuck top d r x : from_in r x -> (forall st, ends1 x st r) -> stuck_run top d r x.
Proof. intros F H. split; [exact F|]. intros base _. exists []. split; [apply g_ends, H|auto]. Qed.
Lemma inside_stuck top d q whole inp raw b r x : from_in whole x -> Opened q whole inp -> pieces_run raw q [] inp b r -> stops_inside whole q b r x -> stuck_run top d whole x.
Proof. intros F O P S. apply ends_stuck; [exact F|]. intros st. eapply opened_stops; [exact O|]. eapply pieces_stop; eassumption. Qed.
Lemma text_part d inp ts d' r : reads_text d inp ts d' r -> exists w, inp = w ++ r.
Proof. intros (_ & W & _). exact W. Qed.
Lemma text_from d inp ts d' r x : reads_text d inp ts d' r -> from_in r x -> from_in inp x.
Proof. intros T. destruct (text_part _ _ _ _ _ T) as (w & ->). apply from_app. Qed.
(** the tokens of such code *)
Lemma code_stuck code ts d r x : reads_text 0 code ts d r -> stuck_run false d r x -> exists toks, lexg (ends x) LInScripting [LDoNothing] code (ts ++ toks) /\ (toks = [] \/ x = Panics).
Proof. intros (_ & _ & G) [_ S]. destruct (S [LDoNothing] ltac:(discriminate)) as (toks & L & C). exists toks. split; [exact (G (ends x) [LDoNothing] toks L)|exact C]. Qed.
Lemma code_report code ts d r c from len : reads_text 0 code ts d r -> stuck_run false d r (Reports c from len) ->
  block_done code ts (fun code s => src_pos s = blen code - blen from + skipped c) /\ exists w, code = w ++ from.
Proof.
  intros T S. destruct (code_stuck _ _ _ _ _ T S) as (toks & L & [->|X]); [|discriminate]. rewrite app_nil_r in L. split; [exact (block_report _ _ _ _ _ L)|].
  apply (text_from _ _ _ _ _ (Reports c from len) T). exact (proj1 S).
Qed.
Lemma code_html code ts d w : reads_text 0 code ts d (s2l "?>" ++ w) -> no_tag w -> block_drops code.
Proof.
  intros (_ & _ & G) N. eapply block_drop; [eapply block_html; apply (G eoh [LDoNothing] (Kw KCloseTag :: html w ++ []))|].
  - apply g_close_tag. rewrite <- (app_nil_r w) at 1. apply g_html_any; [exact N|left; reflexivity|apply g_eoh].
  - rewrite last_last. discriminate.
Qed.
Lemma code_eof code ts d : reads_text 0 code ts d [] -> block_stops code Hangs.
Proof. intros (_ & _ & G). eapply block_hang. apply (G eof [LDoNothing] []). apply g_eof. Qed.
Lemma code_closed code ts r : reads_text 0 code ts 0 (s2l "}" ++ r) -> block_takes code (ts ++ [Kw KCurlyBracesClose]) (fun code s => at_ code s r).
Proof.
  intros (_ & _ & G). apply block_take; [|apply last_last]. apply block_brace. apply (G (at_brace r) [LDoNothing] [Kw KCurlyBracesClose]).
  destruct (struct_op "}" KCurlyBracesClose r ltac:(cbn; tauto)) as [I PO].
  eapply g_step; [discriminate|apply (step_op [LDoNothing] "}" KCurlyBracesClose r LDoNothing [] I PO eq_refl)|discriminate|apply g_end_brace].
Qed.
Lemma takes_weak inp toks (P Q : str -> tst -> Prop) : (forall code s0 s, at_ code s0 (123%N :: inp) -> P code s -> Q code s) -> block_takes inp toks P -> block_takes inp toks Q.
Proof.
  intros H (F & G). exists F. intros code f s bs parts p0 req LF A R Q0 PB LP. destruct (G code f s bs parts p0 req LF A R Q0 PB LP) as (sf & pb & ts & X1 & X2 & X3).
  exists sf, pb, ts. split; [exact X1|]. split; [eapply H; [exact A|exact X2]|exact X3].
Qed.
Lemma at_back code s s0 w z : at_ code s0 (w ++ z) -> src_pos s = blen code - blen z -> at_ code s z.
Proof.
  intros (x & E & P) H. exists (x ++ w). split; [rewrite E, app_assoc; reflexivity|]. rewrite H, E, !blen_app. lia.
Qed.
Lemma resumes_at c from z w code s0 s : resumes c from z -> at_ code s0 (123%N :: w ++ from) -> src_pos s = blen code - blen from + skipped c -> at_ code s z.
Proof.
  intros [what r|c0 r C] H P; cbn [skipped] in P.
  - apply (at_back code s s0 (123%N :: w) r H). lia.
  - apply (at_back code s s0 ((123%N :: w) ++ [c0]) r); [rewrite <- app_assoc; exact H|].
    destruct H as (x & E & _). rewrite P, E. cbn [app]. change (123%N :: w ++ c0 :: r) with ((123%N :: w) ++ [c0] ++ r). rewrite !blen_app. cbn [blen]. rewrite C. lia.
Qed.
Lemma resumes_part c from z : resumes c from z -> exists v, from = v ++ z.
Proof. intros [what r|c0 r _]; [exists []|exists [c0]]; reflexivity. Qed.

(** ** The induction *)
Scheme Text_mind := Minimality for Text Sort Prop
with Pieces_mind := Minimality for Pieces Sort Prop
with Piece_mind := Minimality for Piece Sort Prop
with Behind_mind := Minimality for Behind Sort Prop
with Stuck_mind := Minimality for Stuck Sort Prop
with Bad_mind := Minimality for Bad Sort Prop.
Combined Scheme text_inside from Text_mind, Pieces_mind, Piece_mind, Behind_mind, Stuck_mind, Bad_mind.

Ltac one t ts := change (t :: ts) with ([t] ++ ts).
Theorem reads : (forall d inp ts d' r, Text d inp ts d' r -> reads_text d inp ts d' r) /\
  (forall q b inp us b' r, Pieces q b inp us b' r -> reads_pieces q b inp us b' r) /\
  (forall q b inp us b' r, Piece q b inp us b' r -> reads_piece q b inp us b' r) /\
  (forall q inp us b r, Behind q inp us b r -> reads_behind q inp us b r) /\
  (forall top d r x, Stuck top d r x -> stuck_run top d r x) /\
  (forall q r x, Bad q r x -> bad_stop q r x /\ from_in r x).
Proof.
  apply text_inside.
  - intros d r. split; [intros []|]. split; [exists []; reflexivity|auto].
  - intros w d r ts d' q W _ IH. apply (text_raw [] d _ d r); [intros []|exists w; reflexivity| |exact IH]. intros E base toks L. apply g_ws; auto.
  - intros hash w d r ts d' q W NL _ IH. one (TComment w) ts. apply (text_raw _ d _ d r); [intros [X|[]]; discriminate| | |exact IH].
    + exists (s2l (if hash then "#" else "//") ++ w). rewrite app_assoc. reflexivity.
    + intros E st toks L. apply g_line; assumption.
  - intros w d r ts d' q NE S W _ IH. one (TComment w) ts. apply (text_raw _ d _ d r); [intros [X|[]]; discriminate| | |exact IH].
    + exists (s2l "/*" ++ w ++ s2l "*/"). rewrite <- !app_assoc. reflexivity.
    + intros E st toks L. apply g_block_comment; assumption.
  - intros w d r ts d' q W _ IH. one (TComment w) ts. apply (text_raw _ d _ d r); [intros [X|[]]; discriminate| | |exact IH].
    + exists (s2l "/**" ++ w ++ s2l "*/"). rewrite <- !app_assoc. reflexivity.
    + intros E st toks L. apply g_doc_comment; assumption.
  - intros w t d r ts d' q L _ IH. eapply text_step; [exists w; reflexivity|apply (step_lexeme [] w t r L)|intros base; apply (step_lexeme (stk d base) w t r L)|exact IH].
  - intros p base d r ts d' q I NB A _ IH. apply (text_raw [] d _ d r); [intros []|exists (s2l p); reflexivity| |exact IH]. intros E st toks L. eapply g_prefix; eassumption.
  - intros w d r ts d' q W WR EW NF _ IH. 
    eapply (text_step _ _ (Kw KYield)); [exists (s2l "yield" ++ w); rewrite app_assoc; reflexivity|discriminate|intros base; apply step_yield; assumption|exact IH].
  - intros w d r ts d' q W E _ IH. 
    eapply (text_step _ _ (Kw KYieldFrom)); [exists (s2l "yield" ++ w ++ s2l "from"); rewrite <- !app_assoc; reflexivity|discriminate|intros base; apply step_yield_from; assumption|exact IH].
  - intros a b d r ts d' q N B E L _ IH. 
    eapply (text_step _ _ (TString (a ++ b))); [exists a; reflexivity|discriminate|intros base; apply step_wide; assumption|exact IH].
  - intros d r ts d' q _ IH. eapply (text_step _ _ (Kw KCurlyBracesOpen)); [exists (s2l "{"); reflexivity|discriminate| |exact IH].
    intros base. destruct (struct_op "{" KCurlyBracesOpen r ltac:(cbn; tauto)) as [I PO].
    apply (step_op (stk d base) "{" KCurlyBracesOpen r LInScripting (LInScripting :: stk d base) I PO eq_refl).
  - intros d r ts d' q _ IH. eapply (text_step _ _ (Kw KCurlyBracesClose)); [exists (s2l "}"); reflexivity|discriminate| |exact IH].
    intros base. destruct (struct_op "}" KCurlyBracesClose r ltac:(cbn; tauto)) as [I PO].
    apply (step_op (stk (S d) base) "}" KCurlyBracesClose r LInScripting (stk d base) I PO eq_refl).
  - intros x us w n d r ts d' q A W N EW _ IH. change (TString n :: ts) with ([TString n] ++ ts). rewrite (app_assoc us).
    apply (text_raw _ d _ d r); [apply no_end_app; [eapply arrows_no_end; exact A|intros [X|[]]; discriminate]|exists (x ++ w ++ n); rewrite <- !app_assoc; reflexivity| |exact IH].
    intros E base toks L. rewrite <- app_assoc. apply g_arrows; [exact A|]. apply g_ws; [auto|exact W|]. apply g_prop; assumption.
  - intros x us w d r ts d' q A W NP NA _ IH.
    apply (text_raw _ d _ d r); [eapply arrows_no_end; exact A|exists (x ++ w); rewrite <- !app_assoc; reflexivity| |exact IH].
    intros E base toks L. apply g_arrows; [exact A|]. apply g_ws; [auto|exact W|].
    apply g_prop_none; [destruct r as [|c z]; [reflexivity|]; cbn; rewrite <- ws_white; apply (NP c z eq_refl)|exact NA| |exact L].
    destruct r as [|c z]; [reflexivity|]. cbn. destruct (NP c z eq_refl) as [_ X]. cbn in X. rewrite andb_true_r in X. rewrite name_label in X. exact X.
  - intros w p k d r ts d' q NT TG _ IH. replace (Kw KCloseTag :: html w ++ Kw k :: ts) with ((Kw KCloseTag :: html w ++ [Kw k]) ++ ts) by (cbn [app]; rewrite <- app_assoc; reflexivity).
    apply (text_raw _ d _ d r); [| | |exact IH].
    + intros [X|X]; [discriminate|]. revert X. apply no_end_app; [apply html_no_end|intros [X|[]]; destruct TG; discriminate].
    + exists (s2l "?>" ++ w ++ p). rewrite <- !app_assoc. reflexivity.
    + intros E base toks L. cbn [app]. rewrite <- app_assoc. apply g_close_tag, g_html_any; [exact NT|right; eapply tag_head; exact TG|]. apply g_tag; assumption.
  - intros d whole inp us b l r ts d' q O _ RP LI _ IH. exact (quoted_run Quotes d whole inp us b l [34%N] 34%N [] r ts d' q O eq_refl RP eq_refl eq_refl LI (quote_end b l r LI) IH).
  - intros tag d whole inp us b l r ts d' q O _ RP LI LE _ IH.
    refine (quoted_run (Doc tag) d whole inp us b l (10%N :: tag) 10%N tag r ts d' q O eq_refl RP eq_refl eq_refl LI _ IH). apply (tag_end (Doc tag) tag); [left; reflexivity|exact LI|exact LE].
  - intros tag d whole inp b t r ts d' q O _ (N & (w & W) & G) FR LE _ IH. destruct (G I) as [_ R]. destruct (opened_part _ _ _ O) as (v & _ & V).
    one t ts. apply (text_raw _ d _ d r); [| | |exact IH].
    + intros [X|[]]. apply fragment_token in FR. subst t. unfold frag_token in X. destruct (from_utf8 b); discriminate.
    + exists (v ++ w ++ [10%N] ++ tag). rewrite V, W, <- !app_assoc. reflexivity.
    + intros E base toks L. apply (now_ok E _ tag whole inp b t r toks O R); [exists (w ++ [10%N] ++ tag); rewrite W, <- !app_assoc; reflexivity|exact FR|exact LE|exact L].
  - intros d whole inp us b w l O _ (N & (v & V) & R) P LI. destruct (opened_part _ _ _ O) as (y & _ & Y).
    assert (NE : ~ In (Kw KEnd) (us ++ l)) by (apply no_end_app; [exact N|eapply literal_no_end; exact LI]).
    split; [intros [X|X]; [discriminate|]; revert X; apply no_end_app; [exact NE|intros [X|[]]; discriminate]|]. split; [exists whole; rewrite app_nil_r; reflexivity|].
    intros E base toks L. apply (string_ok E _ Back whole inp (us ++ l) [] toks O eq_refl); [|exists inp; rewrite app_nil_r; reflexivity|exact NE|exact L].
    eapply pieces_inside; [exact R|]. apply back_end; assumption.
  (* strings *)
  - intros. apply reads_none.
  - intros q b inp ts b1 inp1 us b2 r _ IH1 _ IH2. eapply reads_more; eassumption.
  - intros q tag b r D N. exact (newline_run q tag b r D N).
  - intros q c b r V. exact (char_run q c b r V).
  - intros q c b r E N. exact (escape_run q c b r E N).
  - intros q c up up' x y b r E C X Y N. exact (byte_run q c up up' x y b r E C X Y N).
  - intros q c up x b r E C X N A. exact (short_byte_run q c up x b r E C X N A).
  - intros q c b r E C A. exact (no_byte_run q c b r E C A).
  - intros tag c b r C. pose proof (raw_run tag c b r) as X. destruct C as [<-|[<-|[]]]; exact X.
  - intros tag c b r C. pose proof (raw_run tag c b r) as X. destruct (N.eqb_spec c 39) as [->|_]; [exfalso; apply C; cbn; tauto|]. destruct (N.eqb_spec c 92) as [->|_]; [exfalso; apply C; cbn; tauto|]. exact X.
  - intros q b r SP N. exact (dollar_run q b r SP N).
  - intros q b r SP N. exact (brace_run q b r SP N).
  - intros q v b l r SP L N E A B. exact (variable_run q v b l r SP L N E A B).
  - intros q v p b l r SP L N N2 E. exact (property_run q v p b l r SP L N N2 E).
  - intros q dollar b l inp ts r SP L D _ T. destruct (text_part _ _ _ _ _ T) as (w & W).
    apply (code_piece q dollar b l inp (ts ++ [Kw KCurlyBracesClose]) r (w ++ s2l "}") SP L D (code_closed _ _ _ T)).
    + apply no_end_app; [apply T|intros [X|[]]; discriminate].
    + rewrite W, <- app_assoc. reflexivity.
  - intros q b inp ts d r c from len SP D _ T _ S NL. destruct (code_report _ _ _ _ _ _ _ T S) as [BD _]. exact (lost_piece q b inp SP D (block_drop _ _ _ BD NL)).
  - intros q b inp ts d w SP D _ T N. exact (lost_piece q b inp SP D (code_html _ _ _ _ T N)).
  - intros q dollar b l inp ts d r c from len z SP L D _ T _ S NL RS. destruct (code_report _ _ _ _ _ _ _ T S) as [BD (w & W)]. destruct (resumes_part _ _ _ RS) as (v & V).
    apply (code_piece q dollar b l inp ts z (w ++ v) SP L D); [|apply T|rewrite W, V, app_assoc; reflexivity].
    eapply takes_weak; [|exact (block_take _ _ _ BD NL)]. intros code s0 s A P. rewrite W in A. eapply resumes_at; eassumption.
  (* behind *)
  - intros. apply reads_start.
  - intros q inp us b p ts b' r _ P _ Q N. eapply reads_last; eassumption.
  (* stops *)
  - intros top d r H. apply ends_stuck; [exact I|]. intros st. apply number_ends, H.
  - intros top d p base r H NB NE A. apply ends_stuck; [apply from_self|]. intros st. eapply prefix_ends; eassumption.
  - intros r. split; [exact I|]. intros base B. exists []. rewrite (B eq_refl). split; [|auto]. apply g_ends, crash_ends, brace_panics.
  - intros top d c r H. apply ends_stuck; [apply from_self|]. intros st. apply stray_ends, H.
  - intros top d c H. apply ends_stuck; [apply from_self|]. intros st. apply quote_ends, H.
  - intros top d w A B. apply ends_stuck; [apply from_app, from_self|]. intros st. apply (comment_ends st false w A). auto.
  - intros top d w A. apply ends_stuck; [apply from_app, from_self|]. intros st. apply (comment_ends st true w A). discriminate.
  - intros top d bin w A B whole. apply ends_stuck; [apply from_self|]. intros st. pose proof (single_ends st bin false w A ltac:(auto)) as X. cbv zeta in X. change (s2l "") with (@nil N) in X. rewrite app_nil_r in X. exact X.
  - intros top d bin w A. apply ends_stuck; [apply from_app, from_app, from_self|]. intros st. apply (single_ends st bin true w A). discriminate.
  - intros top d w r A B C. split; [exact I|]. intros base _. exists [TString w]. split; [|auto]. apply wide_ends; assumption.
  - intros top d whole inp us b r c O _ (N & (w & W) & R) P. destruct (opened_part _ _ _ O) as (v & _ & V).
    eapply inside_stuck; [apply from_self|exact O|exact R|]. apply double_stop; [exact P|]. rewrite V, W, !blen_app. cbn [blen]. lia.
  - intros top d whole inp us b r c O _ (N & (w & W) & R) P C. destruct (opened_part _ _ _ O) as (v & _ & V).
    eapply inside_stuck; [apply from_self|exact O|exact R|]. apply back_stop; [exact P|exact C|]. rewrite V, W, !blen_app. cbn [blen]. lia.
  - intros top d whole inp us b c r O _ (N & (w & W) & G) C. destruct (opened_part _ _ _ O) as (v & _ & V). destruct G as [_ R]; [apply runs_head; destruct C as [<-|[<-|[]]]; reflexivity|].
    eapply inside_stuck; [apply from_self|exact O|exact R|]. apply back_stop_at; [exact C|]. rewrite V, W, !blen_app. lia.
  - intros top d q whole inp us b Q O _ (N & (w & W) & R). eapply inside_stuck; [exact I|exact O|exact R|]. apply end_stop, Q.
  - intros top d q tag whole inp us b D O _ (N & (w & W) & G). destruct G as [_ R]; [destruct D as [-> | ->]; exact I|].
    eapply inside_stuck; [apply from_self|exact O|exact R|]. eapply doc_stop, D.
  - intros top d tag whole inp us b c r O _ (N & (w & W) & G) C. destruct (G I) as [_ R]. destruct (opened_part _ _ _ O) as (v & _ & V).
    eapply inside_stuck; [apply from_self|exact O|exact R|]. apply now_stop; [exact C|]. rewrite V, W, !blen_app. lia.
  - intros top d q tag whole inp us b semicolon r D O _ (N & (w & W) & G) A B. destruct G as [_ R]; [destruct D as [-> | ->]; exact I|]. destruct (opened_part _ _ _ O) as (v & _ & V).
    eapply inside_stuck; [apply from_self|exact O|exact R|]. apply (tag_stop whole q tag b semicolon r D A B). rewrite V, W, !blen_app. lia.
  - intros top d q whole inp us b r x O _ (N & (w & W) & G) _ [[S B] FR]. destruct (opened_part _ _ _ O) as (v & _ & V).
    destruct G as [_ R]; [destruct r as [|c r]; [discriminate|]; apply runs_head, S|]. eapply inside_stuck; [|exact O|exact R|apply B].
    rewrite V, W. apply from_app, from_app, FR.
  (* inside strings *)
  - intros q c r E C. destruct (escapes_facts q E) as [NB NW]. split; [|exact I]. apply (escape_stop q ([c] ++ r)); [exact NB|]. rewrite NW. exists 0. intros code f s b _ H _. unfold str_escape. rewrite (tbind_input _ _ _ _ H). cbn [nth_error app].
    change (In c [101; 117]%N) in C. exists PUnimplemented. destruct C as [<-|[<-|[]]]; reflexivity.
  - intros q NB. split; [|apply from_self]. apply (escape_stop q []); [exact NB|]. exists 0. intros code f s b _ H Q. unfold str_escape. rewrite (tbind_input _ _ _ _ H). cbn [nth_error].
    unfold tbind, input_pos, terr. exists s. cbv zeta. change (s2l "\") with [92%N]. pose proof (at_from code s _ H) as P. rewrite <- P. split; [destruct (is_now q); reflexivity|]. split; [cbn; lia|exact Q].
  - intros q c w r E A B C D F G. split; [|exact I]. exact (byte_stop q c w r E A B C D F G).
  - intros q v r SP V. split; [|exact I]. apply index_stop; assumption.
  - intros q dollar code ts d r x SP D _ T _ S X. split; [|destruct X as [-> | ->]; exact I]. destruct (code_stuck _ _ _ _ _ T S) as (toks & L & _). apply block_stop; [exact SP|exact D|]. eapply block_bad; eassumption.
  - intros q dollar code ts d SP D _ T. split; [|exact I]. apply block_stop; [exact SP|exact D|]. eapply code_eof, T.
  - intros q code ts d r c from len SP _ T _ S NL. split; [|exact I]. destruct (code_report _ _ _ _ _ _ _ T S) as [BD _]. exact (dollar_drop_stop q code SP (block_drop _ _ _ BD NL)).
  - intros q code ts d w SP _ T N. split; [|exact I]. exact (dollar_drop_stop q code SP (code_html _ _ _ _ T N)).
  - intros q dollar code ts d r c z len SP D _ T _ S NL C. split; [|exact I]. destruct (code_report _ _ _ _ _ _ _ T S) as [BD (w & W)].
    exact (cut_stop q dollar code ts c z w SP D (block_take _ _ _ BD NL) W C).
Qed.

(** ** Whole sources *)
Lemma start_run E w p k r ts d q toks : no_tag w -> Tag p k r -> Text 0 r ts d q -> lexg E LInScripting (stk d []) q toks -> lexg E LInitial [] (w ++ p ++ r) (html w ++ Kw k :: ts ++ toks).
Proof.
  intros NT TG T L. destruct (proj1 reads _ _ _ _ _ T) as (_ & _ & G). apply g_html_any; [exact NT|right; eapply tag_head; exact TG|]. apply g_tag; [exact TG|]. exact (G E [] toks L).
Qed.
Theorem source_tokens src ts : Source src ts -> tokens_of src ts.
Proof.
  intros [w NT|w p k r ts' d NT TG T|w p k r ts' d v NT TG T NV]; apply g_tokens.
  - rewrite <- (app_nil_r w) at 1. rewrite <- (app_nil_r (html w)). apply g_html_any; [exact NT|left; reflexivity|apply g_end_html].
  - rewrite <- (app_nil_r ts'). eapply start_run; [exact NT|exact TG|exact T|apply g_end_script].
  - eapply start_run; [exact NT|exact TG|exact T|]. apply g_close_tag. rewrite <- (app_nil_r v) at 1. rewrite <- (app_nil_r (html v)). apply g_html_any; [exact NV|left; reflexivity|apply g_end_html].
Qed.
Lemma unread_run src x : Unread src x -> exists toks, lexg (ends x) LInitial [] src toks.
Proof.
  intros [w p k r ts d q x' NT TG T S]. destruct (proj1 (proj2 (proj2 (proj2 (proj2 reads)))) _ _ _ _ S) as [_ R]. destruct (R [] ltac:(auto)) as (toks & L & _).
  eexists. eapply start_run; eassumption.
Qed.
Theorem unread_meets src x : Unread src x -> meets src x.
Proof. intros U. destruct (unread_run src x U) as (toks & L). exact (g_meets x src toks L). Qed.

(** ** One fate *)
Lemma s2l_inj a b : s2l a = s2l b -> a = b.
Proof.
  revert b. induction a as [|x a IH]; destruct b as [|y b]; cbn; try discriminate; [reflexivity|]. intros E. injection E as E1 E2.
  rewrite (IH b E2). f_equal. rewrite <- (ascii_N_embedding x), <- (ascii_N_embedding y), E1. reflexivity.
Qed.
Lemma unread_from src x : Unread src x -> from_in src x.
Proof.
  intros [w p k r ts d q x' NT TG T S]. apply from_app, from_app. eapply text_from; [exact (proj1 reads _ _ _ _ _ T)|]. exact (proj1 (proj1 (proj2 (proj2 (proj2 (proj2 reads)))) _ _ _ _ S)).
Qed.
Lemma same_end (src a b : str) : (exists w, src = w ++ a) -> (exists w, src = w ++ b) -> blen src - blen a = blen src - blen b -> a = b.
Proof.
  intros (w & E) (v & E') H.
  assert (L : blen a = blen b) by (rewrite E in H at 1; rewrite E' in H; rewrite E in E'; pose proof (f_equal blen E') as X; rewrite !blen_app in *; lia).
  clear H. rewrite E in E'. clear E src. revert v E'. induction w as [|c w IH]; intros v E; destruct v as [|c' v]; cbn in E.
  - exact E.
  - subst a. exfalso. cbn in L. rewrite blen_app in L. pose proof (clen_pos c'). lia.
  - subst b. exfalso. cbn in L. rewrite blen_app in L. pose proof (clen_pos c). lia.
  - injection E as _ E. exact (IH v E).
Qed.
Theorem one_fate src x y : Unread src x -> Unread src y -> x = y.
Proof.
  intros A B. pose proof (unread_from _ _ A) as FA. pose proof (unread_from _ _ B) as FB.
  destruct (unread_run _ _ A) as (ta & LA). destruct (unread_run _ _ B) as (tb & LB). destruct (g_fate _ _ _ LA) as (F & GA). destruct (g_fate _ _ _ LB) as (F' & GB).
  specialize (GA (F + F') ltac:(lia)). specialize (GB (F + F') ltac:(lia)). destruct x as [| |c from len], y as [| |c' from' len']; cbn [fate_of] in GA, GB; try reflexivity;
    repeat match goal with H : exists _, _ |- _ => destruct H end; try congruence.
  cbv zeta in *. match goal with H : tokenize _ _ = _, H' : tokenize _ _ = _ |- _ => rewrite H in H'; injection H' as E _ end. cbn [from_in] in FA, FB.
  destruct c as [what|], c' as [what'|]; try discriminate E; unfold complaint_error, mk_span in E; injection E; intros.
  - assert (from = from') by (apply (same_end src); assumption). subst from'.
    f_equal; [|lia]. f_equal. apply s2l_inj. congruence.
  - assert (from = from') by (apply (same_end src); assumption). subst from'.
    f_equal. lia.
Qed.
Theorem read_or_unread src ts x : Source src ts -> Unread src x -> False.
Proof.
  intros A B. destruct (source_tokens _ _ A) as (F & T). destruct (unread_run _ _ B) as (tb & LB). destruct (g_fate _ _ _ LB) as (F' & G).
  destruct (T (F + F') ltac:(lia)) as (u & s & X & _). specialize (G (F + F') ltac:(lia)). destruct x; cbn [fate_of] in G; repeat match goal with H : exists _, _ |- _ => destruct H end; cbv zeta in *; congruence.
Qed.
