(** * Emit: source texts and the tokens the parser sees *)
From Verif Require Import Base Tokens Ast AstMap Lexer Parser Printer Driver Spec SmallFacts ParserTermination ParserFacts LexBase LexSteps LexWords LexTok LexNum LexStr LexMore LexRun LexParse LexCrash ParseRun ParseTac ParseExpr ParseStmt ParseDecl.
From Coq Require Import String.

(** ** What the parser sees *)
Definition sees (t : token) : list token :=
  match t with
  | TComment _ | Kw KOpenTag | Kw KCloseTag => []
  | TInlineHtml s => [Kw KEcho; TCes s; Kw KSemiColon]
  | Kw KOpenTagWithEcho => [Kw KEcho]
  | _ => [t]
  end.
Lemma filter_sees l : map fst (filter_tokens l) = flat_map sees (map fst l).
Proof.
  induction l as [|[t sp] l IH]; auto. change (filter_tokens ((t, sp) :: l)) with (filter_token (t, sp) ++ filter_tokens l).
  etransitivity; [apply map_app|]. cbn [map flat_map fst]. f_equal; [|exact IH]. destruct t as [| | | | | | | |k]; try reflexivity. destruct k; reflexivity.
Qed.
(** [LEmitQueue] never lies on the tokenizer's stack.  Here it is a mark on the stack:
    with it, [seen] says that the input makes the tokenizer panic.  So all that is shown
    below for any stack holds for inputs with a good end and for inputs with a crash. *)
Definition is_mark (m : lstate) : bool := match m with LEmitQueue => true | _ => false end.
Definition marked (st : list lstate) : bool := existsb is_mark st.
Definition real (st : list lstate) : list lstate := filter (fun m => negb (is_mark m)) st.
(** the parser sees [vs] of the input [inp] *)
Definition seen (m : lstate) (st : list lstate) (inp : str) (vs : list token) : Prop :=
  if marked st then crashes m (real st) inp else exists toks, lexes m (real st) inp toks /\ flat_map sees toks = vs.
Lemma seen_by m st inp m' st' r us vs : marked st' = marked st ->
  (crashes m' (real st') r -> crashes m (real st) inp) ->
  (forall toks, lexes m' (real st') r toks -> exists toks', lexes m (real st) inp toks' /\ flat_map sees toks' = us ++ flat_map sees toks) ->
  seen m' st' r vs -> seen m st inp (us ++ vs).
Proof.
  unfold seen. intros -> C L. destruct (marked st); [exact C|]. intros (toks & T & <-). exact (L toks T).
Qed.
Lemma late2_filter l : late 2 l -> late 2 (filter_tokens l).
Proof.
  intros H. induction H as [|[t sp] l X H IH]; [constructor|]. cbn [filter_tokens flat_map]. apply Forall_app. split; [|exact IH].
  cbn [snd] in X. destruct t as [| | | | | | | |k]; cbn; repeat constructor; auto. destruct k; cbn; repeat constructor; auto.
Qed.
Lemma placed_late toks : late 2 (placed toks).
Proof. induction toks; constructor; auto. Qed.
Lemma program_parses r tss ss : seen LInScripting [] r (List.concat tss) -> tss <> [] -> Forall2 Top tss ss ->
  parses_to (s2l "<?php" ++ r) ss.
Proof.
  intros (toks & L & E) NE F.
  destruct (program_run tss ss (filter_tokens (placed toks)) NE F) as (l & p & P & S).
  - apply late2_filter, placed_late.
  - rewrite filter_sees, <- E. unfold placed. rewrite map_map. cbn [fst]. rewrite map_id. reflexivity.
  - eapply parses_strip; [exact S|]. eapply lex_parse_ok; eauto.
Qed.
(** the result of [parses_to] is determined *)
Lemma parses_det src l l' : parses_to src l -> parses_to src l' -> strip l = strip l'.
Proof.
  intros (F & H) (F' & H'). destruct (H (F + F') ltac:(lia)) as (a & A & B). destruct (H' (F + F') ltac:(lia)) as (b & C & D). congruence.
Qed.

(** ** One token after the other *)
Lemma seen_step m st inp t m' st' r vs : m <> LEmitQueue -> step1 m (real st) inp t m' (real st') r -> t <> Kw KEnd -> seen m' st' r vs ->
  marked st' = marked st -> seen m st inp (sees t ++ vs).
Proof.
  intros M S N R E. eapply seen_by; [exact E| | |exact R].
  - eapply crash_step; eauto.
  - intros toks L. exists (t :: toks). split; [|reflexivity]. eapply lex_step; eauto.
Qed.
Lemma seen_end : seen LInScripting [] [] [].
Proof. exists []. split; [apply lex_end_script|reflexivity]. Qed.
Lemma seen_ws st w r vs : blank w = true -> seen LInScripting st r vs -> seen LInScripting st (w ++ r) vs.
Proof.
  intros B R. apply (seen_by LInScripting st (w ++ r) LInScripting st r []); [reflexivity| | |exact R].
  - apply crash_ws; auto.
  - intros toks L. exists toks. split; [|reflexivity]. apply lex_ws; auto.
Qed.
Lemma seen_comment st c r vs : comment_ok c -> seen LInScripting st r vs -> seen LInScripting st (comment_text c ++ r) vs.
Proof.
  intros C R. apply (seen_by LInScripting st (comment_text c ++ r) LInScripting st r []); [reflexivity| | |exact R].
  - apply crash_comment; auto.
  - intros toks L. eexists. split; [apply lex_comment; eauto|]. reflexivity.
Qed.

(** the characters that must not follow an operator *)
Definition bad (op : string) : list N :=
  flat_map (fun p : string * kind => if starts_with (s2l op) (s2l (fst p)) then firstn 1 (skipn (List.length (s2l op)) (s2l (fst p))) else []) operators ++
  (if str_eqb (s2l op) (s2l ".") then [48; 49; 50; 51; 52; 53; 54; 55; 56; 57]%N else []) ++
  (if str_eqb (s2l op) (s2l "/") then [47; 42]%N else []) ++
  (if str_eqb (s2l op) (s2l "<<") then [60]%N else []).
Definition stops (op : string) (r : str) : bool :=
  match r with
  | c :: _ => forallb (fun x => negb (c =? x)%N) (bad op)
  | [] => negb (str_eqb (s2l op) (s2l "."))
  end.
Lemma stops_in op c r : stops op (c :: r) = true -> ~ In c (bad op).
Proof. cbn. intros H I. rewrite forallb_forall in H. specialize (H _ I). rewrite N.eqb_refl in H. discriminate. Qed.
Lemma stops_class (P : N -> bool) op c r : P c = true -> forallb (fun x => negb (P x)) (bad op) = true -> stops op (c :: r) = true.
Proof.
  intros H B. cbn. apply forallb_forall. intros x I. rewrite forallb_forall in B. specialize (B x I).
  destruct (N.eqb_spec c x) as [->|]; auto. rewrite H in B. discriminate.
Qed.
Lemma stops_longest op k r : In (op, k) operators -> stops op r = true -> longest_op op (s2l op ++ r).
Proof.
  intros I S. split; [apply starts_with_app|]. intros op' k' I' S'.
  destruct (Nat.le_gt_cases (List.length (s2l op')) (List.length (s2l op))) as [L|L]; auto. exfalso.
  destruct (starts_cut _ _ _ S' (Nat.lt_le_incl _ _ L)) as (z & E & Z).
  destruct z as [|c z]; [rewrite app_nil_r in E; rewrite E in L; lia|]. destruct r as [|d r]; [discriminate|].
  cbn in Z. apply andb_prop in Z. destruct Z as [Z _]. apply N.eqb_eq in Z. subst d.
  apply (stops_in op c r S). unfold bad. apply in_or_app. left. apply in_flat_map. exists (op', k'). split; auto. cbn [fst].
  rewrite E, starts_with_app, skipn_app, skipn_all, Nat.sub_diag. left. reflexivity.
Qed.
Lemma stops_plain op k r : In (op, k) operators -> op <> "$"%string -> stops op r = true -> plain (s2l op ++ r) = true.
Proof.
  intros I ND S. unfold operators in I. cbn [In] in I.
  repeat (destruct I as [I|I]; [injection I as <- <-; try (destruct r; reflexivity)|]); try contradiction.
  - (* . *) destruct r as [|c r]; [discriminate|]. change (s2l "." ++ c :: r) with (46%N :: c :: r).
    assert (NN : no_num (46%N :: c :: r) = true).
    { cbn. destruct (is_digit c) eqn:D; auto. exfalso. apply (stops_in _ _ _ S).
      unfold is_digit in D. apply andb_prop in D. destruct D as [D1 D2]. apply N.leb_le in D1, D2.
      assert (X : (c = 48 \/ c = 49 \/ c = 50 \/ c = 51 \/ c = 52 \/ c = 53 \/ c = 54 \/ c = 55 \/ c = 56 \/ c = 57)%N) by lia.
      vm_compute. intuition congruence. }
    unfold plain. rewrite NN. reflexivity.
  - destruct r as [|c r]; [reflexivity|]. change (s2l "/" ++ c :: r) with (47%N :: c :: r). unfold plain.
    change (s2l "//") with [47; 47]%N. change (s2l "/*") with [47; 42]%N.
    cbn [starts_with]. destruct (N.eqb_spec 47 c) as [<-|]; [vm_compute in S; discriminate|].
    destruct (N.eqb_spec 42 c) as [<-|]; [vm_compute in S; discriminate|]. reflexivity.
  - destruct r as [|c r]; [reflexivity|]. change (s2l "<" ++ c :: r) with (60%N :: c :: r). unfold plain.
    change (s2l "<<<") with [60; 60; 60]%N. cbn [starts_with]. destruct (N.eqb_spec 60 c) as [<-|]; [vm_compute in S; discriminate|]. reflexivity.
  - destruct r as [|c r]; [reflexivity|]. change (s2l "<<" ++ c :: r) with (60%N :: 60%N :: c :: r). unfold plain.
    change (s2l "<<<") with [60; 60; 60]%N. cbn [starts_with]. destruct (N.eqb_spec 60 c) as [<-|]; [vm_compute in S; discriminate|]. reflexivity.
Qed.
Lemma stops_op op k r : In (op, k) operators -> op <> "$"%string -> stops op r = true -> (k = KParenthesesOpen -> cast_tail r = None) -> plain_op op k r.
Proof. intros I D S C. split; [eapply stops_longest; eauto|split; [eapply stops_plain; eauto|exact C]]. Qed.
Definition find_op (op : string) : option kind := option_map snd (find (fun p : string * kind => (fst p =? op)%string) operators).
Lemma find_op_in op k : find_op op = Some k -> In (op, k) operators.
Proof.
  unfold find_op. destruct (find _ _) as [[o k']|] eqn:E; [|discriminate]. cbn. intros [= ->].
  destruct (List.find_some _ _ E) as [I X]. cbn in X. apply String.eqb_eq in X. subst. exact I.
Qed.
(** operators that neither change the mode nor open a parenthesis *)
Definition easy_op (op : string) (k : kind) : bool :=
  negb (op =? "$")%string && match find_op op with Some k' => kind_eqb k k' | None => false end &&
  negb (kind_eqb k KParenthesesOpen) && act_eqb (act_of k) ANone.
Lemma kind_eqb_eq a b : kind_eqb a b = true -> a = b.
Proof. destruct a, b; cbn; try discriminate; reflexivity. Qed.
Lemma operators_seen op k : In (op, k) operators -> k <> KCloseTag -> sees (Kw k) = [Kw k] /\ k <> KEnd.
Proof.
  intros I N. unfold operators in I. cbn [In] in I.
  repeat (destruct I as [I|I]; [injection I as <- <-; try congruence; split; (reflexivity || discriminate)|]). contradiction.
Qed.
Lemma seen_op st op k r vs : easy_op op k = true -> stops op r = true -> seen LInScripting st r vs ->
  seen LInScripting st (s2l op ++ r) (Kw k :: vs).
Proof.
  unfold easy_op. intros H S R. apply andb_prop in H. destruct H as [H H4]. apply andb_prop in H. destruct H as [H H3].
  apply andb_prop in H. destruct H as [H1 H2]. destruct (find_op op) as [k'|] eqn:F; [|discriminate].
  apply kind_eqb_eq in H2. subst k'. apply find_op_in in F. apply act_eqb_eq in H4.
  destruct (operators_seen op k F) as [E N]; [intros ->; discriminate|].
  change (Kw k :: vs) with ([Kw k] ++ vs). rewrite <- E.
  eapply seen_step; [discriminate| |congruence|exact R|reflexivity].
  eapply step_op; [exact F| |unfold mode_after; rewrite H4; reflexivity].
  apply stops_op; auto.
  - intros ->. discriminate.
  - intros ->. discriminate.
Qed.
Lemma seen_paren st r vs : cast_tail r = None -> seen LInScripting st r vs -> seen LInScripting st (s2l "(" ++ r) (Kw KParenthesesOpen :: vs).
Proof.
  intros C R. apply (seen_step LInScripting st (s2l "(" ++ r) (Kw KParenthesesOpen) LInScripting st r vs); [discriminate| |discriminate|exact R|reflexivity].
  assert (I : In ("("%string, KParenthesesOpen) operators) by (cbn; tauto).
  eapply step_op; [exact I| |reflexivity]. apply stops_op; auto; [discriminate|]. destruct r; reflexivity.
Qed.
Lemma seen_curly st r vs : seen LInScripting (LInScripting :: st) r vs -> seen LInScripting st (s2l "{" ++ r) (Kw KCurlyBracesOpen :: vs).
Proof.
  intros R. apply (seen_step LInScripting st (s2l "{" ++ r) (Kw KCurlyBracesOpen) LInScripting (LInScripting :: st) r vs); [discriminate| |discriminate|exact R|reflexivity].
  assert (I : In ("{"%string, KCurlyBracesOpen) operators) by (cbn; tauto).
  eapply step_op; [exact I| |reflexivity]. apply stops_op; auto; [discriminate| |discriminate]. destruct r; reflexivity.
Qed.
Lemma seen_curly_close st r vs : seen LInScripting st r vs -> seen LInScripting (LInScripting :: st) (s2l "}" ++ r) (Kw KCurlyBracesClose :: vs).
Proof.
  intros R. apply (seen_step LInScripting (LInScripting :: st) (s2l "}" ++ r) (Kw KCurlyBracesClose) LInScripting st r vs); [discriminate| |discriminate|exact R|reflexivity].
  assert (I : In ("}"%string, KCurlyBracesClose) operators) by (cbn; tauto).
  eapply step_op; [exact I| |reflexivity]. apply stops_op; auto; [discriminate| |discriminate]. destruct r; reflexivity.
Qed.
Lemma seen_close_tag st r toks : seen LInitial st r toks -> seen LInScripting st (s2l "?>" ++ r) toks.
Proof.
  intros R. apply (seen_step LInScripting st (s2l "?>" ++ r) (Kw KCloseTag) LInitial st r toks); [discriminate| |discriminate|exact R|reflexivity].
  assert (I : In ("?>"%string, KCloseTag) operators) by (cbn; tauto).
  eapply step_op; [exact I| |reflexivity]. apply stops_op; auto; [discriminate| |discriminate]. destruct r; reflexivity.
Qed.
Lemma seen_html_end : seen LInitial [] [] [].
Proof. exists []. split; [apply lex_end_html|reflexivity]. Qed.
(** [->] and a property *)
Lemma seen_arrow st r vs : seen LLookingForProperty (LInScripting :: st) r vs -> seen LInScripting st (s2l "->" ++ r) (Kw KObjectOp :: vs).
Proof.
  intros R. apply (seen_step LInScripting st (s2l "->" ++ r) (Kw KObjectOp) LLookingForProperty (LInScripting :: st) r vs); [discriminate| |discriminate|exact R|reflexivity].
  assert (I : In ("->"%string, KObjectOp) operators) by (cbn; tauto).
  eapply step_op; [exact I| |reflexivity]. apply stops_op; auto; [discriminate| |discriminate]. destruct r; reflexivity.
Qed.
Lemma seen_prop_name st w r vs : name_ok w = true -> ends_word r = true -> seen LInScripting st r vs ->
  seen LInScripting st (s2l "->" ++ w ++ r) (Kw KObjectOp :: TString w :: vs).
Proof.
  intros N E R. apply seen_arrow. apply (seen_by LLookingForProperty (LInScripting :: st) (w ++ r) LInScripting st r [TString w]); [reflexivity| | |exact R].
  - apply (crash_prop LInScripting (real st)); auto.
  - intros toks L. eexists. split; [apply lex_prop; eauto|]. reflexivity.
Qed.
Lemma seen_prop_other st c r vs : (c = 36 \/ c = 123)%N -> seen LInScripting st (c :: r) vs ->
  seen LInScripting st (s2l "->" ++ c :: r) (Kw KObjectOp :: vs).
Proof.
  intros C R. apply seen_arrow. apply (seen_by LLookingForProperty (LInScripting :: st) (c :: r) LInScripting st (c :: r) []); [reflexivity| | |exact R].
  - apply crash_prop_none; destruct C; subst; reflexivity.
  - intros toks L. eexists. split; [apply lex_prop_none; eauto|reflexivity]; destruct C; subst; reflexivity.
Qed.
(** words, variables and literals *)
Lemma word_sees w : sees (word_token w) = [word_token w] /\ word_token w <> Kw KEnd.
Proof.
  unfold word_token. destruct (find _ _) as [[x k]|] eqn:E; [|split; [reflexivity|discriminate]].
  destruct (List.find_some _ _ E) as [I _]. unfold keywords in I. cbn [In] in I.
  repeat (destruct I as [I|I]; [injection I as <- <-; split; [reflexivity|discriminate]|]). contradiction.
Qed.
(** what may follow a word *)
Definition follows (r : str) : bool :=
  ends_word r && negb (starts_with_c 34 r) && negb (starts_with_c 39 r) && negb (starts_with (s2l "<<<") r).
Lemma follows_word r : follows r = true -> ends_word r = true.
Proof. unfold follows. intros H. repeat (apply andb_prop in H; destruct H as [H ?]). exact H. Qed.
Lemma follows_b w r : follows r = true -> quote_b w r = false.
Proof.
  unfold follows, quote_b. intros H. repeat (apply andb_prop in H; destruct H as [H ?]).
  destruct (starts_with_c 34 r), (starts_with_c 39 r), (starts_with (s2l "<<<") r); try discriminate. apply andb_false_r.
Qed.
Lemma seen_word st w r vs : Spec.identifier w = true -> follows r = true -> w <> s2l "yield" -> w <> s2l "yieldfrom" ->
  seen LInScripting st r vs -> seen LInScripting st (w ++ r) (word_token w :: vs).
Proof.
  intros I E Y1 Y2 R. destruct (word_sees w) as [S N]. change (word_token w :: vs) with ([word_token w] ++ vs). rewrite <- S.
  eapply seen_step; [discriminate|apply step_word; auto using follows_word, follows_b|exact N|exact R|reflexivity].
Qed.
Lemma seen_kw st (w : string) k r vs : word_token (s2l w) = Kw k -> follows r = true -> seen LInScripting st r vs ->
  Spec.identifier (s2l w) = true -> seen LInScripting st (s2l w ++ r) (Kw k :: vs).
Proof.
  intros E F R I. rewrite <- E. apply seen_word; auto.
  - intros X. rewrite X in E. vm_compute in E. discriminate.
  - intros X. rewrite X in E. vm_compute in E. discriminate.
Qed.
Lemma seen_var st w r vs : name_ok w = true -> ends_word r = true -> seen LInScripting st r vs ->
  seen LInScripting st (s2l "$" ++ w ++ r) (TVariable w :: vs).
Proof.
  intros N E R. apply (seen_step LInScripting st (s2l "$" ++ w ++ r) (TVariable w) LInScripting st r vs); [discriminate| |discriminate|exact R|reflexivity].
  apply (step_var (real st) w r); auto.
Qed.
Lemma seen_int st n r vs : (n <= i64_max)%N -> head_is (fun c => (c =? 46)%N) r = false -> ends_word r = true -> seen LInScripting st r vs ->
  seen LInScripting st (show_N n ++ r) (TInt (Z.of_N n) :: vs).
Proof.
  intros N D E R. apply (seen_step LInScripting st (show_N n ++ r) (TInt (Z.of_N n)) LInScripting st r vs); [discriminate| |discriminate|exact R|reflexivity].
  apply step_int; auto.
Qed.
Lemma seen_dbl st w v r vs : Forall (fun c => is_digit c = true) w -> Forall (fun c => is_digit c = true) v ->
  w ++ v <> [] -> head_is is_digit r = false -> seen LInScripting st r vs ->
  seen LInScripting st ((w ++ 46%N :: v) ++ r) (TDouble (w ++ 46%N :: v) :: vs).
Proof.
  intros W V NE D R. rewrite <- app_assoc. cbn [app].
  apply (seen_step LInScripting st (w ++ 46%N :: v ++ r) (TDouble (w ++ 46%N :: v)) LInScripting st r vs); [discriminate| |discriminate|exact R|reflexivity].
  apply step_dbl; auto.
Qed.
Lemma seen_sq st c r vs : sq_content c = true -> Forall scalar (sq_decode c) -> seen LInScripting st r vs ->
  seen LInScripting st (s2l "'" ++ c ++ s2l "'" ++ r) (TCes (sq_decode c) :: vs).
Proof.
  intros C SC R. apply (seen_step LInScripting st (s2l "'" ++ c ++ s2l "'" ++ r) (TCes (sq_decode c)) LInScripting st r vs); [discriminate| |discriminate|exact R|reflexivity].
  apply (step_sq (real st) c r); auto.
Qed.
Lemma cast_kinds r k r2 : cast_tail r = Some (k, r2) -> sees (Kw k) = [Kw k] /\ k <> KEnd.
Proof.
  intros C. unfold cast_tail in C. destruct (find_entry _ _) as [e|] eqn:F; [|discriminate].
  destruct (skip_blank (skipn _ _)) as [|c x]; [discriminate|]. destruct (c =? 41)%N; [|discriminate]. injection C as <- _.
  assert (I : In e cast_table) by (apply LexWords.find_some in F; tauto).
  assert (B : forallb (fun e : entry => match sees (Kw (snd (fst e))) with [Kw k] => kind_eqb k (snd (fst e)) && negb (kind_eqb k KEnd) | _ => false end) cast_table = true) by (vm_compute; reflexivity).
  rewrite forallb_forall in B. specialize (B e I). destruct (snd (fst e)); cbn in *; try discriminate; split; try reflexivity; discriminate.
Qed.
Lemma seen_cast st r k r2 vs : cast_tail r = Some (k, r2) -> seen LInScripting st r2 vs -> seen LInScripting st (s2l "(" ++ r) (Kw k :: vs).
Proof.
  intros C R. destruct (cast_kinds _ _ _ C) as [S N]. change (Kw k :: vs) with ([Kw k] ++ vs). rewrite <- S.
  eapply seen_step; [discriminate|apply (step_cast (real st) r k r2 C)|congruence|exact R|reflexivity].
Qed.
