(** * LexFacts: lemmas behind PropertiesLexer.v *)
From Verif Require Import Base Tokens Ast AstMap Lexer Parser Printer Driver Spec SmallFacts ParserTermination ParserFacts LexBase LexSteps LexWords LexTok LexNum LexStr LexMore LexRun LexParse.
From Coq Require Import String.

Lemma next_scan code f s : lmode s <> LEmitQueue ->
  next_token code (S (S f)) s =
  match scan code (next_token code (S f)) (S f) s with
  | TErr SENone s' => if restart s' then nt_loop code (next_token code (S f)) (S f) f (set_restart false s') else TErr SENone s'
  | r => r
  end.
Proof. intros M. change (next_token code (S (S f)) s) with (nt_loop code (next_token code (S f)) (S f) (S f) s). apply nt_scan. exact M. Qed.
Lemma step_reads code s st inp t r : step1 LInScripting st inp t LInScripting st r -> reading code s inp -> lstack s = st -> reads code s t r.
Proof.
  intros (L & S1) (M & Q & U) ST. exists (S (S L)). intros f LF. destruct f as [|[|f]]; [lia|lia|].
  destruct (S1 code (next_token code (S f)) (S f) s ltac:(lia) U M ST Q) as (sp & s' & E & A & M' & ST' & Q' & _).
  exists sp, s'. split; [|split; [split; auto|congruence]]. rewrite next_scan by congruence. rewrite E. reflexivity.
Qed.
Lemma scan_reads code s t sp s' r : lmode s = LInScripting ->
  (exists L, forall nt lf, L <= lf -> in_scripting_token code nt lf s = TOk (t, sp) s') -> unread code s' r -> reads_at code s t sp r.
Proof.
  intros M (L & E) U. exists (S (S L)). intros f LF. destruct f as [|[|f]]; [lia|lia|]. exists s'. split; auto.
  rewrite next_scan by congruence. unfold scan. rewrite M, E by lia. reflexivity.
Qed.

(** C10 *)
Lemma variable_read code s w r : reading code s (s2l "$" ++ w ++ r) -> name_ok w = true -> ends_word r = true -> reads code s (TVariable w) r.
Proof. intros R N E. eapply step_reads; [|exact R|reflexivity]. apply (step_var (lstack s) w r); auto. Qed.
(** C11 *)
Definition plain_word (w r : str) : Prop :=
  identifier w = true /\ ends_word r = true /\ w <> s2l "yield" /\ w <> s2l "yieldfrom" /\
  (w = s2l "b" -> forall q, r <> s2l "'" ++ q /\ r <> [34%N] ++ q /\ r <> s2l "<<<" ++ q).
Lemma plain_quote w r : (w = s2l "b" -> forall q, r <> s2l "'" ++ q /\ r <> [34%N] ++ q /\ r <> s2l "<<<" ++ q) -> quote_b w r = false.
Proof.
  intros H. unfold quote_b. apply not_true_iff_false. intros X. apply andb_prop in X. destruct X as [X Y].
  apply str_eqb_eq in X. specialize (H X). apply orb_prop in Y. destruct Y as [Y|Y]; [apply orb_prop in Y; destruct Y as [Y|Y]|].
  - destruct r as [|c r]; [discriminate|]. cbn in Y. apply N.eqb_eq in Y. subst. destruct (H r) as (_ & B & _). apply B. reflexivity.
  - destruct r as [|c r]; [discriminate|]. cbn in Y. apply N.eqb_eq in Y. subst. destruct (H r) as (A & _). apply A. reflexivity.
  - apply starts_with_iff in Y. destruct Y as (q & Y). destruct (H q) as (_ & _ & B). apply B. exact Y.
Qed.
Lemma word_read code s w r : reading code s (w ++ r) -> plain_word w r ->
  reads_at code s (word_token w) (mk_span (src_pos s) (src_pos s + List.length w)) r /\ reads code s (word_token w) r.
Proof.
  intros R (I & E & Y1 & Y2 & B). pose proof (plain_quote _ _ B) as Q. split.
  - destruct R as (M & QQ & U). eapply scan_reads; [exact M| |].
    + exists 0. intros nt lf _. apply (word_tok code nt lf s w r U I E Q Y1 Y2).
    + apply at_move_eq with w; auto. destruct (ident_facts w I) as (_ & _ & _ & A). rewrite (blen_ascii w); auto.
  - eapply step_reads; [|exact R|reflexivity]. apply step_word; auto.
Qed.
Lemma word_keyword w k : In (w, k) keywords -> word_token (s2l w) = Kw k.
Proof.
  intros I. unfold word_token.
  assert (B : forallb (fun p : string * kind => match find (fun q : string * kind => str_eqb (s2l (fst q)) (s2l (fst p))) keywords with
     | Some (_, k') => kind_eqb k' (snd p) | None => false end) keywords = true) by (vm_compute; reflexivity).
  rewrite forallb_forall in B. specialize (B _ I). cbn [fst snd] in B.
  destruct (find _ keywords) as [[w' k']|]; [|discriminate]. apply kind_eqb_eq in B. congruence.
Qed.
Lemma word_other w : (forall x k, In (x, k) keywords -> s2l x <> w) -> word_token w = TString w.
Proof.
  intros H. unfold word_token. destruct (find _ keywords) as [[x k]|] eqn:F; auto.
  apply List.find_some in F. destruct F as [F1 F2]. cbn in F2. apply str_eqb_eq in F2. exfalso. exact (H _ _ F1 F2).
Qed.
(** C35 *)
Lemma upper_not_keyword w : (exists c, In c w /\ (65 <= c <= 90)%N) -> forall x k, In (x, k) keywords -> s2l x <> w.
Proof.
  intros (c & I & C) x k K E. subst w.
  assert (B : forallb (fun p : string * kind => forallb (fun c => negb ((65 <=? c) && (c <=? 90))%N) (s2l (fst p))) keywords = true) by (vm_compute; reflexivity).
  rewrite forallb_forall in B. specialize (B _ K). rewrite forallb_forall in B. specialize (B _ I).
  apply negb_true_iff in B. destruct C as [C1 C2]. apply N.leb_le in C1, C2. rewrite C1, C2 in B. discriminate.
Qed.
(** C12 *)
Lemma longest_iff op inp : longest op inp -> longest_op op inp.
Proof.
  intros ((r & E) & H). split; [rewrite E; apply starts_with_app|]. intros op' k' I S. apply starts_with_iff in S. destruct S as (q & S). eauto.
Qed.
Lemma skip_blank_split r : exists b, blanks b /\ r = b ++ skip_blank r.
Proof.
  induction r as [|c r (b & B & E)]; [exists []; split; constructor|]. cbn. destruct ((c =? 32) || (c =? 9))%N eqn:X.
  - exists (c :: b). split; [constructor; auto|cbn; congruence]. apply orb_prop in X. destruct X as [X|X]; apply N.eqb_eq in X; auto.
  - exists []. split; constructor.
Qed.
Lemma skip_blank_app b r : blanks b -> skip_blank (b ++ r) = skip_blank r.
Proof. induction 1 as [|c b [->| ->] _ IH]; cbn; auto. Qed.
Lemma cast_word_entry e : In e cast_table -> In (fst (fst e), snd (fst e)) cast_words /\ spelling e = s2l (fst (fst e)).
Proof.
  intros I. assert (B : forallb (fun e : entry => existsb (fun p : string * kind => str_eqb (s2l (fst p)) (s2l (fst (fst e))) && kind_eqb (snd p) (snd (fst e))) cast_words
     && str_eqb (spelling e) (s2l (fst (fst e)))) cast_table = true) by (vm_compute; reflexivity).
  rewrite forallb_forall in B. specialize (B e I). apply andb_prop in B. destruct B as [B B2]. split; [|apply str_eqb_eq; auto].
  cbn in I. repeat (destruct I as [<- |I]; [cbn; tauto|]). contradiction.
Qed.
Lemma cast_tail_text r k r2 : cast_tail r = Some (k, r2) -> exists a x b, In (x, k) cast_words /\ blanks a /\ blanks b /\ s2l "(" ++ r = cast_text a x b ++ r2.
Proof.
  unfold cast_tail. intros H. destruct (find_entry _ _) as [e|] eqn:F; [|discriminate].
  apply find_some in F. destruct F as [F1 F2]. apply starts_with_iff in F2. destruct F2 as (q & F2).
  destruct (cast_word_entry e F1) as [W SP].
  rewrite F2 in H. rewrite skipn_app, skipn_all, Nat.sub_diag in H. cbn [app skipn] in H.
  destruct (skip_blank_split r) as (a & A & EA). destruct (skip_blank_split q) as (b & B & EB).
  destruct (skip_blank q) as [|c r3] eqn:SQ; [discriminate|]. destruct (N.eqb_spec c 41) as [->|]; [|discriminate].
  injection H as H1 H2. subst r3. exists a, (fst (fst e)), b. rewrite H1 in W. split; [exact W|split; [exact A|split; [exact B|]]].
  unfold cast_text. rewrite EA, F2, EB, SP. rewrite <- !app_assoc. reflexivity.
Qed.
Lemma cast_text_tail a x b k r2 : In (x, k) cast_words -> blanks a -> blanks b -> exists r, cast_text a x b ++ r2 = s2l "(" ++ r /\ cast_tail r = Some (k, r2).
Proof.
  intros I A B. exists (a ++ s2l x ++ b ++ s2l ")" ++ r2). split; [unfold cast_text; rewrite <- !app_assoc; reflexivity|].
  unfold cast_tail. rewrite (skip_blank_app a) by auto.
  assert (SK : skip_blank (b ++ s2l ")" ++ r2) = 41%N :: r2) by (rewrite skip_blank_app; auto).
  assert (X : exists c q, b ++ s2l ")" ++ r2 = c :: q /\ (c = 32 \/ c = 9 \/ c = 41)%N).
  { destruct B as [|d b D]; cbn; eexists; eexists; (split; [reflexivity|tauto]). }
  destruct X as (c & q & X & C). rewrite X in *. clear X B.
  cbn in I. repeat (destruct I as [I|I]; [injection I as <- <-; destruct C as [-> |[-> | ->]]|]); try contradiction;
  match goal with |- context [s2l ?w ++ _] => let l := eval vm_compute in (s2l w) in change (s2l w) with l end;
  cbn [app skip_blank N.eqb Pos.eqb orb];
  match goal with |- context [find_entry cast_table ?i] => 
     let e := eval vm_compute in (find_entry cast_table i) in change (find_entry cast_table i) with e end; cbv beta iota;
  match goal with |- context [spelling ?l] => let n := eval vm_compute in (spelling l) in change (spelling l) with n end;
  cbn [skipn List.length]; rewrite SK; reflexivity.
Qed.
Lemma cast_tail_none r : (forall a x b k r2, In (x, k) cast_words -> blanks a -> blanks b -> s2l "(" ++ r <> cast_text a x b ++ r2) -> cast_tail r = None.
Proof.
  intros H. destruct (cast_tail r) as [[k r2]|] eqn:E; auto. destruct (cast_tail_text _ _ _ E) as (a & x & b & I & A & B & X).
  exfalso. exact (H _ _ _ _ _ I A B X).
Qed.
Lemma cast_read code s a x b k r : In (x, k) cast_words -> blanks a -> blanks b -> reading code s (cast_text a x b ++ r) -> reads code s (Kw k) r.
Proof.
  intros I A B R. destruct (cast_text_tail a x b k r I A B) as (q & E & C). rewrite E in R.
  eapply step_reads; [|exact R|reflexivity]. apply (step_cast (lstack s) q k r C).
Qed.
Lemma op_plain op k r : In (op, k) operators -> not_operator (s2l op ++ r) = false -> plain (s2l op ++ r) = true.
Proof.
  intros I N. unfold not_operator in N. apply orb_false_elim in N. destruct N as [N N4]. apply orb_false_elim in N. destruct N as [N N3].
  apply orb_false_elim in N. destruct N as [N1 N2].
  unfold plain. rewrite N1, N2, N3. cbn [negb]. rewrite !andb_true_r.
  unfold operators in I. cbn [In] in I.
  repeat (destruct I as [I|I]; [injection I as <- <-; try reflexivity|]); try contradiction.
  - change (s2l "$" ++ r) with (36%N :: r) in *. destruct r as [|c r]; [reflexivity|].
    assert (X : is_label_char c = name_char c).
    { unfold name_char, ascii_letter, is_label_char, is_lower, is_upper, is_digit.
      destruct ((97 <=? c) && (c <=? 122))%N, ((65 <=? c) && (c <=? 90))%N, (c =? 95)%N, ((48 <=? c) && (c <=? 57))%N, ((128 <=? c) && (c <=? 255))%N; reflexivity. }
    unfold no_var. cbn [head_is]. rewrite X. unfold is_digit. rewrite N4. reflexivity.
  - change (s2l "." ++ r) with (46%N :: r) in *. destruct r as [|c r]; [discriminate|]. unfold no_num, is_digit at 2. rewrite N4. reflexivity.
Qed.
Lemma op_read code s op k r : In (op, k) operators -> reading code s (s2l op ++ r) -> longest op (s2l op ++ r) ->
  not_operator (s2l op ++ r) = false ->
  (forall a x b k r2, In (x, k) cast_words -> blanks a -> blanks b -> s2l op ++ r <> cast_text a x b ++ r2) ->
  (k = KCurlyBracesClose -> lstack s <> []) ->
  reads_at code s (Kw k) (set_doc (op_doc k) (mk_span (src_pos s) (src_pos s + List.length (s2l op)))) r.
Proof.
  intros I (M & Q & U) L N C ST.
  assert (MC : match_cast code s = TErr SENone s).
  { apply (cast_no code s _ U). intros q E. apply cast_tail_none. intros. change (s2l "(" ++ q) with (40%N :: q). rewrite <- E. apply (C a x b k0); auto. }
  set (s1 := set_pos (src_pos s + List.length (s2l op)) s).
  assert (AS : exists s', in_st (act_of k) s1 = Some s' /\ src_pos s' = src_pos s1).
  { unfold in_st. destruct (act_of k) eqn:AK; cbn; eauto. destruct k; try discriminate. destruct (lstack s); [exfalso; apply ST; reflexivity|eauto]. }
  destruct AS as (s' & A1 & A2).
  assert (B : blen (s2l op) = List.length (s2l op)).
  { assert (X : forallb (fun p : string * kind => blen (s2l (fst p)) =? List.length (s2l (fst p))) operators = true) by (vm_compute; reflexivity).
    rewrite forallb_forall in X. specialize (X _ I). apply Nat.eqb_eq in X. exact X. }
  eapply scan_reads; [exact M| |].
  - exists 0. intros nt lf _. apply (op_tok code nt lf s op k r s' U I (longest_iff _ _ L) (op_plain _ _ _ I N) MC A1).
  - eapply at_same; [symmetry; exact A2|]. apply at_move_eq with (s2l op); auto.
Qed.
Lemma op_read_on code s op k r : In (op, k) operators -> reading code s (s2l op ++ r) -> longest op (s2l op ++ r) ->
  not_operator (s2l op ++ r) = false ->
  (forall a x b k r2, In (x, k) cast_words -> blanks a -> blanks b -> s2l op ++ r <> cast_text a x b ++ r2) ->
  ~ In op ["->"; "{"; "}"; "?>"]%string -> reads code s (Kw k) r.
Proof.
  intros I R L N C NI. eapply step_reads; [|exact R|reflexivity]. apply (step_op (lstack s) op k r); auto.
  - split; [apply longest_iff; auto|]. split; [apply op_plain with k; auto|]. intros ->.
    apply cast_tail_none. intros. 
    assert (op = "("%string) as -> by (unfold operators in I; cbn [In] in I; repeat (destruct I as [I|I]; [apply pair_equal_spec in I; destruct I as [I1 I2]; try discriminate I2; auto|]); contradiction).
    apply (C a x b k); auto.
  - unfold operators in I. cbn [In] in I. cbn [In] in NI.
    repeat (destruct I as [I|I]; [injection I as <- <-; try reflexivity; exfalso; tauto|]). contradiction.
Qed.
