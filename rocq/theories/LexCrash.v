(** * LexCrash: panics of the tokenizer, decimal notation and small programs *)
From Verif Require Import Base Tokens Ast AstMap Lexer Parser Printer Driver Spec SmallFacts ParserTermination ParserFacts LexBase LexSteps LexWords LexTok LexNum LexStr LexMore LexRun LexParse LexFacts.
From Coq Require Import String DecimalN DecimalFacts.

(** ** Panics *)
(** the rest of the loop over the tokens, with [k] rounds for the next token *)
Definition go_on (code : str) (f k n : nat) (acc : list tokspan) (s : tst) : dout (list tokspan * tst) (syntax_error * tst) :=
  match nt_loop code (next_token code f) f k s with
  | TOk (Kw KEnd, _) s' => DOk (acc, s')
  | TOk t s' => tokenize_loop code n (S f) (acc ++ [t]) s'
  | TErr e s' => DErr (e, s')
  | TPanic p => DPanic p
  | TFuel => DFuel
  end.
Lemma go_loop code f n acc s : tokenize_loop code (S n) (S f) acc s = go_on code f f n acc s.
Proof. reflexivity. Qed.
(** from an input [inp] in mode [m] the tokenizer ends in a panic *)
Definition crashes (m : lstate) (st : list lstate) (inp : str) : Prop :=
  exists F, forall code f s k n acc, F <= f -> F <= k -> F <= n -> at_ code s inp -> lmode s = m -> lstack s = st -> queue s = [] ->
  exists x, go_on code f k n acc s = DPanic x.

Lemma crash_step m st inp t m' st' r : m <> LEmitQueue -> step1 m st inp t m' st' r -> t <> Kw KEnd ->
  crashes m' st' r -> crashes m st inp.
Proof.
  intros NM (L & S1) NE (F & R). exists (S (L + F)). intros code f s k n acc LF LK LN H M ST Q.
  destruct (S1 code (next_token code f) f s ltac:(lia) H M ST Q) as (sp & s' & E & H' & M' & ST' & Q' & P1 & P2).
  destruct n as [|n]; [lia|]. destruct k as [|k]; [lia|]. unfold go_on. rewrite nt_scan by congruence. rewrite E.
  destruct (R code f s' f n (acc ++ [(t, sp)]) ltac:(lia) ltac:(lia) ltac:(lia) H' M' ST' Q') as (x & X).
  exists x. rewrite go_loop. destruct t as [q| | | | | | | |]; auto. destruct q; auto; congruence.
Qed.
(** the first token after white space panics *)
Definition panics1 (m : lstate) (st : list lstate) (inp : str) : Prop :=
  exists L, forall code nt lf s, L <= lf -> at_ code s inp -> lmode s = m -> lstack s = st -> queue s = [] ->
  exists x, scan code nt lf s = TPanic x.
Lemma crash_now m st inp : m <> LEmitQueue -> panics1 m st inp -> crashes m st inp.
Proof.
  intros NM (L & S1). exists (S L). intros code f s k n acc LF LK LN H M ST Q.
  destruct (S1 code (next_token code f) f s ltac:(lia) H M ST Q) as (x & E). exists x.
  destruct k as [|k]; [lia|]. unfold go_on. rewrite nt_scan by congruence. rewrite E. reflexivity.
Qed.
Lemma crash_ws m st w r : m = LInScripting \/ m = LLookingForProperty -> blank w = true -> crashes m st r -> crashes m st (w ++ r).
Proof.
  intros MM B (F & R). exists (S F). intros code f s k n acc LF LK LN H M ST Q.
  destruct (ws_skip code w r s (blank_forall w B) H) as (A1 & A2 & A3 & A4).
  set (s2 := whitespace_loop w s) in *. injection A2 as B1 B2 B3 B4.
  destruct (R code f s2 k n acc ltac:(lia) ltac:(lia) ltac:(lia) A1 ltac:(congruence) ltac:(congruence) ltac:(congruence)) as (x & X).
  exists x. rewrite <- X. unfold go_on.
  replace (nt_loop code (next_token code f) f k s) with (nt_loop code (next_token code f) f k s2); [reflexivity|].
  destruct k as [|k]; [lia|]. rewrite !nt_scan by (destruct MM; congruence).
  assert (E : scan code (next_token code f) f s = scan code (next_token code f) f s2); [|rewrite E; reflexivity].
  unfold scan. rewrite B1, M. destruct MM as [-> | ->].
  - unfold in_scripting_token, tbind at 1. rewrite A4. reflexivity.
  - unfold looking_for_property_token, tbind at 1. rewrite A4. reflexivity.
Qed.
Lemma crash_open st r : crashes LInScripting st r -> crashes LInitial st (s2l "<?php" ++ r).
Proof.
  intros R. eapply crash_step with (t := Kw KOpenTag) (m' := LInScripting) (st' := st) (r := r); [discriminate| |discriminate|exact R].
  exists 0. intros code nt lf s LF H M ST Q. unfold scan. rewrite M, (open_php code s r H).
  eexists. eexists. split; [reflexivity|]. split; [|cbn; repeat split; auto; lia].
  eapply at_same; [|apply (at_move_eq code s (s2l "<?php") r (src_pos s + 5)); auto]. reflexivity.
Qed.
Lemma crash_open_echo st r : crashes LInScripting st r -> crashes LInitial st (s2l "<?=" ++ r).
Proof.
  intros R. eapply crash_step with (t := Kw KOpenTagWithEcho) (m' := LInScripting) (st' := st) (r := r); [discriminate| |discriminate|exact R].
  exists 0. intros code nt lf s LF H M ST Q. unfold scan. rewrite M, (open_echo code s r H).
  eexists. eexists. split; [reflexivity|]. split; [|cbn; repeat split; auto; lia].
  eapply at_same; [|apply (at_move_eq code s (s2l "<?=") r (src_pos s + 3)); auto]. reflexivity.
Qed.
Lemma crash_html st w r : w <> [] -> no_tag w -> tag_or_end r -> crashes LInitial st r -> crashes LInitial st (w ++ r).
Proof.
  intros NE NT TE R. eapply crash_step with (t := TInlineHtml w) (m' := LInitial) (st' := st) (r := r); [discriminate| |discriminate|exact R].
  exists 0. intros code nt lf s LF H M ST Q. unfold scan. rewrite M, (html_tok code s w r H NE NT TE).
  eexists. eexists. split; [reflexivity|]. split; [apply at_move_eq with w; auto|cbn; repeat split; auto; lia].
Qed.
Lemma crash_comment st c r : comment_ok c -> crashes LInScripting st r -> crashes LInScripting st (comment_text c ++ r).
Proof.
  intros C R. destruct c as [hash w|w]; cbn [comment_text]; rewrite <- !app_assoc.
  - refine (crash_step LInScripting st _ (TComment w) LInScripting st ([10%N] ++ r) _ _ _ (crash_ws _ _ [10%N] r _ _ R)); [discriminate| |discriminate|auto|reflexivity].
    exists 0. intros code nt lf s LF H M ST Q. unfold scan. rewrite M.
    destruct (line_comment code nt lf s hash w ([10%N] ++ r) H C ltac:(reflexivity)) as (sp & s' & E & A & B & D & G).
    injection B as B1 B2 B3 B4. exists sp, s'. repeat (split; [congruence || lia || auto|]). auto.
  - destruct C as [C1 C2].
    eapply crash_step with (t := TComment (block_body w)) (m' := LInScripting) (st' := st) (r := r); [discriminate| |discriminate|exact R].
    exists 0. intros code nt lf s LF H M ST Q. unfold scan. rewrite M.
    destruct (block_comment code nt lf s w r H C1 C2) as (sp & s' & E & A & B & D & G).
    injection B as B1 B2 B3 B4. exists sp, s'. repeat (split; [congruence || lia || auto|]). auto.
Qed.
Lemma crash_prop m st w r : name_ok w = true -> ends_word r = true -> crashes m st r -> crashes LLookingForProperty (m :: st) (w ++ r).
Proof.
  intros N E R. eapply crash_step with (t := TString w) (m' := m) (st' := st) (r := r); [discriminate| |discriminate|exact R].
  exists 0. intros code nt lf s LF H M ST Q. unfold scan. rewrite M, (prop_tok code s w r m st H N E ST).
  eexists. eexists. split; [reflexivity|]. split; [|cbn; repeat split; auto; lia].
  eapply at_same; [|apply (at_move_eq code s w r (src_pos s + blen w)); auto]. reflexivity.
Qed.
Lemma crash_prop_none st inp : head_is is_ws inp = false -> starts_with (s2l "->") inp = false ->
  head_is (fun c => is_label_char c && negb (is_digit c)) inp = false -> crashes LInScripting st inp ->
  crashes LLookingForProperty (LInScripting :: st) inp.
Proof.
  intros W A L (F & R). exists (S F). intros code f s k n acc LF LK LN H M ST Q.
  set (s2 := set_restart false (set_restart true (set_mode LInScripting (set_stack st s)))).
  assert (H2 : at_ code s2 inp) by (eapply at_same; [|exact H]; reflexivity).
  destruct k as [|k]; [lia|].
  destruct (R code f s2 k n acc ltac:(lia) ltac:(lia) ltac:(lia) H2 eq_refl eq_refl Q) as (x & X).
  exists x. rewrite <- X. unfold go_on. rewrite nt_scan by congruence. unfold scan. rewrite M. rewrite (prop_none code s inp LInScripting st H W A L ST). reflexivity.
Qed.
Lemma crash_panics src : crashes LInitial [] src -> panics src.
Proof.
  intros (F & R). exists (S F). intros f L. destruct f as [|f]; [lia|]. unfold parse_str, tokenize. rewrite go_loop.
  destruct (R src f tst_init f f []) as (x & X); try reflexivity; try lia.
  - exists []. auto.
  - rewrite X. eauto.
Qed.

(** ** Decimal notation *)
Fixpoint to_uint (ds : list N) : Decimal.uint :=
  match ds with
  | [] => Decimal.Nil
  | d :: r =>
    (match d with
    | 0 => Decimal.D0 | 1 => Decimal.D1 | 2 => Decimal.D2 | 3 => Decimal.D3 | 4 => Decimal.D4
    | 5 => Decimal.D5 | 6 => Decimal.D6 | 7 => Decimal.D7 | 8 => Decimal.D8 | _ => Decimal.D9 end)%N (to_uint r)
  end.
Lemma to_uint_str ds : Forall (fun d => (d < 10)%N) ds -> uint_str (to_uint ds) = map (digit_char false) ds.
Proof.
  induction 1 as [|d ds L F IH]; [reflexivity|]. cbn [to_uint map]. rewrite <- IH. revert d L.
  apply (small_forall (fun d => uint_str _ = digit_char false d :: _) 10).
  intros d I. cbn in I. repeat (destruct I as [<-|I]; [reflexivity|]). contradiction.
Qed.
Lemma canonical_show ds : decimal ds -> map (digit_char false) ds = show_N (number 10 ds).
Proof.
  intros (NE & F & H). rewrite <- to_uint_str by auto. unfold show_N. f_equal.
  assert (V : N.of_uint (to_uint ds) = number 10 ds).
  { pose proof (digits_val_uint (to_uint ds)) as X. rewrite to_uint_str in X by auto.
    rewrite (digits_val_number 10 false ds 0) in X; [|auto|lia]. injection X as X. symmetry. exact X. }
  rewrite <- V, DecimalN.Unsigned.to_of. 
  destruct ds as [|d ds]; [congruence|]. inversion F as [|? ? D F']; subst. cbn [hd] in H. destruct (N.eq_dec d 0) as [->|Z].
  - rewrite (H eq_refl). reflexivity.
  - cbn [to_uint]. clear - D Z. revert d D Z.
    match goal with |- forall d, _ -> d <> 0%N -> @?g d => apply (small_forall (fun d => d <> 0%N -> g d) 10) end.
    intros d I. cbn in I. repeat (destruct I as [<-|I]; [intros; try congruence; reflexivity|]). contradiction.
Qed.
Lemma show_digits n : exists ds, decimal ds /\ number 10 ds = n /\ show_N n = map (digit_char false) ds.
Proof.
  exists (map (fun c => c - 48)%N (show_N n)).
  assert (E : show_N n = map (digit_char false) (map (fun c => c - 48)%N (show_N n))).
  { rewrite map_map. rewrite <- (map_id (show_N n)) at 1. apply map_ext_in. intros c I.
    pose proof (show_N_digits n) as F. rewrite Forall_forall in F. specialize (F _ I). unfold is_digit in F.
    apply andb_prop in F. destruct F as [F1 F2]. apply N.leb_le in F1, F2. unfold digit_char. destruct (N.ltb_spec (c - 48) 10); lia. }
  assert (F : Forall (fun d => (d < 10)%N) (map (fun c => c - 48)%N (show_N n))).
  { apply Forall_map. eapply Forall_impl; [|apply show_N_digits]. cbn. intros c C. unfold is_digit in C. apply andb_prop in C. destruct C as [C1 C2]. apply N.leb_le in C1, C2. lia. }
  split; [|split; [|exact E]].
  - split; [intros X; apply map_eq_nil in X; exact (show_N_ne n X)|split; [exact F|]].
    intros X. destruct (N.eq_dec n 0) as [->|Z]; [reflexivity|]. exfalso. pose proof (show_N_head n Z) as HD.
    pose proof (show_N_digits n) as DD. destruct (show_N n) as [|c w] eqn:W; [exact (show_N_ne n W)|]. inversion DD as [|? ? C _]; subst. cbn in X, HD.
    unfold is_digit in C. apply andb_prop in C. destruct C as [C1 C2]. apply N.leb_le in C1, C2. apply N.eqb_neq in HD. lia.
  - pose proof (show_N_val n) as X. rewrite E in X. rewrite (digits_val_number 10 false _ 0 F) in X by lia. injection X as X. exact X.
Qed.

(** ** Tokens *)
Lemma int_read code s n r : (n <= i64_max)%N -> reading code s (show_N n ++ r) -> head_is (fun c => (c =? 46)%N) r = false -> ends_word r = true ->
  reads code s (TInt (Z.of_N n)) r.
Proof. intros N R D E. eapply step_reads; [|exact R|reflexivity]. apply step_int; auto. Qed.
Lemma int_crash st n r : (i64_max < n)%N -> head_is (fun c => (c =? 46)%N) r = false -> ends_word r = true ->
  crashes LInScripting st (show_N n ++ r).
Proof.
  intros N D E. apply crash_now; [discriminate|]. exists 0. intros code nt lf s LF H M ST Q. exists PUnwrap. unfold scan. rewrite M.
  rewrite (int_tok code nt lf s n r H D E). destruct (N.leb_spec n i64_max); [lia|reflexivity].
Qed.

(** ** One-expression programs *)
Lemma program_semi inp t : step1 LInScripting [] (inp ++ s2l ";") t LInScripting [] (s2l ";") ->
  t <> Kw KEnd -> lexes LInScripting [] (s2l " " ++ inp ++ s2l ";") [t; Kw KSemiColon].
Proof.
  intros S N. apply (lex_ws LInScripting [] (s2l " ")); auto. eapply lex_step; [discriminate|exact S|exact N|].
  eapply lex_step; [discriminate| |discriminate|apply lex_end_script].
  apply (step_op [] ";" KSemiColon [] LInScripting []); [cbn; tauto| |reflexivity].
  split; [|split; [reflexivity|discriminate]].
  split; [reflexivity|]. intros op' k' I S'. unfold operators in I. cbn [In] in I.
  repeat (destruct I as [I|I]; [injection I as <- <-; try (cbn in S'; discriminate); cbn; lia|]). contradiction.
Qed.

Lemma parses_strip src l l' : strip l = strip l' -> parses_to src l -> parses_to src l'.
Proof. intros E (F & H). exists F. intros f L. destruct (H f L) as (x & X & Y). exists x. split; congruence. Qed.
(** a program of one token and a semicolon *)
Lemma one_token t e inp : (forall st r, ends_word r = true -> head_is (fun c => (c =? 46)%N) r = false -> step1 LInScripting st (inp ++ r) t LInScripting st r) ->
  t <> Kw KEnd ->
  (exists l p, parse_top (filter_tokens (placed [t; Kw KSemiColon])) = POk l p /\ strip l = strip (expr_program e)) ->
  parses_to (s2l "<?php " ++ inp ++ s2l ";") (expr_program e).
Proof.
  intros S N (l & p & E & X). eapply parses_strip; [exact X|].
  change (s2l "<?php " ++ inp ++ s2l ";") with (s2l "<?php" ++ s2l " " ++ inp ++ s2l ";").
  eapply lex_parse_ok; [|exact E]. apply program_semi; auto.
Qed.
