(** * TextEx: the theorems of C41 put together, and a source with its derivation *)
From Verif Require Import Base Tokens Ast AstMap Lexer Parser Driver Spec SpecProg SpecMixed SpecErr SpecText SpecGrammar GrammarTop GrammarEx ErrTop ErrEx TextMain2.
From Coq Require Import String Lia.
Local Open Scope string_scope. Local Open Scope list_scope.

Lemma source_program src ts l : Source src ts -> Program (Lost := strict) (flat_map visible ts) l -> parses_to src l.
Proof. intros S. exact (source_grammar strict_block strict_class strict_whole strict_stmt src ts l (source_tokens _ _ S)). Qed.
Lemma source_dropped n src ts l : Source src ts -> Program (Lost := lost n) (flat_map visible ts) l -> parses_to src l.
Proof. intros S. exact (lost_source n src ts l (source_tokens _ _ S)). Qed.
Lemma source_rejected src ts pre u rest : Source src ts -> breaks (flat_map visible ts) pre u rest ->
  exists F, forall f, F <= f -> exists toks s e, tokenize f src = DOk (toks, s) /\ parse_str f src = DErr e /\ reported_at toks (List.length (pre ++ u)) e.
Proof.
  intros S B. destruct (source_tokens _ _ S) as (F & T).
  exists F. intros f L. destruct (T f L) as (toks & s & E & M). destruct (source_breaks src f toks s pre u rest E) as (e & X & Y).
  - unfold tokspan in *. rewrite M. exact B.
  - exists toks, s, e. auto.
Qed.
Lemma source_unique src ts ts' : Source src ts -> Source src ts' -> ts = ts'.
Proof.
  intros A B. destruct (source_tokens _ _ A) as (F & T). destruct (source_tokens _ _ B) as (F' & T').
  destruct (T (F + F') ltac:(lia)) as (x & s & X & <-). destruct (T' (F + F') ltac:(lia)) as (y & s' & Y & <-). congruence.
Qed.

(** ** An example *)
Definition text_source : str := s2l "<?php /* c */ echo $a->class, ""n {$b[1]}$c""; ?> t".
Definition text_tokens : list token :=
  [ Kw KOpenTag; TComment (s2l " c "); Kw KEcho; TVariable (s2l "a"); Kw KObjectOp; TString (s2l "class"); Kw KComma; Kw KDoubleQuote; TCes (s2l "n ");
    Kw KCurlyBracesOpen; TVariable (s2l "b"); Kw KSquareBracketOpen; TInt 1; Kw KSquareBracketClose; Kw KCurlyBracesClose;
    TVariable (s2l "c"); Kw KDoubleQuote; Kw KSemiColon; Kw KCloseTag; TInlineHtml (s2l " t") ].
Definition text_tree : list stmt :=
  [ st (SEcho [ex (EObjMember (vx "a") [word_expr (s2l "class")]);
      ex (EBinary OConcat (ex (EString (s2l "n "))) (ex (EBinary OConcat (ex (EArrayIdx (vx "b") [Some (ix 1)])) (vx "c"))))]);
    st (SEcho [ex (EString (s2l " t"))]) ].
Lemma text_derivation : Program (Lost := strict) (flat_map visible text_tokens) text_tree.
Proof.
  assert (D : exists ts l, Program (Lost := strict) ts l /\ ts = flat_map visible text_tokens /\ l = text_tree); [|destruct D as (ts & l & D & <- & <-); exact D].
  eexists. eexists. split.
  { eapply program_more.
    { apply top_stmt, s_weak, s_echo. eapply wholes_more.
      - apply w_expr, acc; [|lv]. eapply a_property; [apply (a_var (s2l "a"))|apply (p_name (s2l "class"))].
      - apply wholes_one, w_expr. eapply (up_to _ 18); [|lv]. eapply e_text. eapply (parts_text (s2l "n ")); [discriminate|shelve|].
        eapply parts_code; [|apply (parts_var (s2l "c")), parts_nil]. apply w_expr, acc; [|lv]. eapply a_index; [apply (a_var (s2l "b"))|apply o_some; wint 1%Z]. }
    apply program_one, top_stmt, s_weak, s_echo, wholes_one, w_expr, acc; [apply (a_string (s2l " t"))|lv]. }
  split; vm_compute; reflexivity. Unshelve. reflexivity.
Qed.
Ltac op o k := eapply (tx_lexeme (s2l o) (Kw k)); [apply lx_operator; 
   [cbn; tauto|intros I; cbn in I; repeat (destruct I as [I|I]; [discriminate I|]); destruct I
   |split; [eexists; reflexivity|intros op' k' r' I; cbn in I; repeat (destruct I as [I|I]; [injection I as <- <-; cbn; (lia || discriminate)|]); destruct I]
   |reflexivity|intros a x b k0 r2 _ _ _; discriminate]|].
Ltac sp := apply (tx_white (s2l " ")); [reflexivity|].
Ltac none_inside := intros a b; repeat (destruct a as [|? a]; [discriminate|cbn; let X := fresh in intros X; injection X as _ X; revert X]); destruct a; discriminate.
Lemma ps_piece q b inp ts b1 inp1 us b2 r all : Piece q b inp ts b1 inp1 -> Pieces q b1 inp1 us b2 r -> all = ts ++ us -> Pieces q b inp all b2 r.
Proof. intros P PS ->. eapply ps_more; eassumption. Qed.
Ltac ch q c := eapply ps_piece; [apply (pc_char q c); cbn; intuition discriminate| |reflexivity].
Ltac one_digit := apply (lx_decimal [1%N]); [split; [discriminate|split; [repeat constructor|cbn; congruence]]|vm_compute; discriminate|intros q; discriminate|intros c q E; injection E as <- _; lia|discriminate].
Lemma text_derived : Source text_source text_tokens.
Proof.
  apply (source_html [] (s2l "<?php") KOpenTag (s2l " /* c */ echo $a->class, ""n {$b[1]}$c""; ?> t")
    [ TComment (s2l " c "); Kw KEcho; TVariable (s2l "a"); Kw KObjectOp; TString (s2l "class"); Kw KComma; Kw KDoubleQuote; TCes (s2l "n ");
    Kw KCurlyBracesOpen; TVariable (s2l "b"); Kw KSquareBracketOpen; TInt 1; Kw KSquareBracketClose; Kw KCurlyBracesClose;
    TVariable (s2l "c"); Kw KDoubleQuote; Kw KSemiColon ] 0 (s2l " t")).
  - none_inside.
  - apply tag_php.
  - sp. apply (tx_block (s2l " c ")); [discriminate|reflexivity|none_inside|]. sp.
    apply (tx_lexeme (s2l "echo")); [apply (lx_keyword "echo" KEcho); [cbn; tauto|reflexivity]|]. sp.
    apply (tx_lexeme (s2l "$a")); [apply (lx_variable (s2l "a")); reflexivity|].
    apply (tx_property (s2l "->") [Kw KObjectOp] [] (s2l "class")); [apply arrows_one|reflexivity..|]. op "," KComma. sp.
    apply (tx_string 0 _ (s2l "n {$b[1]}$c""; ?> t") [TCes (s2l "n "); Kw KCurlyBracesOpen; TVariable (s2l "b"); Kw KSquareBracketOpen; TInt 1; Kw KSquareBracketClose; Kw KCurlyBracesClose; TVariable (s2l "c")] [] [] (s2l "; ?> t")).
    + apply (opened_quotes false). discriminate.
    + ch Quotes 110%N. ch Quotes 32%N. eapply ps_piece; [apply (pc_code Quotes false (s2l "n ") [TCes (s2l "n ")] (s2l "$b[1]}$c""; ?> t") [TVariable (s2l "b"); Kw KSquareBracketOpen; TInt 1; Kw KSquareBracketClose] (s2l "$c""; ?> t"))| |reflexivity].
      * exact I.
      * apply (literal_some (s2l "n ")); [discriminate|]. apply (fragment_text (s2l "n ")). repeat constructor; reflexivity.
      * reflexivity.
      * apply (tx_lexeme (s2l "$b")); [apply (lx_variable (s2l "b")); reflexivity|]. op "[" KSquareBracketOpen.
        apply (tx_lexeme (s2l "1")); [one_digit|]. op "]" KSquareBracketClose. apply tx_stop.
      * eapply ps_piece; [apply (pc_variable Quotes (s2l "c") [] []); [exact I|constructor|reflexivity..|discriminate]|apply ps_none|reflexivity].
    + constructor.
    + op ";" KSemiColon. sp. apply tx_stop.
  - none_inside.
Qed.
(** a statement without a semicolon in front of a brace *)
Definition drop_source : str := s2l "<?php {; return 1}".
Definition drop_tokens : list token := [Kw KOpenTag; Kw KCurlyBracesOpen; Kw KSemiColon; Kw KReturn; TInt 1; Kw KCurlyBracesClose].
Lemma drop_derived : Source drop_source drop_tokens.
Proof.
  apply (source_script [] (s2l "<?php") KOpenTag (s2l " {; return 1}") (List.tl drop_tokens) 0); [none_inside|apply tag_php|]. sp. apply (tx_open 0 (s2l "; return 1}")). op ";" KSemiColon. sp.
  apply (tx_lexeme (s2l "return")); [apply (lx_keyword "return" KReturn); [cbn; tauto|reflexivity]|]. sp.
  apply (tx_lexeme (s2l "1")); [one_digit|]. apply (tx_close 0 []), tx_stop.
Qed.
Lemma drop_derivation : Program (Lost := lost 1) (flat_map visible drop_tokens) [st (SBlock [st SNone])].
Proof.
  apply program_one, top_stmt, s_weak, (s_block [Kw KSemiColon; Kw KReturn; TInt 1]), (inner_lost [Kw KSemiColon] _ [Kw KReturn; TInt 1]).
  - apply (stmts_cons [Kw KSemiColon] _ []); [apply s_weak, s_empty|apply stmts_nil].
  - cbn [lost]. apply (b_jump _ KReturn SReturn [TInt 1]); [cbn; tauto|]. split; [apply (uc_whole _ _ _ (ex (EInt 1))); [wint 1%Z|split; [next_in|next_out]]|next_out].
Qed.
(** a closing bracket without an opening one *)
Definition fail_source : str := s2l "<?php ; return 1] // c".
Definition fail_tokens : list token := [Kw KSemiColon; Kw KReturn; TInt 1; Kw KSquareBracketClose; TComment (s2l " c")].
Lemma fail_derived : Source fail_source (Kw KOpenTag :: fail_tokens).
Proof.
  apply (source_script [] (s2l "<?php") KOpenTag (s2l " ; return 1] // c") fail_tokens 0); [none_inside|apply tag_php|]. sp. op ";" KSemiColon. sp.
  apply (tx_lexeme (s2l "return")); [apply (lx_keyword "return" KReturn); [cbn; tauto|reflexivity]|]. sp.
  apply (tx_lexeme (s2l "1")); [one_digit|]. op "]" KSquareBracketClose. sp. apply (tx_line false (s2l " c") 0 []); [cbn; intuition discriminate|auto|apply tx_stop].
Qed.
Lemma fail_breaks : breaks (flat_map visible fail_tokens) [Kw KSemiColon] [Kw KReturn; TInt 1] [Kw KSquareBracketClose].
Proof.
  split; [reflexivity|]. split; [right; exists [st SNone]; apply program_one, top_stmt, s_weak, s_empty|]. apply (bt_stmt _ true); [|left; discriminate].
  apply (b_jump _ KReturn SReturn [TInt 1]); [cbn; tauto|]. split; [apply (uc_whole _ _ _ (ex (EInt 1))); [wint 1%Z|split; [next_in|next_out]]|next_out].
Qed.
(** a heredoc *)
Definition doc_source : str := s2l "<?php <<<T" ++ [10%N] ++ s2l "a$b" ++ [10%N] ++ s2l "T;" ++ [10%N].
Lemma doc_derived : Source doc_source [Kw KOpenTag; Kw KHereDocStart; TCes (s2l "a"); TVariable (s2l "b"); Kw KHereDocEnd; Kw KSemiColon].
Proof.
  apply (source_script [] (s2l "<?php") KOpenTag (s2l " <<<T" ++ [10%N] ++ s2l "a$b" ++ [10%N] ++ s2l "T;" ++ [10%N]) [Kw KHereDocStart; TCes (s2l "a"); TVariable (s2l "b"); Kw KHereDocEnd; Kw KSemiColon] 0); [none_inside|apply tag_php|]. sp.
  apply (tx_heredoc (s2l "T") 0 _ (s2l "a$b" ++ [10%N] ++ s2l "T;" ++ [10%N]) [TCes (s2l "a"); TVariable (s2l "b")] [] [] (s2l ";" ++ [10%N]) [Kw KSemiColon]).
  - apply (opened_doc false false [] (s2l "T") [10%N]); [constructor|reflexivity|left; reflexivity|reflexivity|cbn; lia].
  - ch (Doc (s2l "T")) 97%N. eapply ps_piece; [apply (pc_variable _ (s2l "b") _ [TCes (s2l "a")]); [exact I| |reflexivity..|discriminate]|apply ps_none|reflexivity].
    apply (literal_some (s2l "a")); [discriminate|]. apply (fragment_text (s2l "a")). repeat constructor; reflexivity.
  - constructor.
  - exists 10%N, []. split; [cbn; tauto|right; reflexivity].
  - op ";" KSemiColon. apply (tx_white [10%N] 0 []); [reflexivity|apply tx_stop].
Qed.
(** HTML, then a tag with echo *)
Definition echo_source : str := s2l "t<?=1;".
Definition echo_tokens : list token := [TInlineHtml (s2l "t"); Kw KOpenTagWithEcho; TInt 1; Kw KSemiColon].
Lemma echo_derived : Source echo_source echo_tokens.
Proof.
  apply (source_script (s2l "t") (s2l "<?=") KOpenTagWithEcho (s2l "1;") [TInt 1; Kw KSemiColon] 0); [none_inside|apply tag_echo|].
  apply (tx_lexeme (s2l "1")); [one_digit|]. op ";" KSemiColon. apply tx_stop.
Qed.
Lemma echo_derivation : Program (Lost := strict) (flat_map visible echo_tokens) [st (SEcho [ex (EString (s2l "t"))]); st (SEcho [ix 1])].
Proof.
  apply (program_more [Kw KEcho; TCes (s2l "t"); Kw KSemiColon] _ [Kw KEcho; TInt 1; Kw KSemiColon]).
  - apply top_stmt, s_weak, (s_echo [TCes (s2l "t")]), wholes_one, w_expr, acc; [apply (a_string (s2l "t"))|lv].
  - apply program_one, top_stmt, s_weak, (s_echo [TInt 1]), wholes_one. wint 1%Z.
Qed.
(** ... that is not ended *)
Definition open_source : str := s2l "t<?=1]".
Definition open_tokens : list token := [TInlineHtml (s2l "t"); Kw KOpenTagWithEcho; TInt 1; Kw KSquareBracketClose].
Lemma open_derived : Source open_source open_tokens.
Proof.
  apply (source_script (s2l "t") (s2l "<?=") KOpenTagWithEcho (s2l "1]") [TInt 1; Kw KSquareBracketClose] 0); [none_inside|apply tag_echo|].
  apply (tx_lexeme (s2l "1")); [one_digit|]. op "]" KSquareBracketClose. apply tx_stop.
Qed.
Lemma open_breaks : breaks (flat_map visible open_tokens) [Kw KEcho; TCes (s2l "t"); Kw KSemiColon] [Kw KEcho; TInt 1] [Kw KSquareBracketClose].
Proof.
  split; [reflexivity|]. split.
  - right. exists [st (SEcho [ex (EString (s2l "t"))])]. apply program_one, top_stmt, s_weak, (s_echo [TCes (s2l "t")]), wholes_one, w_expr, acc; [apply (a_string (s2l "t"))|lv].
  - apply (bt_stmt _ true); [|left; discriminate]. apply (b_echo _ [TInt 1]), bw_last, (uc_whole _ _ _ (ix 1)); [wint 1%Z|split; [next_in|next_out]].
Qed.
