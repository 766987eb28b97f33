(** * UnreadEx: sources for every fate (examples for C42) *)
From Verif Require Import Base Tokens Ast Lexer Driver Spec SpecMixed SpecCrash SpecText SpecUnread TextEx.
From Coq Require Import String Lia.
Local Open Scope string_scope. Local Open Scope list_scope.

Ltac kw w k := eapply (tx_lexeme (s2l w)); [apply (lx_keyword w k); [cbn; tauto|reflexivity]|].
Ltac var v := eapply (tx_lexeme (s2l "$" ++ s2l v)); [apply (lx_variable (s2l v)); reflexivity|].
(** a double quoted string without an end *)
Definition open_source : str := s2l "<?php echo ""a$b c".
Lemma open_unread : Unread open_source (Reports (Unterminated "double-quoted string literal") (s2l """a$b c") 5).
Proof.
  apply (unread [] (s2l "<?php") KOpenTag (s2l " echo ""a$b c") [Kw KEcho] 0 (s2l """a$b c")); [none_inside|apply tag_php| |].
  - sp. kw "echo" KEcho. sp. apply tx_stop.
  - apply (st_double true 0 (s2l """a$b c") (s2l "a$b c") [TCes (s2l "a"); TVariable (s2l "b")] [] (s2l " ") 99%N).
    + apply (opened_quotes false). discriminate.
    + eapply (behind_piece Quotes (s2l "a$b c") [] (s2l "a") (s2l "$b c") [TCes (s2l "a"); TVariable (s2l "b")]).
      * ch Quotes 97%N. apply ps_none.
      * apply (pc_variable Quotes (s2l "b") _ [TCes (s2l "a")] (s2l " c")); [exact I| |reflexivity..|discriminate]. apply (literal_some (s2l "a")); [discriminate|]. apply (fragment_text (s2l "a")). repeat constructor; reflexivity.
      * intros c z E. injection E as <- _. intros [V _]. apply V. cbn. tauto.
    + repeat constructor; cbn; intuition discriminate.
Qed.
(** a character that no token begins with: the sign of the euro *)
Definition euro_source : str := s2l "<?php {$a = " ++ [8364%N].
Lemma euro_unread : Unread euro_source (Reports Unknown [8364%N] 1).
Proof.
  apply (unread [] (s2l "<?php") KOpenTag (s2l " {$a = " ++ [8364%N]) [Kw KCurlyBracesOpen; TVariable (s2l "a"); Kw KEqual] 1 [8364%N]); [none_inside|apply tag_php| |].
  - sp. apply (tx_open 0). var "a". sp. op "=" KEqual. sp. apply tx_stop.
  - apply st_stray. split; [reflexivity|]. split; [reflexivity|]. split; [cbn; intuition discriminate|].
    intros op k I. cbn in I. repeat (destruct I as [I|I]; [injection I as <- _; discriminate|]). destruct I.
Qed.
(** an index inside a string *)
Definition index_source : str := s2l "<?php ""$a[0]"";".
Lemma index_unread : Unread index_source Panics.
Proof.
  apply (unread [] (s2l "<?php") KOpenTag (s2l " ""$a[0]"";") [] 0 (s2l """$a[0]"";")); [none_inside|apply tag_php|sp; apply tx_stop|].
  apply (st_inside true 0 Quotes _ (s2l "$a[0]"";") [] [] (s2l "$a[0]"";")); [apply (opened_quotes false); discriminate|apply ps_none|].
  apply (bad_index Quotes (s2l "a") (s2l "0]"";")); [exact I|reflexivity].
Qed.
(** code inside a string, without the closing brace *)
Definition hang_source : str := s2l "<?php ""{$a[".
Lemma hang_unread : Unread hang_source Hangs.
Proof.
  apply (unread [] (s2l "<?php") KOpenTag (s2l " ""{$a[") [] 0 (s2l """{$a[")); [none_inside|apply tag_php|sp; apply tx_stop|].
  apply (st_inside true 0 Quotes _ (s2l "{$a[") [] [] (s2l "{$a[")); [apply (opened_quotes false); discriminate|apply ps_none|].
  apply (bad_open_code Quotes false (s2l "$a[") [TVariable (s2l "a"); Kw KSquareBracketOpen] 0); [exact I|reflexivity|].
  var "a". op "[" KSquareBracketOpen. apply tx_stop.
Qed.
(** code inside a string inside code inside a string *)
Definition nested_source : str := s2l "<?php ""{$a[""${'b".
Lemma nested_unread : Unread nested_source Panics.
Proof.
  apply (unread [] (s2l "<?php") KOpenTag (s2l " ""{$a[""${'b") [] 0 (s2l """{$a[""${'b")); [none_inside|apply tag_php|sp; apply tx_stop|].
  apply (st_inside true 0 Quotes _ (s2l "{$a[""${'b") [] [] (s2l "{$a[""${'b")); [apply (opened_quotes false); discriminate|apply ps_none|].
  apply (bad_code Quotes false (s2l "$a[""${'b") [TVariable (s2l "a"); Kw KSquareBracketOpen] 0 (s2l """${'b")); [exact I|reflexivity| | |auto].
  - var "a". op "[" KSquareBracketOpen. apply tx_stop.
  - apply (st_inside false 0 Quotes _ (s2l "${'b") [] [] (s2l "${'b")); [apply (opened_quotes false); discriminate|apply ps_none|].
    eapply (bad_dollar_code Quotes (s2l "'b") [] 0 (s2l "'b")); [exact I|apply tx_stop|apply (st_single false 0 false (s2l "b")); [reflexivity|discriminate]|discriminate].
Qed.
