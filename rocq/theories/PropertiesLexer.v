(** * Properties C04, C08-C13, C27, C35: what the tokenizer reads *)
From Verif Require Import Base Tokens Ast AstMap Lexer Parser Driver Spec LexStr LexMore LexWords LexRun LexFacts LexNum LexCrash LexProg.
From Coq Require Import String.

(** A tokenizer state in script mode in front of [inp], for the examples. *)
Definition ex_state : tst := set_pos 6 (set_mode LInScripting tst_init).
Lemma ex_reading inp : reading (s2l "<?php " ++ inp) ex_state inp.
Proof. repeat split. exists (s2l "<?php "). auto. Qed.

(** ** C04 *)
Theorem C04_html_is_echoed : forall text, text <> [] -> no_tag text ->
  exists F, forall f, F <= f -> exists sp sp', parse_str f text = DOk [St (SEcho [Ex (EString text) sp]) sp'].
Proof. exact html_program. Qed.
Print Assumptions C04_html_is_echoed.

Example C04_example : s2l "<p>a ? b</p>" <> [] /\ no_tag (s2l "<p>a ? b</p>").
Proof.
  split; [discriminate|]. intros a b E. cbn in E.
  repeat (destruct a as [|? a]; [discriminate E|cbn in E; injection E as _ E]). destruct a; discriminate E.
Qed.

(** ** C08 *)
Theorem C08_decimal_program : forall ds, decimal ds -> (number 10 ds <= i64_max)%N ->
  parses_to (s2l "<?php " ++ map (digit_char false) ds ++ s2l ";")
            (expr_program (EInt (Z.of_N (number 10 ds)))).
Proof. exact dec_program. Qed.
Print Assumptions C08_decimal_program.
Theorem C08_overflow_panics : forall ds, decimal ds -> (i64_max < number 10 ds)%N ->
  panics (s2l "<?php " ++ map (digit_char false) ds ++ s2l ";").
Proof. exact dec_overflow. Qed.
Print Assumptions C08_overflow_panics.
(** every number has such a notation *)
Theorem C08_notation_exists : forall n, exists ds, decimal ds /\ number 10 ds = n.
Proof. intros n. destruct (show_digits n) as (ds & D & V & _). eauto. Qed.
Print Assumptions C08_notation_exists.
(** in any context *)
Theorem C08_decimal_token : forall code s ds r, decimal ds -> (number 10 ds <= i64_max)%N ->
  reading code s (map (digit_char false) ds ++ r) -> ends_word r = true -> (forall q, r <> s2l "." ++ q) ->
  reads code s (TInt (Z.of_N (number 10 ds))) r.
Proof. exact dec_read. Qed.
Print Assumptions C08_decimal_token.

Example C08_example : decimal [4; 0; 9]%N /\ number 10 [4; 0; 9]%N = 409%N /\
  (s2l "<?php " ++ map (digit_char false) [4; 0; 9]%N ++ s2l ";") = s2l "<?php 409;" /\
  decimal [9; 2; 2; 3; 3; 7; 2; 0; 3; 6; 8; 5; 4; 7; 7; 5; 8; 0; 8]%N /\
  (number 10 [9; 2; 2; 3; 3; 7; 2; 0; 3; 6; 8; 5; 4; 7; 7; 5; 8; 0; 8]%N = i64_max + 1)%N /\
  reading (s2l "<?php 409+1;") ex_state (map (digit_char false) [4; 0; 9]%N ++ s2l "+1;") /\
  ends_word (s2l "+1;") = true.
Proof.
  split; [|split; [|split; [|split; [|split; [|split]]]]]; try reflexivity; try (apply (ex_reading (s2l "409+1;")));
  (split; [discriminate|split; [repeat constructor|discriminate]]).
Qed.

(** ** C09 *)
Theorem C09_octal_program : forall up ds, ds <> [] -> Forall (fun d => (d < 8)%N) ds -> (number 8 ds <= i64_max)%N ->
  parses_to (s2l "<?php " ++ (s2l "0" ++ map (digit_char up) ds) ++ s2l ";")
            (expr_program (EInt (Z.of_N (number 8 ds)))).
Proof. exact oct_program. Qed.
Print Assumptions C09_octal_program.
Theorem C09_hex_program : forall up ds, ds <> [] -> Forall (fun d => (d < 16)%N) ds -> (number 16 ds <= i64_max)%N ->
  parses_to (s2l "<?php " ++ (s2l "0x" ++ map (digit_char up) ds) ++ s2l ";")
            (expr_program (EInt (Z.of_N (number 16 ds)))).
Proof. exact hex_program. Qed.
Print Assumptions C09_hex_program.
Theorem C09_binary_program : forall up ds, ds <> [] -> Forall (fun d => (d < 2)%N) ds -> (number 2 ds <= i64_max)%N ->
  parses_to (s2l "<?php " ++ (s2l "0b" ++ map (digit_char up) ds) ++ s2l ";")
            (expr_program (EInt (Z.of_N (number 2 ds)))).
Proof. exact bin_program. Qed.
Print Assumptions C09_binary_program.
Theorem C09_octal_token : forall code s up ds r, ds <> [] -> Forall (fun d => (d < 8)%N) ds -> (number 8 ds <= i64_max)%N ->
  reading code s (s2l "0" ++ map (digit_char up) ds ++ r) -> ends_word r = true -> (forall q, r <> s2l "." ++ q) ->
  reads code s (TInt (Z.of_N (number 8 ds))) r.
Proof.
  intros code s up ds r N F L R E D. eapply step_reads; [|exact R|reflexivity]. apply (LexParse.step_oct (lstack s) up ds r); auto.
  destruct r as [|c r]; auto. cbn. apply N.eqb_neq. intros ->. apply (D r). reflexivity.
Qed.
Print Assumptions C09_octal_token.
Theorem C09_hex_token : forall code s up ds r, ds <> [] -> Forall (fun d => (d < 16)%N) ds -> (number 16 ds <= i64_max)%N ->
  reading code s (s2l "0x" ++ map (digit_char up) ds ++ r) -> ends_word r = true ->
  reads code s (TInt (Z.of_N (number 16 ds))) r.
Proof. intros code s up ds r N F L R E. eapply step_reads; [|exact R|reflexivity]. apply LexParse.step_hex; auto. Qed.
Print Assumptions C09_hex_token.
Theorem C09_binary_token : forall code s up ds r, ds <> [] -> Forall (fun d => (d < 2)%N) ds -> (number 2 ds <= i64_max)%N ->
  reading code s (s2l "0b" ++ map (digit_char up) ds ++ r) -> ends_word r = true ->
  reads code s (TInt (Z.of_N (number 2 ds))) r.
Proof. intros code s up ds r N F L R E. eapply step_reads; [|exact R|reflexivity]. apply LexParse.step_bin; auto. Qed.
Print Assumptions C09_binary_token.

Example C09_example : Forall (fun d => (d < 16)%N) [1; 15]%N /\ number 16 [1; 15]%N = 31%N /\ number 8 [1; 7]%N = 15%N /\
  s2l "0x" ++ map (digit_char true) [1; 15]%N = s2l "0x1F" /\ s2l "0" ++ map (digit_char true) [1; 7]%N = s2l "017".
Proof. split; [repeat constructor|repeat split]. Qed.

(** ** C10 *)
Theorem C10_variable_token : forall code s w r, reading code s (s2l "$" ++ w ++ r) -> name_ok w = true -> ends_word r = true ->
  reads code s (TVariable w) r.
Proof. exact variable_read. Qed.
Print Assumptions C10_variable_token.
Theorem C10_variable_program : forall w, name_ok w = true ->
  parses_to (s2l "<?php " ++ (s2l "$" ++ w) ++ s2l ";") (expr_program (EVar (VName w))).
Proof. exact var_program. Qed.
Print Assumptions C10_variable_program.

Example C10_example : name_ok (s2l "if" ++ [228; 95; 49]%N) = true /\ ends_word (s2l "->x") = true /\
  reading (s2l "<?php $a1->x") ex_state (s2l "$" ++ s2l "a1" ++ s2l "->x").
Proof. split; [|split]; try reflexivity. apply (ex_reading (s2l "$a1->x")). Qed.

(** ** C11 *)
(** [plain_word w r]: [w] is an ASCII identifier, [r] does not continue it, [w] is not
    [yield] or [yieldfrom], and not a [b] in front of a quote or heredoc *)
Theorem C11_not_a_keyword : forall code s w r, reading code s (w ++ r) -> plain_word w r ->
  (forall x k, In (x, k) keywords -> s2l x <> w) ->
  reads_at code s (TString w) (mk_span (src_pos s) (src_pos s + List.length w)) r /\ reads code s (TString w) r.
Proof. intros code s w r R P N. rewrite <- (word_other w N). apply word_read; auto. Qed.
Print Assumptions C11_not_a_keyword.
Theorem C11_keyword : forall code s w k r, In (w, k) keywords -> reading code s (s2l w ++ r) -> ends_word r = true ->
  reads_at code s (Kw k) (mk_span (src_pos s) (src_pos s + List.length (s2l w))) r /\ reads code s (Kw k) r.
Proof.
  intros code s w k r I R E. rewrite <- (word_keyword w k I). apply word_read; auto.
  assert (B : forallb (fun p : string * kind => Spec.identifier (s2l (fst p)) && negb (str_eqb (s2l (fst p)) (s2l "yield")) &&
    negb (str_eqb (s2l (fst p)) (s2l "yieldfrom")) && negb (str_eqb (s2l (fst p)) (s2l "b"))) keywords = true) by (vm_compute; reflexivity).
  rewrite forallb_forall in B. specialize (B _ I). cbn [fst] in B.
  apply andb_prop in B. destruct B as [B B4]. apply andb_prop in B. destruct B as [B B3]. apply andb_prop in B. destruct B as [B1 B2].
  split; [exact B1|split; [exact E|split; [|split]]]; intros X; rewrite X in *; discriminate.
Qed.
Print Assumptions C11_keyword.

Example C11_example : plain_word (s2l "iffy") (s2l "(1)") /\ (forall x k, In (x, k) keywords -> s2l x <> s2l "iffy") /\
  reading (s2l "<?php iffy(1)") ex_state (s2l "iffy" ++ s2l "(1)") /\ In ("if"%string, KIf) keywords.
Proof.
  split; [|split; [|split]].
  - repeat split; try reflexivity; try discriminate.
  - intros x k I. cbn in I. repeat (destruct I as [I|I]; [injection I as <- <-; discriminate|]). contradiction.
  - apply (ex_reading (s2l "iffy(1)")).
  - cbn. tauto.
Qed.

(** ** C12 *)
(** The next token is the longest operator the input starts with; what the operators
    [<<<] and dot-digit start and the opening tags of comments are no operators
    ([not_operator]), and a parenthesis may start a cast.  The operators table does not
    have [**=], which is therefore read as [**] and [=]. *)
Theorem C12_longest_operator : forall code s op k r, In (op, k) operators -> reading code s (s2l op ++ r) ->
  longest op (s2l op ++ r) -> not_operator (s2l op ++ r) = false ->
  (forall a x b k r2, In (x, k) cast_words -> blanks a -> blanks b -> s2l op ++ r <> cast_text a x b ++ r2) ->
  (k = KCurlyBracesClose -> lstack s <> []) ->
  exists doc, reads_at code s (Kw k) (set_doc doc (mk_span (src_pos s) (src_pos s + List.length (s2l op)))) r.
Proof. intros. eexists. eapply op_read; eauto. Qed.
Print Assumptions C12_longest_operator.
(** script mode goes on unless the operator is [->], a brace or the closing tag *)
Theorem C12_script_goes_on : forall code s op k r, In (op, k) operators -> reading code s (s2l op ++ r) ->
  longest op (s2l op ++ r) -> not_operator (s2l op ++ r) = false ->
  (forall a x b k r2, In (x, k) cast_words -> blanks a -> blanks b -> s2l op ++ r <> cast_text a x b ++ r2) ->
  ~ In op ["->"; "{"; "}"; "?>"]%string -> reads code s (Kw k) r.
Proof. exact op_read_on. Qed.
Print Assumptions C12_script_goes_on.
Theorem C12_cast : forall code s a x b k r, In (x, k) cast_words -> blanks a -> blanks b ->
  reading code s (cast_text a x b ++ r) -> reads code s (Kw k) r.
Proof. exact cast_read. Qed.
Print Assumptions C12_cast.
(** the exception: [**=] is read as [**] *)
Theorem C12_pow_assign : forall code s r, reading code s (s2l "**=" ++ r) -> reads code s (Kw KPow) (s2l "=" ++ r).
Proof.
  intros code s r R. apply (op_read_on code s "**" KPow (s2l "=" ++ r)); [cbn; tauto|exact R| |reflexivity| |cbn; intuition discriminate].
  - split; [exists (s2l "=" ++ r); reflexivity|]. intros op' k' r' I E. unfold operators in I. cbn [In] in I.
    repeat (destruct I as [I|I]; [injection I as <- <-; try (cbn in E; discriminate E); cbn; lia|]). contradiction.
  - intros. discriminate.
Qed.
Print Assumptions C12_pow_assign.

Example C12_example : In ("<=>"%string, KSpaceShip) operators /\ longest "<=>" (s2l "<=>1") /\ not_operator (s2l "<=>1") = false /\
  reading (s2l "<?php <=>1") ex_state (s2l "<=>" ++ s2l "1") /\
  (forall a x b k r2, In (x, k) cast_words -> blanks a -> blanks b -> s2l "<=>1" <> cast_text a x b ++ r2) /\
  In ("bool"%string, KCastBool) cast_words /\ blanks (s2l "  ") /\ cast_text (s2l " ") "bool" [] = s2l "( bool)".
Proof.
  split; [cbn; tauto|]. split; [|split; [reflexivity|split; [apply (ex_reading (s2l "<=>1"))|]]].
  - split; [exists (s2l "1"); reflexivity|]. intros op' k' r' I E. unfold operators in I. cbn [In] in I.
    repeat (destruct I as [I|I]; [injection I as <- <-; try (cbn in E; discriminate E); cbn; lia|]). contradiction.
  - split; [discriminate|]. split; [cbn; tauto|]. split; [repeat constructor; auto|reflexivity].
Qed.

(** ** C13 *)
(** [sq_content]: no quote without a backslash in front; [sq_decode]: what it denotes *)
Theorem C13_single_quoted_program : forall c, sq_content c = true -> Forall scalar c ->
  parses_to (s2l "<?php " ++ (s2l "'" ++ c ++ s2l "'") ++ s2l ";") (expr_program (EString (sq_decode c))).
Proof. exact sq_program. Qed.
Print Assumptions C13_single_quoted_program.
Theorem C13_single_quoted_token : forall code s c r, sq_content c = true -> Forall scalar c ->
  reading code s (s2l "'" ++ c ++ s2l "'" ++ r) -> reads code s (TCes (sq_decode c)) r.
Proof. exact sq_read. Qed.
Print Assumptions C13_single_quoted_token.

Example C13_example : sq_content (s2l "a\'b\\c\n") = true /\ Forall scalar (s2l "a\'b\\c\n") /\ sq_decode (s2l "a\'b\\c\n") = s2l "a'b\c\n".
Proof. split; [reflexivity|split; [repeat constructor; left; reflexivity|reflexivity]]. Qed.

(** ** C27 *)
(** [lines]: the lines of the body; [end_of_doc]: a newline, possibly behind a semicolon *)
Theorem C27_nowdoc_token : forall code s tag line lines r,
  doc_line line = true -> forallb doc_line lines = true ->
  Forall (fun l => starts_with tag (l ++ [10%N]) = false) lines ->
  name_ok tag = true -> end_of_doc r ->
  let body := line ++ flat_map (fun l => 10%N :: l) lines in
  Forall scalar body ->
  reading code s (s2l "<<<'" ++ tag ++ s2l "'" ++ [10%N] ++ body ++ [10%N] ++ tag ++ r) ->
  reads code s (TCes body) r.
Proof. exact nowdoc_read. Qed.
Print Assumptions C27_nowdoc_token.

Example C27_example : exists lines, doc_line (s2l "it's") = true /\ lines = [s2l "b"; []] /\ forallb doc_line lines = true /\
  Forall (fun l => starts_with (s2l "X") (l ++ [10%N]) = false) lines /\ end_of_doc (s2l ";" ++ [10%N]).
Proof.
  eexists. split; [reflexivity|]. split; [reflexivity|]. split; [reflexivity|].
  split; [repeat constructor|]. exists []. right. reflexivity.
Qed.

(** ** C35 *)
Theorem C35_case_insensitivity_refuted : forall code s w r, reading code s (w ++ r) -> plain_word w r ->
  (exists c, In c w /\ (65 <= c <= 90)%N) -> reads code s (TString w) r.
Proof.
  intros code s w r R P U. rewrite <- (word_other w (upper_not_keyword w U)). apply word_read; auto.
Qed.
Print Assumptions C35_case_insensitivity_refuted.

Example C35_example : plain_word (s2l "Echo") (s2l " 1;") /\ (exists c, In c (s2l "Echo") /\ (65 <= c <= 90)%N) /\
  reading (s2l "<?php Echo 1;") ex_state (s2l "Echo" ++ s2l " 1;").
Proof.
  split; [repeat split; try reflexivity; discriminate|]. split; [exists 69%N; split; [left; reflexivity|split; discriminate]|].
  apply (ex_reading (s2l "Echo 1;")).
Qed.
