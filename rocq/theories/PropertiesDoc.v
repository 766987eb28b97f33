(** * Property C27 for whole sources *)
From Verif Require Import Base Tokens Ast Driver Spec SpecInterp SpecDoc Doc.
From Coq Require Import String.
Local Open Scope list_scope.

(** a nowdoc is the text of its body, in which [\\] stands for [\] and [\'] for [']
    as in single-quoted strings (C13) *)
Theorem C27_nowdoc : forall tag s, name_ok tag = true -> body tag s = true -> Forall scalar s ->
  echoes (nowdoc tag (s ++ closed tag)) (sq_decode s).
Proof. exact nowdoc_echoes. Qed.
Print Assumptions C27_nowdoc.
(** so it is not the text of its body, as PHP has it *)
Theorem C27_raw_refuted : exists tag s, name_ok tag = true /\ body tag s = true /\ Forall scalar s /\ ~ echoes (nowdoc tag (s ++ closed tag)) s.
Proof. exact not_raw. Qed.
Print Assumptions C27_raw_refuted.
(** and a nowdoc with a dollar sign or an opening brace is rejected, whatever follows *)
Theorem C27_nowdoc_rejects : forall tag s c r, name_ok tag = true -> body tag s = true -> In c [36; 123]%N ->
  rejects (nowdoc tag (s ++ c :: r)) 11 (blen (nowdoc tag s)).
Proof. exact nowdoc_rejects. Qed.
Print Assumptions C27_nowdoc_rejects.
(** a heredoc without code is the text of its body with the escapes of double-quoted strings *)
Theorem C27_heredoc : forall tag s, name_ok tag = true -> body tag s = true -> plain_escapes s = true -> s <> [] -> Forall scalar s ->
  echoes (heredoc tag (s ++ closed tag)) (heredoc_text s).
Proof. exact heredoc_echoes. Qed.
Print Assumptions C27_heredoc.
(** unless it is empty: then the source is rejected, whatever the tag *)
Theorem C27_empty_heredoc : forall tag, name_ok tag = true -> exists F, forall f, F <= f -> exists e, parse_str f (heredoc tag (closed tag)) = DErr e.
Proof. exact no_empty_heredoc. Qed.
Print Assumptions C27_empty_heredoc.
Theorem C27_empty_heredoc_refuted : rejects (heredoc (s2l "T") (closed (s2l "T"))) 17 18.
Proof. exact empty_heredoc. Qed.
Print Assumptions C27_empty_heredoc_refuted.

Definition doc_example : str := s2l "it's \"" \\ \$" ++ [10%N] ++ s2l " T \n" ++ [233; 92; 10]%N ++ s2l "T".
Example C27_example_bodies : body (s2l "T") doc_example = true /\ plain_escapes doc_example = true /\ doc_example <> [] /\ Forall scalar doc_example /\
  sq_decode doc_example = s2l "it's \"" \ \$" ++ [10%N] ++ s2l " T \n" ++ [233; 92; 10]%N ++ s2l "T" /\
  heredoc_text doc_example = s2l "it's "" \ $" ++ [10%N] ++ s2l " T " ++ [10; 233; 92; 10]%N ++ s2l "T" /\
  nowdoc (s2l "T") (s2l "a" ++ closed (s2l "T")) = s2l "<?php echo <<<'T'" ++ [10%N] ++ s2l "a" ++ [10%N] ++ s2l "T;" ++ [10%N] /\
  heredoc (s2l "T") (s2l "a" ++ closed (s2l "T")) = s2l "<?php echo <<<T" ++ [10%N] ++ s2l "a" ++ [10%N] ++ s2l "T;" ++ [10%N].
Proof. repeat match goal with |- _ /\ _ => split end; try reflexivity; [discriminate|]. repeat (constructor; [left; reflexivity|]). constructor. Qed.
