(** * Properties C04, C15, C33: HTML, PHP blocks, white space, comments and statement sequences *)
From Verif Require Import Base Tokens Ast AstMap Lexer Parser Printer Driver Spec SpecRT SpecMixed LexMono Mixed.
From Coq Require Import String.
Local Open Scope string_scope. Local Open Scope list_scope.

(** ** C04 *)
(** HTML stretches, PHP blocks and short echo tags in any number and order *)
Theorem C04_html_and_php : forall sf cs last, source_ok sf cs last -> meaning cs last <> [] ->
  parses_to (source cs last) (meaning cs last).
Proof. exact source_parses. Qed.
Print Assumptions C04_html_and_php.

Definition ex_var (s : string) : expr := Ex (EVar (VName (s2l s))) span_new.
Definition ex_assign : stmt := St (SExpr (Ex (EAssign (ex_var "x") (Ex (EInt 1) span_new)) span_new)) span_new.
Definition nl1 : str := [10%N].
Definition ex_chunks : list chunk :=
  [CHtml (s2l "<p>" ++ nl1);
   CPhp [PBlank (s2l " "); PComment (CLine false (s2l " ?")); PStmts [ex_assign] (s2l "$x=1;" ++ nl1); PComment (CBlock (s2l " b "))];
   CPhp [PBlank nl1];
   CEcho [ex_var "x"] (s2l "$x;" ++ nl1) [PBlank (s2l " ")];
   CHtml (s2l "</p>")].
Definition ex_last : option (list block_part) := Some [PBlank (s2l " "); PStmts [ex_assign; ex_assign] (s2l "$x=1;" ++ nl1 ++ s2l "$x=1;" ++ nl1)].
Lemma no_tag_ex1 : no_tag (s2l "<p>" ++ nl1).
Proof. intros a b E. repeat (destruct a as [|? a]; [discriminate E|cbn in E; injection E as _ E]). destruct a; discriminate E. Qed.
Lemma no_tag_ex2 : no_tag (s2l "</p>").
Proof. intros a b E. repeat (destruct a as [|? a]; [discriminate E|cbn in E; injection E as _ E]). destruct a; discriminate E. Qed.
Lemma no_close_ex : no_close (s2l " b ").
Proof. intros a b E. repeat (destruct a as [|? a]; [discriminate E|cbn in E; injection E as _ E]). destruct a; discriminate E. Qed.
Example C04_mixed_example : source_ok (fun s => s) ex_chunks ex_last /\ meaning ex_chunks ex_last <> [] /\
  source ex_chunks ex_last =
    s2l "<p>" ++ nl1 ++ s2l "<?php // ?" ++ nl1 ++ s2l "$x=1;" ++ nl1 ++ s2l "/* b */?><?php" ++ nl1 ++
    s2l "?><?=$x;" ++ nl1 ++ s2l " ?></p><?php $x=1;" ++ nl1 ++ s2l "$x=1;" ++ nl1 /\
  strip (meaning ex_chunks ex_last) =
    strip [echo [Ex (EString (s2l "<p>" ++ nl1)) span_new]; ex_assign; echo [ex_var "x"]; echo [Ex (EString (s2l "</p>")) span_new]; ex_assign; ex_assign].
Proof.
  split; [|split; [discriminate|split; reflexivity]].
  repeat split; repeat constructor; cbn [chunk_ok part_ok comment_ok];
    try solve [reflexivity | discriminate | apply no_tag_ex1 | apply no_tag_ex2 | apply no_close_ex | vm_compute; intuition discriminate].
Qed.

(** ** C33 *)
(** Statements in sequence, with any white space and comments around them: all of them
    one after the other, and each of them as when it is parsed alone. *)
Theorem C33_sequence : forall sf ps, Forall (part_ok sf) ps -> flat_map part_stmts ps <> [] ->
  parses_to (s2l "<?php" ++ flat_map part_text ps) (flat_map part_stmts ps) /\
  (forall l t, In (PStmts l t) ps -> l <> [] -> parses_to (s2l "<?php" ++ t) l).
Proof. exact sequence_parses. Qed.
Print Assumptions C33_sequence.
(** Any blocks of tokens that are statements by themselves *)
Theorem C33_blocks : forall data e all tss ss, behind_tag (filter_tokens all) -> map fst (filter_tokens all) = List.concat tss -> tss <> [] ->
  Forall2 statement_block tss ss ->
  exists l, parse_tokens data e all = DOk l /\ strip l = strip ss.
Proof. exact blocks_parse. Qed.
Print Assumptions C33_blocks.
(** the statements of the theorem above are such blocks *)
Theorem C33_is_block : forall sf s, good_top sf s = true -> exists ts, statement_block ts s.
Proof. exact good_block. Qed.
Print Assumptions C33_is_block.
(** Whole sources in sequence *)
Theorem C33_join : forall sf cs cs' last, source_ok sf (cs ++ cs') last -> flat_map chunk_stmts cs <> [] -> meaning cs' last <> [] ->
  parses_to (source cs None) (meaning cs None) /\ parses_to (source cs' last) (meaning cs' last) /\
  parses_to (source cs None ++ source cs' last) (meaning cs None ++ meaning cs' last).
Proof. exact sources_join. Qed.
Print Assumptions C33_join.

Example C33_example : forall sf, Forall (part_ok sf)
  [PBlank (s2l " "); PStmts [ex_assign] (s2l "$x=1;" ++ nl1); PComment (CLine true (s2l " c")); PStmts [echo [ex_var "x"]; ex_assign] (s2l "echo $x;" ++ nl1 ++ s2l "$x=1;" ++ nl1)].
Proof.
  intros sf. repeat constructor; cbn [part_ok comment_ok]; try solve [reflexivity]. vm_compute. intuition discriminate.
Qed.
Example C33_join_example : source_ok (fun s => s) (firstn 2 ex_chunks ++ skipn 2 ex_chunks) ex_last /\
  flat_map chunk_stmts (firstn 2 ex_chunks) <> [] /\ meaning (skipn 2 ex_chunks) ex_last <> [].
Proof. split; [exact (proj1 C04_mixed_example)|split; discriminate]. Qed.

(** ** C15 *)
(** White space in front of any input in script mode: the next token is the one that
    comes without it; the state is the same except for position and line table. *)
Theorem C15_white_space : forall code s w inp, lmode s = LInScripting \/ lmode s = LLookingForProperty -> white w = true -> unread code s (w ++ inp) ->
  exists s', unread code s' inp /\ lmode s' = lmode s /\ lstack s' = lstack s /\ queue s' = queue s /\ restart s' = restart s /\
    forall f, next_token code f s = next_token code f s'.
Proof. exact white_skipped. Qed.
Print Assumptions C15_white_space.
Example C15_white_space_example : forall inp, unread (s2l "<?php " ++ inp) (set_pos 5 (set_mode LInScripting tst_init)) (s2l " " ++ inp).
Proof. intros inp. exists (s2l "<?php"). auto. Qed.
