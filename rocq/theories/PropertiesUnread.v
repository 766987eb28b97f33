(** * Property C42: sources that cannot be read *)
From Verif Require Import Base Tokens Ast Lexer Driver Spec SpecMixed SpecCrash SpecText SpecUnread TextMain2 TextEx UnreadEx.
From Coq Require Import String.
Local Open Scope string_scope. Local Open Scope list_scope.

(** A source that the rules of SpecText.v give a fate meets that fate *)
Theorem C42_fate : forall src x, Unread src x -> meets src x.
Proof. exact unread_meets. Qed.
Print Assumptions C42_fate.
Example C42_reported_example : open_source = s2l "<?php echo ""a$b c" /\
  Unread open_source (Reports (Unterminated "double-quoted string literal") (s2l """a$b c") 5) /\ Unread euro_source (Reports Unknown [8364%N] 1).
Proof. split; [reflexivity|]. split; [exact open_unread|exact euro_unread]. Qed.
Example C42_panics_example : index_source = s2l "<?php ""$a[0]"";" /\ Unread index_source Panics /\
  nested_source = s2l "<?php ""{$a[""${'b" /\ Unread nested_source Panics.
Proof. split; [reflexivity|]. split; [exact index_unread|]. split; [reflexivity|exact nested_unread]. Qed.
Example C42_hangs_example : hang_source = s2l "<?php ""{$a[" /\ Unread hang_source Hangs.
Proof. split; [reflexivity|exact hang_unread]. Qed.

(** The rules give one fate at most *)
Theorem C42_one_fate : forall src x y, Unread src x -> Unread src y -> x = y.
Proof. exact one_fate. Qed.
Print Assumptions C42_one_fate.
Example C42_one_fate_example : exists x, Unread nested_source x.
Proof. exists Panics. exact nested_unread. Qed.

(** and none to a source that has tokens *)
Theorem C42_not_both : forall src ts x, Source src ts -> Unread src x -> False.
Proof. exact read_or_unread. Qed.
Print Assumptions C42_not_both.
Example C42_not_both_example : Source text_source text_tokens /\ Unread open_source (Reports (Unterminated "double-quoted string literal") (s2l """a$b c") 5).
Proof. split; [exact text_derived|exact open_unread]. Qed.
