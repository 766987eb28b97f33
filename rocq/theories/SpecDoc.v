(** * SpecDoc: the bodies of nowdocs and heredocs (C27) *)
From Verif Require Import Base Tokens Ast Driver Spec SpecInterp.
From Coq Require Import String.
Local Open Scope list_scope.

(** No line behind the first one begins with the tag, and no dollar sign and no opening
    brace is inside; but a backslash takes the character behind it along, whichever it is. *)
Fixpoint body (tag s : str) : bool :=
  match s with
  | [] => true
  | c :: r =>
    if (c =? 92)%N then match r with _ :: r' => body tag r' | [] => false end
    else if (c =? 10)%N then negb (starts_with tag r) && body tag r
    else negb ((c =? 36) || (c =? 123))%N && body tag r
  end.
(** the characters behind a backslash are not e, u, x or X *)
Fixpoint plain_escapes (s : str) : bool :=
  match s with
  | c :: ((d :: r') as r) =>
    if (c =? 92)%N then negb ((d =? 101) || (d =? 117) || (d =? 120) || (d =? 88))%N && plain_escapes r' else plain_escapes r
  | _ => true
  end.
(** the text of a heredoc: the escapes are those of double-quoted strings (C14) *)
Fixpoint heredoc_text (s : str) : str :=
  match s with
  | [] => []
  | c :: r =>
    match r with
    | d :: r' => if (c =? 92)%N then dq_chars (DqEsc d) ++ heredoc_text r' else c :: heredoc_text r
    | [] => [c]
    end
  end.
Definition nowdoc (tag content : str) : str := s2l "<?php echo <<<'" ++ tag ++ s2l "'" ++ [10%N] ++ content.
Definition heredoc (tag content : str) : str := s2l "<?php echo <<<" ++ tag ++ [10%N] ++ content.
(** a newline, the tag, a semicolon and a newline *)
Definition closed (tag : str) : str := [10%N] ++ tag ++ s2l ";" ++ [10%N].
Definition echoes (src s : str) : Prop := parses_to src [St (SEcho [the_string s]) span_new].
Definition rejects (src : str) (a b : nat) : Prop :=
  exists F, forall f, F <= f -> exists e, parse_str f src = DErr e /\ se_start e = a /\ se_end e = b.
