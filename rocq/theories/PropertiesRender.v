(** * Property C48 *)
From Verif Require Import Base Tokens Lexer Parser Driver Spec SpecPlace SpecLines LinesMain SpecRender Render.
From Coq Require Import String.
Local Open Scope string_scope.
Local Open Scope list_scope.

(** The message is the text from the start to the end of the line, with a mark below *)
Theorem C48_shown : forall f src e, clean src -> parse_str f src = DErr e ->
  se_line_start e <= se_start e -> se_start e < se_end e ->
  exists y, stands src (se_line_start e) y /\ se_line_start e + blen y = se_line_end e /\
    error_snippet e src = inl (marked y (se_start e - se_line_start e) (se_end e - se_start e - 1)).
Proof. intros f src e C H A B. exact (proj1 (snippet_cases f src e C H) (conj A B)). Qed.
Print Assumptions C48_shown.
Theorem C48_panics : forall f src e, clean src -> parse_str f src = DErr e ->
  se_start e < se_line_start e \/ se_end e <= se_start e -> error_snippet e src = inr POverflow.
Proof. intros f src e C H. exact (proj2 (snippet_cases f src e C H)). Qed.
Print Assumptions C48_panics.

(** An error of the parser is at a token of the source, or behind its last token *)
Theorem C48_where : forall f src e, parse_str f src = DErr e -> se_syntax e = None ->
  exists toks s, tokenize f src = DOk (toks, s) /\
  ((exists t sp, In (t, sp) toks /\ se_start e = sp_start sp /\ se_end e = sp_end sp) \/
   (exists a t sp b, toks = a ++ (t, sp) :: b /\ Forall (fun x => unseen (fst x)) b /\
      se_start e = sp_end sp /\ se_end e = sp_end sp + 1)).
Proof. exact error_where. Qed.
Print Assumptions C48_where.

(** At a variable, name, word or operator: the message is its line, and the mark is below it *)
Theorem C48_token : forall f src toks s e t sp, clean src -> tokenize f src = DOk (toks, s) -> In (t, sp) toks -> plain_token t ->
  parse_str f src = DErr e -> se_syntax e = None -> se_start e = sp_start sp -> se_end e = sp_end sp ->
  exists pre w post, spelled t w /\ line_at src (se_line e) (se_line_start e) (se_line_end e) /\
    stands src (se_line_start e) (pre ++ w ++ post) /\ se_line_start e + blen (pre ++ w ++ post) = se_line_end e /\
    se_line_start e + blen pre = sp_start sp /\
    error_snippet e src = inl (marked (pre ++ w ++ post) (blen pre) (List.length w - 1)).
Proof. exact token_marked. Qed.
Print Assumptions C48_token.

(** Behind the last token: a newline there makes the rendering panic, anything else does not *)
Theorem C48_end_panics : forall f src e, clean src -> parse_str f src = DErr e -> se_syntax e = None ->
  se_end e = se_start e + 1 -> stands src (se_start e) [10]%N -> error_snippet e src = inr POverflow.
Proof. exact end_panics. Qed.
Print Assumptions C48_end_panics.
Theorem C48_end_shown : forall f src e, clean src -> parse_str f src = DErr e -> se_syntax e = None ->
  se_end e = se_start e + 1 -> ~ stands src (se_start e) [10]%N ->
  exists y, stands src (se_line_start e) y /\ se_line_start e + blen y = se_line_end e /\
    error_snippet e src = inl (marked y (se_start e - se_line_start e) 0).
Proof. exact end_shown. Qed.
Print Assumptions C48_end_shown.

Definition render_newline : string := String (Ascii.ascii_of_nat 10) "".
Definition at_token : str := s2l ("<?php" ++ render_newline ++ "f( while );" ++ render_newline ++ "g();")%string.
Example C48_token_example : clean at_token /\
  match parse_str 60 at_token, tokenize 60 at_token with
  | DErr e, DOk (toks, s) =>
    In (Kw KWhile, mk_span 9 14) toks /\ plain_token (Kw KWhile) /\ se_syntax e = None /\ (se_start e, se_end e) = (9, 14) /\
    error_snippet e at_token = inl (s2l ("f( while );" ++ render_newline ++ render_newline ++ "   ^~~~~"))
  | _, _ => False end.
Proof. split; [apply cleanb_ok; vm_compute; reflexivity|]. vm_compute. repeat split; auto 10. Qed.
(** the same tokens with and without a blank at the end of the first line *)
Definition at_end (blank : string) : str := s2l ("<?php f(" ++ blank ++ render_newline ++ "// g")%string.
Example C48_end_example : clean (at_end "") /\ clean (at_end " ") /\ stands (at_end "") 8 [10]%N /\
  match parse_str 60 (at_end ""), parse_str 60 (at_end " ") with
  | DErr e, DErr e' => se_syntax e = None /\ (se_start e, se_end e) = (8, 9) /\ error_snippet e (at_end "") = inr POverflow /\
      se_syntax e' = None /\ (se_start e', se_end e') = (8, 9) /\ error_snippet e' (at_end " ") = inl (s2l ("<?php f( " ++ render_newline ++ render_newline ++ "        ^"))
  | _, _ => False end.
Proof.
  split; [apply cleanb_ok; vm_compute; reflexivity|]. split; [apply cleanb_ok; vm_compute; reflexivity|]. split; [exists (s2l "<?php f("), (s2l "// g"); split; reflexivity|]. vm_compute. auto 10.
Qed.
