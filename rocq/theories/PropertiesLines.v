(** * Property C47 *)
From Verif Require Import Base Tokens Lexer Driver Spec SpecLines Lines LinesMain.
From Coq Require Import String.
Local Open Scope string_scope.
Local Open Scope list_scope.

Theorem C47_table : forall f src toks s, clean src -> tokenize f src = DOk (toks, s) ->
  List.length (lines s) = S (count_occ N.eq_dec src 10%N) /\
  forall n a, nth_error (lines s) n = Some a <-> exists b, line_at src n a b.
Proof. exact lines_table. Qed.
Print Assumptions C47_table.

Theorem C47_parse_error : forall f src e, clean src -> parse_str f src = DErr e -> se_syntax e = None ->
  line_at src (se_line e) (se_line_start e) (se_line_end e) /\
  se_line_start e <= se_end e /\ (forall n a b, line_at src n a b -> a <= se_end e -> n <= se_line e).
Proof. exact parse_error_line. Qed.
Print Assumptions C47_parse_error.

Theorem C47_syntax_error : forall f src e, clean src -> parse_str f src = DErr e -> se_syntax e <> None ->
  (exists b, line_at src (se_line e) (se_line_start e) b) /\
  se_line_start e <= se_start e /\ (forall n a b, line_at src n a b -> a <= se_start e -> n <= se_line e) /\
  se_line_end e = blen src.
Proof. exact syntax_error_line. Qed.
Print Assumptions C47_syntax_error.

Definition newline : string := String (Ascii.ascii_of_nat 10) "".
Definition five_lines : string :=
  "<?php" ++ newline ++ "f('a" ++ newline ++ "b'); // c" ++ newline ++ "/* d */ g(""{$x}" ++ newline ++ """);".
Example C47_table_example : clean (s2l (five_lines ++ newline)) /\
  match tokenize 60 (s2l (five_lines ++ newline)) with DOk (toks, s) => lines s = [0; 6; 11; 21; 37; 41] /\ List.length toks = 18 | _ => False end.
Proof. split; [apply cleanb_ok; vm_compute; reflexivity|vm_compute; auto]. Qed.
(** a parenthesis too many on the fifth line *)
Example C47_parse_error_example : clean (s2l (five_lines ++ " ) h();" ++ newline ++ "i();")) /\
  match parse_str 60 (s2l (five_lines ++ " ) h();" ++ newline ++ "i();")) with
  | DErr e => se_syntax e = None /\ se_line e = 4 /\ (se_line_start e, se_line_end e) = (37, 48) /\ (se_start e, se_end e) = (41, 42)
  | _ => False end.
Proof. split; [apply cleanb_ok; vm_compute; reflexivity|vm_compute; auto]. Qed.
(** a string begun on the fifth line and never closed *)
Example C47_syntax_error_example : clean (s2l (five_lines ++ " '" ++ newline ++ newline ++ "i();")) /\
  match parse_str 60 (s2l (five_lines ++ " '" ++ newline ++ newline ++ "i();")) with
  | DErr e => se_syntax e <> None /\ se_line e = 4 /\ (se_line_start e, se_line_end e) = (37, 48) /\ se_start e = 41
  | _ => False end.
Proof. split; [apply cleanb_ok; vm_compute; reflexivity|]. vm_compute. repeat split; try reflexivity. discriminate. Qed.

(** Each of the conditions of [clean] is needed: HTML at the start, HTML behind a closing
    tag, a block comment, an escaped newline and a heredoc each leave a wrong table. *)
Theorem C47_table_refuted :
  Forall (fun src => exists f toks s, tokenize f (s2l src) = DOk (toks, s) /\
    ~ (forall n a, nth_error (lines s) n = Some a <-> exists b, line_at (s2l src) n a b))
  [("a" ++ newline ++ "b<?php $a;")%string;
   ("<?php $a; ?>b" ++ newline ++ newline ++ "<?php $b;")%string;
   ("<?php /* a" ++ newline ++ "b */ $a;")%string;
   ("<?php $a = 'b\" ++ newline ++ "c';")%string;
   ("<?php $a = <<<A" ++ newline ++ "c" ++ newline ++ "A;" ++ newline ++ "f();")%string].
Proof. exact table_wrong. Qed.
Print Assumptions C47_table_refuted.

(** The line of an error is wrong behind them too: a parenthesis too many behind
    a comment of two lines. *)
Theorem C47_parse_error_refuted :
  exists f src e, parse_str f src = DErr e /\ se_syntax e = None /\
    ~ line_at src (se_line e) (se_line_start e) (se_line_end e).
Proof. exact error_line_wrong. Qed.
Print Assumptions C47_parse_error_refuted.
