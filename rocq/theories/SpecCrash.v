(** * SpecCrash: sources that panic (C03) *)
From Verif Require Import Base Tokens Ast Printer Spec SpecProg SpecRT SpecMixed SpecCtl.
From Coq Require Import String.

Section Sf.
Variable sf : str -> str.
(** ** Places in a program *)
(** the beginning of an expression, up to a place where a smaller expression stands *)
Inductive before_expr : str -> Prop :=
| expr_here : before_expr []
| in_paren l : before_expr l -> before_expr (s2l "(" ++ l)
| in_not l : before_expr l -> before_expr (s2l "!(" ++ l)
| in_assign v l : name_ok v = true -> before_expr l -> before_expr (s2l "$" ++ v ++ s2l " = " ++ l)
| in_operand e t b l : written sf e t -> In b binops -> before_expr l ->
    before_expr (s2l "(" ++ t ++ s2l ") " ++ s2l (bo_text b) ++ s2l " (" ++ l)
| in_call f l : plain_word f = true -> before_expr l -> before_expr (f ++ s2l "(" ++ l)
| in_index v l : name_ok v = true -> before_expr l -> before_expr (s2l "$" ++ v ++ s2l "[" ++ l)
| in_array l : before_expr l -> before_expr (s2l "[" ++ l).
(** the beginning of a statement, up to a place where a smaller statement stands, with
    the number of braces that are still open *)
Inductive before_stmt : nat -> str -> Prop :=
| stmt_here : before_stmt 0 []
| in_block n b t l : stmts_written sf b t -> before_stmt n l -> before_stmt (S n) (s2l "{" ++ t ++ l)
| in_body n (w : string) c tc b t l : In w ["while"; "if"]%string -> written sf c tc -> stmts_written sf b t -> before_stmt n l ->
    before_stmt (S n) (s2l w ++ s2l " (" ++ tc ++ s2l ") {" ++ t ++ l).
(** what stands before the first expression of a statement *)
Definition openers : list string := [""; "echo "; "return "; "throw "; "if ("; "while ("; "switch ("]%string.
(** the beginning of a program, up to a place where an expression stands, with [n] braces open *)
Definition before (n : nat) (l : str) : Prop :=
  exists a (w : string) b, l = a ++ s2l w ++ b /\ before_stmt n a /\ In w openers /\ before_expr b.
(** the rest of a program: statements, comments, brackets; every brace that is closed was open *)
Inductive rest_of : nat -> str -> Prop :=
| rest_end n : rest_of n []
| rest_part n p r : part_ok sf p -> rest_of n r -> rest_of n (part_text p ++ r)
| rest_close n (c : string) r : In c [")"; "]"; ";"]%string -> rest_of n r -> rest_of n (s2l c ++ r)
| rest_open_brace n r : rest_of (S n) r -> rest_of n (s2l "{" ++ r)
| rest_close_brace n r : rest_of n r -> rest_of (S n) (s2l "}" ++ r).
End Sf.

(** ** Texts that the tokenizer cannot read *)
Definition too_big (r : str) : Prop := exists n q, r = show_N n ++ q /\ (i64_max < n)%N /\ ends_word q = true /\ starts_with_c 46 q = false.
Definition bad_octal (r : str) : Prop := exists ds q, r = s2l "0" ++ map (digit_char false) ds ++ q /\ Forall (fun d => (d < 10)%N) ds /\ Exists (fun d => (8 <= d)%N) ds /\
  ends_word q = true /\ starts_with_c 46 q = false.
Definition unreadable (r : str) : Prop := too_big r \/ bad_octal r \/ r = s2l ".".
(** ** Expressions that the parser does not expect *)
Definition unexpected (sf : str -> str) (x : str) : Prop :=
  (exists v, name_ok v = true /\ x = s2l "$$" ++ v) \/
  (exists v, name_ok v = true /\ x = s2l "(unset) $" ++ v) \/
  (exists e t a b, written sf e t /\ plain_word a = true /\ plain_word b = true /\ x = s2l "(" ++ t ++ s2l ") instanceof " ++ a ++ s2l " instanceof " ++ b).
(** ** An if with an else that is not its last part *)
(** a part of an if: [elseif] with a condition, or [else] *)
Record arm := mkArm { arm_cond : option (expr * str); arm_body : list stmt; arm_body_text : str }.
Definition arm_ok (sf : str -> str) (x : arm) : Prop :=
  match arm_cond x with Some (e, t) => written sf e t | None => True end /\ stmts_written sf (arm_body x) (arm_body_text x).
Definition arm_text (x : arm) : str :=
  match arm_cond x with Some (_, t) => s2l " elseif (" ++ t ++ s2l ")" | None => s2l " else" end ++ s2l " {" ++ arm_body_text x ++ s2l "}".
Definition misplaced_else (l : list arm) : Prop := exists a x b, l = a ++ x :: b /\ arm_cond x = None /\ b <> [].
