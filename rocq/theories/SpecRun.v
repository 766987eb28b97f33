(** * SpecRun: vocabulary of C02, C06 and C23 *)
From Verif Require Import Base Tokens Lexer Driver Spec.
From Coq Require Import String.

(** ** C06: the tokenizer states that calls of [next_token] lead to, whether they
    delivered a token or an error *)
Inductive reached (code : str) : tst -> Prop :=
| reached_start : reached code tst_init
| reached_token f s t s' : reached code s -> next_token code f s = TOk t s' -> reached code s'
| reached_error f s e s' : reached code s -> next_token code f s = TErr e s' -> reached code s'.

(** the ends of lines, possibly behind the semicolon that closes a heredoc *)
Definition line_ends : list str := [[10]; [13]; [13; 10]; [59; 10]; [59; 13]; [59; 13; 10]]%N.
(** byte [d] is read already, or is behind a line end that comes next *)
Definition passed (code : str) (s : tst) (d : nat) : Prop :=
  d <= src_pos s \/ exists w r, In w line_ends /\ unread code s (w ++ r) /\ d <= src_pos s + blen w.

(** ** C02: neither "{$" nor "${" occurs *)
Definition no_braces (src : str) : Prop :=
  (forall a b, src <> a ++ s2l "{$" ++ b) /\ (forall a b, src <> a ++ s2l "${" ++ b).

(** ** C23: where an error is said to be.  The line is in the line table of the run, its
    range is part of the source, the error lies in the source or just behind it, and
    its end lies in the line or just behind it. *)
Definition located (src : str) (e : serror) : Prop :=
  (exists s, reached src s /\ nth_error (lines s) (se_line e) = Some (se_line_start e)) /\
  se_line_start e <= se_line_end e <= blen src /\
  se_start e <= blen src /\ se_end e <= blen src + 1 /\
  se_line_start e <= se_end e <= se_line_end e + 1.
