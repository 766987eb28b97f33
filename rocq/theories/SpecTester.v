(** * SpecTester: what a run of the tester does to the files (C49) *)
From Verif Require Import Base Tokens Ast Lexer Printer Driver.
From Coq Require Import String.

(** The file the tester writes for a source: the printed program in tags; a source that
    does not parse stays as it is. *)
Definition rewritten (show : str -> str) (limit : nat) (code : str) : str :=
  match parse_str limit code with
  | DOk l => match print_statements show l with Some s => s2l "<?php" ++ [10%N] ++ s ++ [10%N] ++ s2l "?>" | None => code end
  | _ => code
  end.
Definition parses (limit : nat) (code : str) : Prop := exists l, parse_str limit code = DOk l.
(** the disk when the first [n] files have been handled *)
Definition handled (show : str -> str) (limit n : nat) (d : fs) : fs := fun j => if j <? n then rewritten show limit (d j) else d j.
Definition passes (check : option (fs -> bool)) (d : fs) : Prop := match check with Some c => c d = true | None => True end.
(** the check looks at the contents only *)
Definition looks (check : option (fs -> bool)) : Prop :=
  match check with Some c => forall d d' : fs, (forall j, d j = d' j) -> c d = c d' | None => True end.
(** the check fails iff a file of [bad] is not as it was *)
Definition detects (c : fs -> bool) (src : fs) (bad : nat -> Prop) : Prop := forall d, c d = true <-> forall j, bad j -> d j = src j.
