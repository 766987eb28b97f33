(** * SpecBad: malformed sources (C34) *)
From Verif Require Import Base Tokens Ast Printer Spec SpecProg SpecRT SpecCtl.
From Coq Require Import String.

(** nothing, or some parentheses that are never closed, with or without an expression in them *)
Definition opened (n : nat) (t : str) : str := List.concat (repeat (s2l "(") n) ++ t.
(** the expression written as [t], with operators that have no right side *)
Fixpoint dangling (t : str) (ops : list binop) : str :=
  match ops with
  | [] => t
  | b :: r => dangling (s2l "(" ++ t ++ s2l ") " ++ s2l (bo_text b) ++ s2l " ") r
  end.
(** words that introduce a class *)
Definition class_words : list string := ["class"; "trait"; "interface"]%string.
Definition modifier_words : list string := ["abstract"; "final"]%string.
(** an expression written as [t], or nothing *)
Definition inner (sf : str -> str) (o : option expr) (t : str) : Prop :=
  match o with Some e => written sf e t | None => t = [] end.
(** how often a character occurs in a source *)
Definition count_char (c : N) (s : str) : nat := List.length (filter (N.eqb c) s).
