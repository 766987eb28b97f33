(** * SpecUnread: what it means to meet the fate of SpecText.v (C42, C43) *)
From Verif Require Import Base Tokens Lexer Driver Spec SpecText.
From Coq Require Import String.
Local Open Scope list_scope.

Definition complaint_error (c : complaint) (a b : nat) : syntax_error :=
  match c with
  | Unterminated what => SEUnterminated (s2l what) (mk_span a b)
  | Unknown => SEUnknownCharacter (mk_span a b)
  end.
Definition meets (src : str) (x : fate) : Prop :=
  match x with
  | Panics => panics src
  | Hangs => forall f, parse_str f src = DFuel
  | Reports c from len => exists F, forall f, F <= f -> exists e, parse_str f src = DErr e /\
      se_start e = blen src - blen from /\ se_end e = se_start e + len /\ se_syntax e = Some (complaint_error c (se_start e) (se_end e))
  end.
