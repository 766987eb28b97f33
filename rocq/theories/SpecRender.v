(** * SpecRender: tokens and messages (C48) *)
From Verif Require Import Base Tokens Spec SpecPlace SpecLines.
From Coq Require Import String.
Local Open Scope string_scope. Local Open Scope list_scope.

(** the token is the text [w] *)
Definition spelled (t : token) (w : str) : Prop :=
  match t with
  | TVariable v => w = s2l "$" ++ v
  | TString v => w = v
  | Kw k => exists x, In (x, k) (keywords ++ operators ++ tags) /\ w = s2l x
  | _ => False
  end.
(** variables, names, words and operators; but not what has a range of its own (yield,
    casts, quotes, the arrow, which is shorter inside of strings) *)
Definition plain_token (t : token) : Prop :=
  match t with
  | TVariable v | TString v => name_ok v = true
  | Kw KYield | Kw KYieldFrom | Kw KCastInt | Kw KCastDouble | Kw KCastString | Kw KCastArray | Kw KCastObject | Kw KCastBool | Kw KCastUnset
  | Kw KDoubleQuote | Kw KBackquote | Kw KHereDocStart | Kw KHereDocEnd | Kw KDollarCurlyBracesOpen | Kw KObjectOp => False
  | Kw _ => True
  | _ => False
  end.
(** what the parser does not get to see *)
Definition unseen (t : token) : Prop := match t with TComment _ | Kw KOpenTag | Kw KCloseTag => True | _ => False end.

(** a line, and below it a mark of [n + 1] characters at column [col] *)
Definition marked (line : str) (col n : nat) : str := line ++ [10]%N ++ repeat 32%N col ++ s2l "^" ++ repeat 126%N n.
