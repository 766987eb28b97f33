(** * SpecPlace: where the tokens of a source stand (C46) *)
From Verif Require Import Base Tokens Spec.
From Coq Require Import String.
Local Open Scope string_scope. Local Open Scope list_scope.

(** the text [w] stands in [src] at byte [p] *)
Definition stands (src : str) (p : nat) (w : str) : Prop := exists a b, src = a ++ w ++ b /\ blen a = p.
Definition decimals (w : str) : Prop := Forall (fun c => (48 <= c <= 57)%N) w.

(** the tags, and the operator that is not among those of C12 because it is never read *)
Definition tags : list (string * kind) := [("<?", KOpenTag); ("<?php", KOpenTag); ("<?=", KOpenTagWithEcho); ("**=", KPowEqual)].
Definition comment_marks : list (string * string) := [("#", ""); ("//", ""); ("/*", "*/"); ("/**", "*/")].

(** the range from [a] to [b] is the text of the token *)
Definition token_at (src : str) (t : token) (a b : nat) : Prop :=
  match t with
  | TVariable v => stands src a (s2l "$" ++ v) /\ b = a + 1 + List.length v
  | TString w => stands src a w /\ b = a + List.length w
  | TInt _ => exists w, w <> [] /\ decimals w /\ stands src a w /\ b = a + List.length w
  | TDouble _ => False
  | TComment w => exists o c, In (o, c) comment_marks /\ stands src a (s2l o ++ w ++ s2l c) /\ b = a + blen (s2l o ++ w ++ s2l c)
  | TInlineHtml w => stands src a w /\ b = a + blen w
  | TCes _ | TBin _ => True
  | Kw KEnd => False
  | Kw KYield | Kw KYieldFrom => stands src a (s2l "yield") /\ a + 5 <= b
  | Kw KCastInt | Kw KCastDouble | Kw KCastString | Kw KCastArray | Kw KCastObject | Kw KCastBool | Kw KCastUnset =>
    stands src a (s2l "(") /\ exists m, a < m /\ stands src m (s2l ")") /\ b = m + 1
  | Kw KDoubleQuote => (stands src a (s2l """") \/ stands src a (s2l "b""")) /\ b = a + 1
  | Kw KBackquote => stands src a (s2l "`") /\ b = a + 1
  | Kw KHereDocStart => (stands src a (s2l "<<<") \/ stands src a (s2l "b<<<")) /\ b = a + 1
  | Kw KHereDocEnd => b = a + 1
  | Kw KDollarCurlyBracesOpen => stands src a (s2l "${") /\ b = a + 2
  | Kw KObjectOp => stands src a (s2l "->") /\ (b = a + 1 \/ b = a + 2)
  | Kw k => exists w, In (w, k) (keywords ++ operators ++ tags) /\ stands src a (s2l w) /\ b = a + String.length w
  end.

(** The tokens stand in the source between [lo] and [hi], one behind the other *)
Inductive laid (src : str) : nat -> nat -> list tokspan -> Prop :=
| laid_none lo hi : lo <= hi -> laid src lo hi []
| laid_token lo hi t sp l :
    token_at src t (sp_start sp) (sp_end sp) -> lo <= sp_start sp -> sp_start sp <= sp_end sp ->
    laid src (sp_end sp) hi l -> laid src lo hi ((t, sp) :: l)
(** a number with a prefix: the number of its digits is in the place of the end *)
| laid_radix lo hi p w z a l :
    In p ["0x"; "0b"] -> w <> [] -> stands src a (s2l p ++ w) -> lo <= a ->
    laid src (a + 2 + List.length w) hi l -> laid src lo hi ((TInt z, mk_span a (List.length w)) :: l)
(** a number with a point: the place behind the point, and the number of the digits in front of it *)
| laid_double lo hi w v d a l :
    decimals w -> decimals v -> stands src a (w ++ s2l "." ++ v) -> lo <= a ->
    laid src (a + List.length w + 1 + List.length v) hi l ->
    laid src lo hi ((TDouble d, mk_span (a + List.length w + 1) (List.length w)) :: l)
(** a string that ends with a text: that text has the range of the whole string *)
| laid_string lo hi k k' f a b parts l :
    In (k, k') [(KDoubleQuote, KDoubleQuote); (KBackquote, KBackquote); (KHereDocStart, KHereDocEnd)] ->
    token_at src (Kw k) a (a + 1) -> token_at src (Kw k') b (b + 1) -> lo <= a ->
    (exists w, f = TCes w) \/ (exists w, f = TBin w) ->
    laid src (a + 1) b parts -> laid src (b + 1) hi l ->
    laid src lo hi ((Kw k, mk_span a (a + 1)) :: parts ++ (f, mk_span a (b + 1)) :: (Kw k', mk_span b (b + 1)) :: l).
