(** * SpecPanic: the token sequences on which the parser may panic (C44) *)
From Verif Require Import Base Tokens Ast SpecGrammar.
From Coq Require Import String.
Local Open Scope list_scope.

Definition is (k : kind) (t : token) : bool := match t with Kw k' => kind_eqb k k' | _ => false end.
Definition one_of (ks : list kind) (t : token) : Prop := exists k, In k ks /\ t = Kw k.
Definition count (k : kind) (ts : list token) : nat := List.length (filter (is k) ts).

(** ** Parentheses *)
(** an opening parenthesis that nothing closes *)
Definition unclosed (ts : list token) : Prop :=
  exists a b, ts = a ++ Kw KParenthesesOpen :: b /\
  forall u v, b = u ++ v -> count KParenthesesClose u <= count KParenthesesOpen u.

(** ** Functions *)
(** a parameter list that does not follow the grammar *)
Definition bad_parameters (ts : list token) : Prop :=
  exists a (r : bool) name b,
    ts = a ++ Kw KFunction :: (if r then [Kw KAmpersand] else []) ++ name ++ Kw KParenthesesOpen :: b /\
    (name = [] \/ exists s, name = [TString s]) /\
    ~ exists tp l c, Params (Lost := strict) tp l /\ b = tp ++ Kw KParenthesesClose :: c.

(** ** Conditions *)
(** an [else] that is not followed by one statement and the end of its [if], with
    another arm somewhere behind *)
Definition bad_else (ts : list token) : Prop :=
  exists a b, ts = a ++ Kw KElse :: b /\
  (exists t, In t b /\ one_of [KElse; KElseIf] t) /\
  ~ exists tb s c, Stmt (Lost := strict) false tb s /\ b = tb ++ c /\
    forall t, hd_error c = Some t -> ~ one_of [KElse; KElseIf; KCatch; KFinally] t.

(** ** Operators *)
(** tokens that may belong to one expression: there is no semicolon except inside of a
    closure *)
Definition unbroken (ts : list token) : Prop :=
  forall u v, ts = u ++ Kw KSemiColon :: v -> In (Kw KFunction) u.
(** two [instanceof] in one expression *)
Definition double_instanceof (ts : list token) : Prop :=
  exists a b c, ts = a ++ Kw KInstanceOf :: b ++ Kw KInstanceOf :: c /\ unbroken b.

(** ** Traits and words *)
(** what the block of a trait use is made of *)
Definition adaptation_token (t : token) : Prop :=
  match t with
  | TString _ => True
  | Kw k => In k [KNsSeparator; KScopeOp; KComma; KSemiColon] \/ is_reserved_non_modifier k = true
  | _ => False
  end.
(** [as] without a new name, or [yield] as a method *)
Definition bad_trait (ts : list token) : Prop :=
  exists a s m b, ts = a ++ TString s :: Kw KCurlyBracesOpen :: m ++ b /\ Forall adaptation_token m /\
  ((exists c, b = Kw KYield :: c) \/
   (exists c, b = Kw KAs :: c /\ forall s' c', c <> TString s' :: c')).
(** [yield] as the name of a constant or a method *)
Definition yield_name (ts : list token) : Prop :=
  exists a k m b, ts = a ++ Kw k :: m ++ Kw KYield :: b /\
  ((In k [KScopeOp; KDollarCurlyBracesOpen; KConst] /\ m = []) \/
   (k = KConst /\ unbroken m /\ exists m', m = m' ++ [Kw KComma])).

(** ** Strings *)
(** accesses that may end in a call *)
Definition reaches (ts : list token) : bool :=
  match ts with
  | Kw KObjectOp :: TString _ :: Kw k :: _ =>
    match k with KParenthesesOpen | KSquareBracketOpen | KScopeOp | KObjectOp => true | _ => false end
  | Kw KObjectOp :: TString _ :: _ => false
  | Kw k :: _ => match k with KParenthesesOpen | KSquareBracketOpen | KScopeOp | KObjectOp => true | _ => false end
  | _ => false
  end.
(** what does not stand behind the beginning of a string *)
Definition no_string (ts : list token) : bool :=
  match ts with
  | TCes [] :: _ | TString _ :: _ => true
  | TVariable _ :: r => reaches r
  | Kw k :: _ =>
    match k with KStatic | KNsSeparator | KParenthesesOpen | KArray | KSquareBracketOpen => true | _ => false end
  | _ => false
  end.
Definition bad_string (ts : list token) : Prop :=
  exists a k b, ts = a ++ Kw k :: b /\ In k [KDoubleQuote; KHereDocStart] /\ no_string b = true.

(** ** All of them *)
Definition suspect (ts : list token) : Prop :=
  ts = [] \/ In (Kw KDollar) ts \/ In (Kw KCastUnset) ts \/ unclosed ts \/ bad_parameters ts \/ bad_else ts \/
  double_instanceof ts \/ bad_trait ts \/ yield_name ts \/ bad_string ts.
