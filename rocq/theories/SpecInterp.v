(** * SpecInterp: what a double-quoted string stands for (C14, C31) *)
From Verif Require Import Base Tokens Ast Spec.
From Coq Require Import String.

Definition the_string (s : str) : expr := Ex (EString s) span_new.
Definition the_variable (v : str) : expr := Ex (EVar (VName v)) span_new.
Definition the_property (v p : str) : expr := Ex (EObjMember (the_variable v) [Ex (EPath (mkPath false None p)) span_new]) span_new.
(** literal bytes must be UTF-8: [encode s] are the bytes of the text [s] *)
Inductive part_means : dq_part -> expr -> Prop :=
| means_lit s : Forall scalar s -> part_means (DqLit (encode s)) (the_string s)
| means_var v : part_means (DqRef v None) (the_variable v)
| means_prop v p : part_means (DqRef v (Some p)) (the_property v p).
(** [a . (b . (c . d))] *)
Fixpoint joined (e : expr) (l : list expr) : expr :=
  match l with [] => e | x :: r => Ex (EBinary OConcat e (joined x r)) span_new end.

(** the pieces without variables *)
Definition no_ref (p : dq_piece) : bool := match p with DqVar _ | DqProp _ _ => false | _ => true end.
(** the bytes a piece stands for *)
Definition dq_bytes (p : dq_piece) : bytes :=
  match p with DqChar c => enc1 c | DqEsc c => dq_escape c | DqHex _ a b => [16 * a + b]%N | _ => [] end.
(** the characters plain characters and simple escapes stand for; a backslash before
    another character stands for itself *)
Definition simple (p : dq_piece) : bool := match p with DqChar _ | DqEsc _ => true | _ => false end.
Definition dq_chars (p : dq_piece) : str :=
  match p with
  | DqChar c => [c]
  | DqEsc c => if (c =? 110)%N then [10%N] else if (c =? 114)%N then [13%N] else if (c =? 116)%N then [9%N] else if (c =? 102)%N then [12%N]
     else if (c =? 118)%N then [11%N] else if (c =? 34)%N then [34%N] else if (c =? 92)%N then [92%N] else if (c =? 36)%N then [36%N] else [92%N; c]
  | _ => []
  end.
