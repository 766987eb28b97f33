(** * SpecLines: vocabulary of C47 *)
From Verif Require Import Base Spec.
From Coq Require Import String.
Local Open Scope list_scope.

(** [p] occurs in [m] *)
Definition has (p m : str) : Prop := exists x y, m = x ++ p ++ y.

(** Line [n] of the source, counted from 0, goes from byte [a] to byte [b]: [n] newlines
    come before it, it begins behind a newline or at the start, and it ends behind the
    next newline or at the end. *)
Definition line_at (src : str) (n a b : nat) : Prop :=
  exists x y z, src = x ++ y ++ z /\ blen x = a /\ blen (x ++ y) = b /\
    count_occ N.eq_dec x 10%N = n /\ (x = [] \/ exists x', x = x' ++ [10]%N) /\
    ((exists w, y = w ++ [10]%N /\ ~ In 10%N w) \/ z = [] /\ ~ In 10%N y).

(** Where newlines must not be: in HTML, in block comments and behind a backslash; and
    there are no heredocs. *)
Record clean (src : str) : Prop := {
  cl_html : forall m b, src = m ++ [10]%N ++ b -> has (s2l "<?") m;
  cl_close : forall a m b, src = a ++ s2l "?>" ++ m ++ [10]%N ++ b -> has (s2l "<?") m;
  cl_comment : forall o a m b, In o ["/*"; "/**"]%string -> src = a ++ s2l o ++ m ++ [10]%N ++ b -> has (s2l "*/") m;
  cl_escape : forall a b, src <> a ++ s2l "\" ++ [10]%N ++ b;
  cl_doc : forall a b, src <> a ++ s2l "<<<" ++ b }.
