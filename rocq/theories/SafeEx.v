(** * SafeEx: sources for C44 *)
From Verif Require Import Base Tokens Ast Lexer Parser Driver Spec SpecGrammar SpecText SpecPanic GrammarEx TextMain2 TextEx CompleteEx.
From Coq Require Import String Lia.
Local Open Scope string_scope. Local Open Scope list_scope.

(** ** A broken program that is not suspect *)
Definition plus_source : str := s2l "<?php class A { function f($a) { if ($a instanceof B) { return ""x$a""; } else { echo $a =; } } }".
Definition plus_tokens : list token :=
  [Kw KOpenTag; Kw KClass; TString (s2l "A"); Kw KCurlyBracesOpen; Kw KFunction; TString (s2l "f"); Kw KParenthesesOpen; TVariable (s2l "a"); Kw KParenthesesClose; Kw KCurlyBracesOpen;
   Kw KIf; Kw KParenthesesOpen; TVariable (s2l "a"); Kw KInstanceOf; TString (s2l "B"); Kw KParenthesesClose; Kw KCurlyBracesOpen;
   Kw KReturn; Kw KDoubleQuote; TCes (s2l "x"); TVariable (s2l "a"); Kw KDoubleQuote; Kw KSemiColon; Kw KCurlyBracesClose;
   Kw KElse; Kw KCurlyBracesOpen; Kw KEcho; TVariable (s2l "a"); Kw KEqual; Kw KSemiColon; Kw KCurlyBracesClose; Kw KCurlyBracesClose; Kw KCurlyBracesClose].
Lemma plus_scalar : Forall scalar plus_source.
Proof. repeat constructor. Qed.
Lemma plus_source_tokens : Source plus_source plus_tokens.
Proof. apply (tokens_complete _ _ plus_scalar). apply (run_tokens 200). vm_compute. reflexivity. Qed.
Ltac cut E a := destruct a as [|? a]; cbn [app] in E;
  [first [discriminate E | injection E as E] | first [discriminate E | let X := fresh in injection E as X E; try subst; cut E a]].
Lemma plus_safe : ~ suspect (flat_map visible plus_tokens).
Proof.
  set (ts := flat_map visible plus_tokens). vm_compute in ts. subst ts.
  intros [H|[H|[H|[H|[H|[H|[H|[H|[H|H]]]]]]]]].
  - discriminate H.
  - cbn in H. repeat destruct H as [H|H]; try discriminate H; contradiction.
  - cbn in H. repeat destruct H as [H|H]; try discriminate H; contradiction.
  - destruct H as (a & b & E & H). cut E a; subst b.
    + specialize (H [TVariable (s2l "a"); Kw KParenthesesClose] _ eq_refl). vm_compute in H. lia.
    + specialize (H [TVariable (s2l "a"); Kw KInstanceOf; TString (s2l "B"); Kw KParenthesesClose] _ eq_refl). vm_compute in H. lia.
  - destruct H as (a & r & name & b & E & [->|(s & ->)] & H); destruct r; cbn [app] in E; cut E a. apply H.
    eexists [TVariable (s2l "a")], [mkParam (s2l "a") false false None None], _. split; [|subst b; reflexivity].
    apply params_some, params_one, (param_ [] None false false (s2l "a") [] None); [apply hint_none|apply default_none].
  - destruct H as (a & b & E & (t & I & k & K & ->) & _). cut E a. subst b. cbn in I, K. destruct K as [<-|[<-|[]]]; repeat destruct I as [I|I]; try discriminate I; contradiction.
  - destruct H as (a & b & c & E & _). cut E a. cut E b.
  - destruct H as (a & s & m & b & E & F & H). cut E a. match goal with Y : _ = m ++ b |- _ => clear E; rename Y into E end.
    destruct H as [(c & ->)|(c & -> & _)]; cut E m.
  - destruct H as (a & k & m & b & E & _).
    assert (I : In (Kw KYield) (a ++ Kw k :: m ++ Kw KYield :: b)) by (apply in_or_app; right; right; apply in_or_app; right; left; reflexivity).
    rewrite <- E in I. cbn in I. repeat destruct I as [I|I]; try discriminate I; contradiction.
  - destruct H as (a & k & b & E & K & H). destruct K as [<-|[<-|[]]]; cut E a; subst b; discriminate H.
Qed.
(** ** A source that panics for each of the reasons *)
Definition panicking : list str := map s2l
  [ "<?php "; "<?php $$a;"; "<?php (unset) $a;"; "<?php yield f("; "<?php function f($a {}"; "<?php if (1) {} else {} else {}";
    "<?php $a instanceof B instanceof C;"; "<?php class A { use B { foo as ; } }"; "<?php A::yield();"; "<?php function f() { $x = ""{$b = }"" g('x' 'y'); " ].
Lemma they_panic : Forall (fun src => exists p, parse_str 100 src = DPanic p) panicking.
Proof. repeat constructor; vm_compute; eexists; reflexivity. Qed.
Lemma plus_never : Forall scalar plus_source /\ ~ Unread plus_source Panics /\ forall ts, Source plus_source ts -> ~ suspect (flat_map visible ts).
Proof.
  split; [exact plus_scalar|]. split; [intros U; exact (read_or_unread _ _ _ plus_source_tokens U)|].
  intros ts S. rewrite <- (source_unique _ _ _ plus_source_tokens S). exact plus_safe.
Qed.
