(** * Property C34: malformed programs that are accepted *)
From Verif Require Import Base Tokens Ast AstMap Printer Spec SpecProg SpecRT SpecCtl SpecBad Bad.
From Coq Require Import String.
Local Open Scope string_scope. Local Open Scope list_scope.

(** ** C34 *)
(** operators without a right side: each of them and the expression's parentheses are dropped *)
Theorem C34_dangling_operators_accepted : forall sf e t ops, written sf e t -> Forall (fun b => In b binops) ops -> ops <> [] ->
  parses_to (s2l "<?php " ++ dangling t ops ++ s2l ";") [St (SExpr e) span_new].
Proof. exact dangling_parses. Qed.
Print Assumptions C34_dangling_operators_accepted.
(** any number of parentheses that are never closed: they and what is in them is dropped *)
Theorem C34_unclosed_parentheses_accepted : forall sf e t b n o t', written sf e t -> In b binops -> inner sf o t' -> 0 < n ->
  parses_to (s2l "<?php " ++ s2l "(" ++ t ++ s2l ") " ++ s2l (bo_text b) ++ s2l " " ++ opened n t' ++ s2l ";") [St (SExpr e) span_new].
Proof. exact opened_parses. Qed.
Print Assumptions C34_unclosed_parentheses_accepted.
(** the value of a return is dropped when its parentheses are not closed; also the depth of a break or continue *)
Theorem C34_unclosed_return_accepted : forall sf w f n o t,
  (w, f) = ("return", SReturn) \/ (w, f) = ("continue", SContinue) \/ (w, f) = ("break", SBreak) ->
  inner sf o t -> 0 < n -> parses_to (s2l "<?php " ++ s2l w ++ s2l " " ++ opened n t ++ s2l ";") [St (f None) span_new].
Proof. exact return_parses_any. Qed.
Print Assumptions C34_unclosed_return_accepted.
(** a conditional expression without its last part *)
Theorem C34_half_ternary_accepted : forall sf e t th tth (colon : bool), written sf e t -> written sf th tth ->
  parses_to (s2l "<?php " ++ s2l "(" ++ t ++ s2l ") ? (" ++ tth ++ s2l (if colon then ") : ;" else ");")) [St (SExpr e) span_new].
Proof. exact ternary_parses. Qed.
Print Assumptions C34_half_ternary_accepted.
(** an index that is never closed *)
Theorem C34_unclosed_index_accepted : forall sf e t o t', written sf e t -> inner sf o t' ->
  parses_to (s2l "<?php " ++ s2l "(" ++ t ++ s2l ")[" ++ t' ++ s2l ";") [St (SExpr e) span_new].
Proof. exact index_parses. Qed.
Print Assumptions C34_unclosed_index_accepted.
(** a class that has neither name nor body, before a statement *)
Theorem C34_stray_class_accepted : forall sf w e t, In w class_words -> written sf e t ->
  parses_to (s2l "<?php " ++ s2l w ++ s2l " echo " ++ t ++ s2l ";") [St (SEcho [e]) span_new].
Proof. exact word_parses. Qed.
Print Assumptions C34_stray_class_accepted.
(** modifiers of a class, before a statement *)
Theorem C34_stray_modifiers_accepted : forall sf ws e t, ws <> [] -> Forall (fun w => In w modifier_words) ws -> written sf e t ->
  parses_to (s2l "<?php " ++ flat_map (fun w => s2l w ++ s2l " ") ws ++ s2l "echo " ++ t ++ s2l ";") [St (SEcho [e]) span_new].
Proof. exact mods_parses. Qed.
Print Assumptions C34_stray_modifiers_accepted.
(** so no bound on the number of parentheses left open makes the parser refuse a source *)
Theorem C34_balance_refuted : forall n, 0 < n -> exists src l, parses_to src l /\ count_char 40 src = count_char 41 src + n.
Proof. exact unbalanced_parses. Qed.
Print Assumptions C34_balance_refuted.

Definition b_var (s : string) : expr := Ex (EVar (VName (s2l s))) span_new.
Definition b_int (z : Z) : expr := Ex (EInt z) span_new.
Definition b_sum : expr := Ex (EBinary OAdd (b_var "a") (b_int 1)) span_new.
Definition b_mul : binop := mkBinop "*" OMul 14 false.
Definition b_add : binop := mkBinop "+" OAdd 13 false.
Example C34_example : forall sf, written sf (b_var "a") (s2l "$a") /\ written sf b_sum (s2l "$a+1") /\
  In b_mul binops /\ In b_add binops /\
  dangling (s2l "$a") [b_mul; b_add] = s2l "(($a) * ) + " /\ opened 2 (s2l "$a+1") = s2l "(($a+1" /\
  inner sf None [] /\ inner sf (Some b_sum) (s2l "$a+1").
Proof. intros sf. repeat split; cbn; auto 30. Qed.
(** the theorems on sources one can read *)
Example C34_seen : parses_to (s2l "<?php (($a) * ) + ;") [St (SExpr (b_var "a")) span_new] /\
  parses_to (s2l "<?php ($a) * (($a+1;") [St (SExpr (b_var "a")) span_new] /\
  parses_to (s2l "<?php return (($a+1;") [St (SReturn None) span_new] /\
  parses_to (s2l "<?php ($a) ? ($a+1);") [St (SExpr (b_var "a")) span_new] /\
  parses_to (s2l "<?php ($a) ? ($a+1) : ;") [St (SExpr (b_var "a")) span_new] /\
  parses_to (s2l "<?php ($a)[$a+1;") [St (SExpr (b_var "a")) span_new] /\
  parses_to (s2l "<?php ($a)[;") [St (SExpr (b_var "a")) span_new] /\
  parses_to (s2l "<?php trait echo $a;") [St (SEcho [b_var "a"]) span_new] /\
  parses_to (s2l "<?php final abstract final echo $a;") [St (SEcho [b_var "a"]) span_new].
Proof.
  destruct (C34_example (fun s => s)) as (A & B & M & P & _ & _ & N & I).
  split; [apply (C34_dangling_operators_accepted (fun s => s) _ (s2l "$a") [b_mul; b_add] A); [constructor; [exact M|constructor; [exact P|constructor]]|discriminate]|].
  split; [apply (C34_unclosed_parentheses_accepted (fun s => s) _ (s2l "$a") b_mul 2 _ _ A M I); lia|].
  split; [apply (C34_unclosed_return_accepted (fun s => s) "return" SReturn 2 _ _ (or_introl eq_refl) I); lia|].
  split; [apply (C34_half_ternary_accepted (fun s => s) _ (s2l "$a") _ (s2l "$a+1") false A B)|].
  split; [apply (C34_half_ternary_accepted (fun s => s) _ (s2l "$a") _ (s2l "$a+1") true A B)|].
  split; [apply (C34_unclosed_index_accepted (fun s => s) _ (s2l "$a") _ (s2l "$a+1") A I)|].
  split; [apply (C34_unclosed_index_accepted (fun s => s) _ (s2l "$a") None [] A N)|].
  split; [apply (C34_stray_class_accepted (fun s => s) "trait" _ (s2l "$a")); [cbn; auto|exact A]|].
  apply (C34_stray_modifiers_accepted (fun s => s) ["final"; "abstract"; "final"] _ (s2l "$a")); [discriminate|repeat (apply Forall_cons || apply Forall_nil); cbn; auto|exact A].
Qed.
