(** * Property C03: sources that panic, and sources that do not *)
From Verif Require Import Base Tokens Ast AstMap Lexer Parser Printer Driver Spec SpecProg SpecRT SpecMixed SpecCtl SpecCrash LexMono Mixed Crash.
From Coq Require Import String.
Local Open Scope string_scope. Local Open Scope list_scope.

Definition id_sf : str -> str := fun s => s.
Definition nl3 : str := [10%N].
Definition ex_one : expr := Ex (EInt 1) span_new.
Definition ex_echo : stmt := St (SEcho [ex_one]) span_new.
Definition ex_ps : list block_part := [PBlank (s2l " "); PStmts [ex_echo] (s2l "echo 1;" ++ nl3)].
Lemma ex_ps_ok : Forall (part_ok id_sf) ex_ps.
Proof. constructor; [reflexivity|]. constructor; [split; reflexivity|constructor]. Qed.
Lemma ex_written : written id_sf ex_one (s2l "1").
Proof. split; reflexivity. Qed.
Lemma ex_stmts : stmts_written id_sf [ex_echo] (s2l "echo 1;" ++ nl3).
Proof. split; reflexivity. Qed.
Definition ex_place : str := (s2l "while" ++ s2l " (" ++ s2l "1" ++ s2l ") {" ++ (s2l "echo 1;" ++ nl3) ++ []) ++ s2l "echo " ++ s2l "f" ++ s2l "(" ++ s2l "(" ++ s2l "1" ++ s2l ") " ++ s2l "*" ++ s2l " (" ++ [].
Lemma ex_body : before_stmt id_sf 1 (s2l "while" ++ s2l " (" ++ s2l "1" ++ s2l ") {" ++ (s2l "echo 1;" ++ nl3) ++ []).
Proof. eapply in_body; [cbn; auto|exact ex_written|exact ex_stmts|constructor]. Qed.
Lemma ex_before : before id_sf 1 ex_place.
Proof.
  exists (s2l "while" ++ s2l " (" ++ s2l "1" ++ s2l ") {" ++ (s2l "echo 1;" ++ nl3) ++ []), "echo ", (s2l "f" ++ s2l "(" ++ s2l "(" ++ s2l "1" ++ s2l ") " ++ s2l "*" ++ s2l " (" ++ []).
  split; [reflexivity|]. split; [exact ex_body|]. split; [cbn; auto|].
  apply in_call; [reflexivity|]. apply (in_operand id_sf ex_one (s2l "1") (mkBinop "*" OMul 14 false) []); [exact ex_written|cbn; auto 30|constructor].
Qed.

(** ** The tokenizer panics *)
(** A number above the largest one, a number with a leading zero and a digit 8 or 9, or a
    point at the very end, at any place where an expression may stand: inside any nesting
    of blocks, bodies, calls, operators, assignments, arrays and parentheses, behind any
    statements, whatever follows. *)
Theorem C03_tokenizer_panics : forall sf ps n l r, Forall (part_ok sf) ps -> before sf n l -> unreadable r ->
  panics (s2l "<?php" ++ flat_map part_text ps ++ l ++ r).
Proof. exact token_panics. Qed.
Print Assumptions C03_tokenizer_panics.
Example C03_tokenizer_example : Forall (part_ok id_sf) ex_ps /\ before id_sf 1 ex_place /\ unreadable (s2l "9223372036854775808); }") /\
  unreadable (s2l "0178);") /\
  s2l "<?php" ++ flat_map part_text ex_ps ++ ex_place ++ s2l "9223372036854775808); }" =
  s2l "<?php echo 1;" ++ nl3 ++ s2l "while (1) {echo 1;" ++ nl3 ++ s2l "echo f((1) * (9223372036854775808); }".
Proof.
  split; [exact ex_ps_ok|]. split; [exact ex_before|]. split; [|split; [|reflexivity]].
  - left. exists 9223372036854775808%N, (s2l "); }"). repeat split.
  - right. left. exists [1; 7; 8]%N, (s2l ");"). split; [reflexivity|]. split; [repeat constructor|]. split; [|split; reflexivity].
    apply Exists_cons_tl, Exists_cons_tl, Exists_cons_hd. discriminate.
Qed.
(** A closing brace without an open one, whatever follows *)
Theorem C03_stray_brace_panics : forall sf ps r, Forall (part_ok sf) ps ->
  panics (s2l "<?php" ++ flat_map part_text ps ++ s2l "}" ++ r).
Proof. exact brace_panics. Qed.
Print Assumptions C03_stray_brace_panics.
Example C03_stray_brace_example : Forall (part_ok id_sf) ex_ps /\
  s2l "<?php" ++ flat_map part_text ex_ps ++ s2l "}" ++ s2l " $a" = s2l "<?php echo 1;" ++ nl3 ++ s2l "} $a".
Proof. split; [exact ex_ps_ok|reflexivity]. Qed.

(** ** The parser panics *)
(** A variable variable, a cast to unset, or a second instanceof, at any place where an
    expression may stand, and however the program goes on *)
Theorem C03_parser_panics : forall sf ps n l x c r, Forall (part_ok sf) ps -> before sf n l -> unexpected sf x ->
  In c [")"; "]"; ";"] -> rest_of sf n r ->
  panics (s2l "<?php" ++ flat_map part_text ps ++ l ++ x ++ s2l c ++ r).
Proof. exact parser_panics. Qed.
Print Assumptions C03_parser_panics.
Example C03_parser_example : Forall (part_ok id_sf) ex_ps /\ before id_sf 1 ex_place /\
  unexpected id_sf (s2l "$$v") /\ unexpected id_sf (s2l "(unset) $v") /\ unexpected id_sf (s2l "(1) instanceof A instanceof B") /\
  In ")" [")"; "]"; ";"] /\ rest_of id_sf 1 (s2l ")" ++ s2l ";" ++ s2l "}" ++ []) /\
  s2l "<?php" ++ flat_map part_text ex_ps ++ ex_place ++ s2l "$$v" ++ s2l ")" ++ s2l ")" ++ s2l ";" ++ s2l "}" ++ [] =
  s2l "<?php echo 1;" ++ nl3 ++ s2l "while (1) {echo 1;" ++ nl3 ++ s2l "echo f((1) * ($$v));}".
Proof.
  split; [exact ex_ps_ok|]. split; [exact ex_before|]. split; [|split; [|split; [|split; [|split; [|reflexivity]]]]].
  - left. exists (s2l "v"). split; reflexivity.
  - right. left. exists (s2l "v"). split; reflexivity.
  - right. right. exists ex_one, (s2l "1"), (s2l "A"), (s2l "B"). split; [exact ex_written|repeat split].
  - cbn; auto.
  - apply (rest_close id_sf 1 ")"); [cbn; auto|]. apply (rest_close id_sf 1 ";"); [cbn; auto|]. apply rest_close_brace. constructor.
Qed.
(** An if where an else is followed by a further elseif or else *)
Theorem C03_else_panics : forall sf ps n k e t b tb l r, Forall (part_ok sf) ps -> before_stmt sf n k ->
  written sf e t -> stmts_written sf b tb -> Forall (arm_ok sf) l -> misplaced_else l -> rest_of sf n r ->
  panics (s2l "<?php" ++ flat_map part_text ps ++ k ++ s2l "if (" ++ t ++ s2l ") {" ++ tb ++ s2l "}" ++ flat_map arm_text l ++ r).
Proof. exact else_panics. Qed.
Print Assumptions C03_else_panics.
Definition ex_arms : list arm := [mkArm (Some (ex_one, s2l "1")) [] []; mkArm None [ex_echo] (s2l "echo 1;" ++ nl3); mkArm None [] []].
Example C03_else_example : before_stmt id_sf 1 (s2l "while" ++ s2l " (" ++ s2l "1" ++ s2l ") {" ++ (s2l "echo 1;" ++ nl3) ++ []) /\
  Forall (arm_ok id_sf) ex_arms /\ misplaced_else ex_arms /\ rest_of id_sf 1 (s2l "}" ++ []) /\
  s2l "if (" ++ s2l "1" ++ s2l ") {" ++ [] ++ s2l "}" ++ flat_map arm_text ex_arms =
  s2l "if (1) {} elseif (1) {} else {echo 1;" ++ nl3 ++ s2l "} else {}".
Proof.
  split; [exact ex_body|]. split; [|split; [|split; [|reflexivity]]].
  - repeat constructor.
  - exists [mkArm (Some (ex_one, s2l "1")) [] []], (mkArm None [ex_echo] (s2l "echo 1;" ++ nl3)), [mkArm None [] []]. repeat split. discriminate.
  - apply rest_close_brace. constructor.
Qed.
(** Sources without any statement: empty ones, or only tags, white space and comments *)
Theorem C03_empty_panics : forall sf cs last, source_ok sf cs last -> meaning cs last = [] -> panics (source cs last).
Proof. exact empty_panics. Qed.
Print Assumptions C03_empty_panics.
Lemma no_close_x : no_close (s2l " b ").
Proof. intros a b E. repeat (destruct a as [|? a]; [discriminate E|cbn in E; injection E as _ E]). destruct a; discriminate E. Qed.
Example C03_empty_example : source_ok id_sf [CPhp [PBlank nl3; PComment (CBlock (s2l " b "))]; CPhp []] (Some [PBlank nl3]) /\
  meaning [CPhp [PBlank nl3; PComment (CBlock (s2l " b "))]; CPhp []] (Some [PBlank nl3]) = [] /\
  source [CPhp [PBlank nl3; PComment (CBlock (s2l " b "))]; CPhp []] (Some [PBlank nl3]) =
    s2l "<?php" ++ nl3 ++ s2l "/* b */?><?php?><?php" ++ nl3 /\
  source_ok id_sf [] None /\ source [] None = [].
Proof. split; [|split; [reflexivity|split; [reflexivity|split; [repeat constructor|reflexivity]]]]. split; [|split; [exact I|repeat constructor]].
  constructor; [|repeat constructor]. constructor; [reflexivity|]. constructor; [|constructor]. repeat split; try discriminate; apply no_close_x. Qed.

(** ** So arbitrary input is not safe *)
Theorem C03_never_panics_refuted : exists src, panics src.
Proof. exists (source [] None). apply (empty_panics (fun s => s)); [repeat constructor|reflexivity]. Qed.
Print Assumptions C03_never_panics_refuted.

(** ** Where it is safe *)
(** Sources of HTML, statements of the round-trip class, comments and white space, with at
    least one statement or some HTML: no panic, however many steps are allowed *)
Theorem C03_safe : forall sf cs last, source_ok sf cs last -> meaning cs last <> [] ->
  forall f p, parse_str f (source cs last) <> DPanic p.
Proof. exact safe_sources. Qed.
Print Assumptions C03_safe.
Example C03_safe_example : source_ok id_sf [CPhp ex_ps] None /\ meaning [CPhp ex_ps] None <> [] /\
  source [CPhp ex_ps] None = s2l "<?php echo 1;" ++ nl3 ++ s2l "?>".
Proof. split; [|split; [discriminate|reflexivity]]. split; [constructor; [exact ex_ps_ok|constructor]|split; exact I]. Qed.
