(** * Property C43: the rules of SpecText.v cover every source *)
From Verif Require Import Base Tokens Ast Lexer Parser Driver Spec SpecMixed SpecText SpecUnread TextTotal TextEx UnreadEx CompleteEx.
From Coq Require Import String.
Local Open Scope string_scope. Local Open Scope list_scope.

(** Every source has tokens by the rules, or a fate by the rules *)
Theorem C43_total : forall src, Forall scalar src -> (exists ts, Source src ts) \/ exists x, Unread src x.
Proof. exact source_total. Qed.
Print Assumptions C43_total.
Example C43_total_example : lost_code = s2l "<?php ""{$" ++ [8364%N] ++ s2l """;" /\ Forall scalar lost_code /\
  Source lost_code [Kw KOpenTag; Kw KDoubleQuote; TCes (s2l "$" ++ [8364%N]); Kw KDoubleQuote; Kw KSemiColon].
Proof. split; [reflexivity|]. split; [repeat constructor; reflexivity|exact lost_code_derived]. Qed.

(** The tokenizer reads these tokens and no others *)
Theorem C43_tokens : forall src ts, Forall scalar src -> (tokens_of src ts <-> Source src ts).
Proof. exact tokens_complete. Qed.
Print Assumptions C43_tokens.
Example C43_tokens_example : short_source = s2l "a<? $a->->if `b`" /\ Forall scalar short_source /\
  Source short_source [TInlineHtml (s2l "a"); Kw KOpenTag; TVariable (s2l "a"); Kw KObjectOp; Kw KObjectOp; TString (s2l "if"); Kw KBackquote; TCes (s2l "b"); Kw KBackquote].
Proof. split; [reflexivity|]. split; [repeat constructor; reflexivity|exact short_derived]. Qed.

(** A run never ends only if the rules say so *)
Theorem C43_hangs : forall src, Forall scalar src -> ((forall f, parse_str f src = DFuel) <-> Unread src Hangs).
Proof. exact hangs_complete. Qed.
Print Assumptions C43_hangs.
Example C43_hangs_example : Forall scalar hang_source /\ Unread hang_source Hangs.
Proof. split; [repeat constructor; reflexivity|exact hang_unread]. Qed.

(** Nor does the tokenizer panic for any other reason *)
Theorem C43_panics : forall src f p, Forall scalar src -> tokenize f src = DPanic p -> Unread src Panics.
Proof. exact panics_complete. Qed.
Print Assumptions C43_panics.
Example C43_panics_example : Forall scalar index_source /\ exists p, tokenize 100 index_source = DPanic p.
Proof. split; [repeat constructor; reflexivity|]. eexists. vm_compute. reflexivity. Qed.

(** Nor does it report anything else *)
Theorem C43_reports : forall src f e x, Forall scalar src -> parse_str f src = DErr e -> se_syntax e = Some x ->
  exists c from len, Unread src (Reports c from len) /\ se_start e = blen src - blen from /\ se_end e = se_start e + len /\ x = complaint_error c (se_start e) (se_end e).
Proof. exact reports_complete. Qed.
Print Assumptions C43_reports.
Example C43_reports_example : Forall scalar open_source /\ exists e x, parse_str 100 open_source = DErr e /\ se_syntax e = Some x.
Proof. split; [repeat constructor; reflexivity|]. eexists. eexists. split; vm_compute; reflexivity. Qed.
