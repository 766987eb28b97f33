(** * Properties of whole tokenizer and parser runs *)
From Verif Require Import Base Tokens Ast Lexer Parser Driver Spec SpecRun LexTotal.
From Coq Require Import String.
Local Open Scope string_scope.
Local Open Scope list_scope.

(** ** C02 *)
(** Without brace interpolation every run comes back, and the amount of fuel is explicit
    and makes no difference once it is reached. *)
Theorem C02_terminates : forall src f, no_braces src -> 2 * blen src + 3 <= f ->
  parse_str f src <> DFuel /\ parse_str f src = parse_str (2 * blen src + 3) src.
Proof. exact (fun src f N L => conj (terminates src f N L) (terminates_same src f N L)). Qed.
Print Assumptions C02_terminates.
Theorem C02_tokenizer_terminates : forall src f, no_braces src -> 2 * blen src + 3 <= f -> tokenize f src <> DFuel.
Proof. exact tokenizer_terminates. Qed.
Print Assumptions C02_tokenizer_terminates.
(** With it there is a source on which no amount of fuel suffices. *)
Theorem C02_braces_refuted : exists src, forall f, parse_str f src = DFuel.
Proof. exact (ex_intro _ hang hangs). Qed.
Print Assumptions C02_braces_refuted.
Definition c02_source : str := s2l "<?php echo ""a $b->c {d"", f(1);".
Example C02_example : no_braces c02_source /\ parse_str 7 c02_source = DFuel /\
  exists l, parse_str (2 * blen c02_source + 3) c02_source = DOk l.
Proof.
  split; [split; apply find_sub_none; reflexivity|]. split; [vm_compute; reflexivity|]. eexists. vm_compute. reflexivity.
Qed.

(** ** C06 *)
Theorem C06_line_table : forall code s, reached code s ->
  nth_error (lines s) 0 = Some 0 /\ nondecreasing (lines s) /\ List.length (lines s) = line_num s /\
  forall d, In d (lines s) -> d <= blen code /\ passed code s d.
Proof. exact line_table. Qed.
Print Assumptions C06_line_table.
(** Looking up any position finds a line, and its range lies in the source. *)
Theorem C06_lookup : forall code s pos, reached code s ->
  exists line a b, line_from_position (lines s) pos = Some line /\ line < line_num s /\
    line_range (lines s) (blen code) line = Some (a, b) /\ a <= b <= blen code /\ a <= pos /\
    (pos < b \/ b = blen code).
Proof. exact lookup_works. Qed.
Print Assumptions C06_lookup.
(** Two lines and a heredoc: the line behind its end is entered before the position gets
    there, and once more afterwards. *)
Definition c06_source : str := s2l "<?php
<<<A
b
A
;".
Fixpoint calls (n : nat) (code : str) (s : tst) : tst :=
  match n with O => s | S n' => match next_token code 30 s with TOk _ s' | TErr _ s' => calls n' code s' | _ => s end end.
Example C06_example : reached c06_source (calls 2 c06_source tst_init) /\
  lines (calls 2 c06_source tst_init) = [0; 6; 11; 13; 15] /\ src_pos (calls 2 c06_source tst_init) = 14 /\
  lines (calls 5 c06_source tst_init) = [0; 6; 11; 13; 15; 15].
Proof.
  split; [|vm_compute; auto].
  assert (X : forall n s, reached c06_source s -> reached c06_source (calls n c06_source s)).
  { induction n as [|n IH]; intros s R; [exact R|]. cbn [calls]. destruct (next_token c06_source 30 s) as [t s'|e s'|p|] eqn:E; auto; apply IH; [eapply reached_token|eapply reached_error]; eauto. }
  apply X, reached_start.
Qed.

(** ** C23 *)
Theorem C23_located : forall f src e, parse_str f src = DErr e -> located src e.
Proof. exact error_located. Qed.
Print Assumptions C23_located.
(** What cannot be said: the start need not come before the end, and then the line is
    not the one of the error and printing the message panics. *)
Theorem C23_ordered_refuted : exists f src e, parse_str f src = DErr e /\
  se_end e < se_start e /\ se_line_end e < se_start e /\ error_snippet e src = inr POverflow.
Proof. exact misplaced_error. Qed.
Print Assumptions C23_ordered_refuted.
Example C23_example : exists e, parse_str 60 (s2l "<?php echo 1
 , ]") = DErr e /\ (se_start e, se_end e, se_line e, se_line_start e, se_line_end e) = (16, 17, 1, 13, 17).
Proof. eexists. split; vm_compute; reflexivity. Qed.
