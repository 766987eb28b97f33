(** * Properties C14, C31: double-quoted strings *)
From Verif Require Import Base Tokens Ast AstMap Spec SpecInterp Interp.
From Coq Require Import String.
Local Open Scope string_scope. Local Open Scope list_scope.

(** ** C14 *)
(** any mixture of characters, escapes and bytes in hexadecimal that is the UTF-8 of a text *)
Theorem C14_decodes : forall ps s, dq_ok ps (s2l """;") = true -> forallb no_ref ps = true -> Forall scalar s -> flat_map dq_bytes ps = encode s ->
  parses_to (s2l "<?php echo """ ++ dq_text ps ++ s2l """;") [St (SEcho [the_string s]) span_new].
Proof. exact decoded. Qed.
Print Assumptions C14_decodes.
(** without hexadecimal bytes: always *)
Theorem C14_simple : forall ps, dq_ok ps (s2l """;") = true -> forallb simple ps = true -> Forall scalar (flat_map dq_text1 ps) ->
  parses_to (s2l "<?php echo """ ++ dq_text ps ++ s2l """;") [St (SEcho [the_string (flat_map dq_chars ps)]) span_new].
Proof. exact decoded_simple. Qed.
Print Assumptions C14_simple.

Definition d_text : list dq_piece := [DqChar 97; DqEsc 110; DqEsc 36; DqChar 39; DqEsc 92; DqEsc 34; DqEsc 113; DqChar 8364; DqEsc 8364]%N.
Example C14_example : dq_ok d_text (s2l """;") = true /\ forallb simple d_text = true /\ Forall scalar (flat_map dq_text1 d_text) /\
  dq_text d_text = s2l "a\n\$'\\\""\q" ++ [8364%N] ++ s2l "\" ++ [8364%N] /\
  flat_map dq_chars d_text = [97; 10; 36; 39; 92; 34; 92; 113; 8364; 92; 8364]%N.
Proof. split; [reflexivity|]. split; [reflexivity|]. split; [repeat (constructor; [left; reflexivity|]); constructor|]. split; reflexivity. Qed.
(** e with acute accent, byte by byte *)
Example C14_hex_example : dq_ok [DqHex false 12 3; DqHex false 10 9] (s2l """;") = true /\
  flat_map dq_bytes [DqHex false 12 3; DqHex false 10 9] = encode [233%N] /\
  dq_text [DqHex false 12 3; DqHex false 10 9] = s2l "\xc3\xa9".
Proof. repeat split. Qed.

(** ** C31 *)
Theorem C31_interpolation : forall ps e es, dq_ok ps (s2l """;") = true -> Forall2 part_means (dq_parts ps) (e :: es) ->
  parses_to (s2l "<?php echo """ ++ dq_text ps ++ s2l """;") [St (SEcho [joined e es]) span_new].
Proof. exact interpolated. Qed.
Print Assumptions C31_interpolation.

Definition d_inter : list dq_piece := [DqChar 97; DqVar (s2l "x"); DqVar (s2l "y"); DqChar 45; DqEsc 110; DqProp (s2l "o") (s2l "p"); DqChar 46].
Example C31_example : dq_ok d_inter (s2l """;") = true /\ dq_text d_inter = s2l "a$x$y-\n$o->p." /\
  Forall2 part_means (dq_parts d_inter) [the_string (s2l "a"); the_variable (s2l "x"); the_variable (s2l "y"); the_string [45; 10]%N; the_property (s2l "o") (s2l "p"); the_string (s2l ".")] /\
  joined (the_string (s2l "a")) [the_variable (s2l "x"); the_string (s2l ".")] =
    Ex (EBinary OConcat (the_string (s2l "a")) (Ex (EBinary OConcat (the_variable (s2l "x")) (the_string (s2l "."))) span_new)) span_new.
Proof.
  split; [reflexivity|]. split; [reflexivity|]. split; [|reflexivity].
  assert (M : forall s, Forall (fun c => (c < 128)%N) s -> part_means (DqLit (encode s)) (the_string s)).
  { intros s F. constructor. eapply Forall_impl; [|exact F]. intros c C. left. apply (N.lt_trans _ _ _ C). reflexivity. }
  repeat (apply Forall2_cons; [first [apply means_var | apply means_prop | match goal with |- part_means _ (the_string ?s) => apply (M s); repeat constructor end]|]). constructor.
Qed.
