(** * Properties C01, C15, C16, C17, C18, C22, C25, C36 *)
From Verif Require Import Base Tokens Ast AstMap Lexer Parser Printer Driver Spec ParserRel ParserFacts.
From Coq Require Import String.

(** A token list for the examples: [$a = 'x' . f(1);] at offsets 6, 9, ... *)
Definition ex_tokens : list tokspan :=
  [(TVariable (s2l "a"), mk_span 6 8); (Kw KEqual, mk_span 9 10); (TCes (s2l "x"), mk_span 11 14);
   (Kw KDot, mk_span 15 16); (TString (s2l "f"), mk_span 17 18); (Kw KParenthesesOpen, mk_span 18 19);
   (TInt 1, mk_span 19 20); (Kw KParenthesesClose, mk_span 20 21); (Kw KSemiColon, mk_span 21 22)].

(** ** C01 *)
(** The parser never exhausts [parse_fuel], and more fuel never changes the result:
    the unbounded recursion of the code ends with this result. *)
Theorem C01_parser_terminates : forall toks : list tokspan, parse_top toks <> PFuel.
Proof. exact parse_top_total. Qed.
Print Assumptions C01_parser_terminates.
Theorem C01_fuel_is_irrelevant : forall toks f, parse_fuel toks <= f ->
  parse_top_statement_list toks (parse_statement toks f) 0 = parse_top toks.
Proof. exact parse_top_fuel. Qed.
Print Assumptions C01_fuel_is_irrelevant.
Theorem C01_parse_tokens_terminates : forall data end_pos all, parse_tokens data end_pos all <> DFuel.
Proof. exact parse_tokens_total. Qed.
Print Assumptions C01_parse_tokens_terminates.

(** Less fuel does run out, so [PFuel] is not vacuously absent. *)
Example C01_example :
  parse_top_statement_list ex_tokens (parse_statement ex_tokens 3) 0 = PFuel /\
  match parse_top ex_tokens with POk [_] 9 => True | _ => False end.
Proof. split; vm_compute; auto. Qed.

(** ** C16 *)
Theorem C16_positions_do_not_matter : forall toks toks' : list tokspan,
  map fst toks = map fst toks' ->
  Forall2 (fun t t' : tokspan => Nat.min 2 (sp_start (snd t)) = Nat.min 2 (sp_start (snd t'))) toks toks' ->
  same_outcome (parse_top toks) (parse_top toks').
Proof. exact span_independence. Qed.
Print Assumptions C16_positions_do_not_matter.

(** The condition on small offsets cannot be dropped: [\A;] at offsets 1 and 0. *)
Theorem C16_small_offsets_matter : exists toks toks' : list tokspan,
  map fst toks = map fst toks' /\ ~ same_outcome (parse_top toks) (parse_top toks').
Proof.
  exists [(Kw KNsSeparator, mk_span 1 2); (TString (s2l "A"), mk_span 2 3); (Kw KSemiColon, mk_span 3 4)],
         [(Kw KNsSeparator, mk_span 0 1); (TString (s2l "A"), mk_span 0 2); (Kw KSemiColon, mk_span 2 3)].
  split; [reflexivity|]. vm_compute. tauto.
Qed.
Print Assumptions C16_small_offsets_matter.

Definition ex_tokens' : list tokspan := map (fun t => (fst t, mk_span 100 7)) ex_tokens.
Example C16_example :
  map fst ex_tokens = map fst ex_tokens' /\
  Forall2 (fun t t' : tokspan => Nat.min 2 (sp_start (snd t)) = Nat.min 2 (sp_start (snd t'))) ex_tokens ex_tokens' /\
  match parse_top ex_tokens with POk _ 9 => True | _ => False end.
Proof. split; [reflexivity|split; [repeat constructor|vm_compute; auto]]. Qed.

(** ** C15 *)
Theorem C15_comment_tokens_do_not_matter : forall all all' : list tokspan,
  map fst (drop_comments all) = map fst (drop_comments all') ->
  Forall2 (fun t t' : tokspan => Nat.min 2 (sp_start (snd t)) = Nat.min 2 (sp_start (snd t')))
    (drop_comments all) (drop_comments all') ->
  same_outcome (parse_top (filter_tokens all)) (parse_top (filter_tokens all')).
Proof. exact comments_dont_matter. Qed.
Print Assumptions C15_comment_tokens_do_not_matter.
Theorem C15_comments_same_program : forall all all' data data' end_pos end_pos' l show,
  map fst (drop_comments all) = map fst (drop_comments all') ->
  Forall2 (fun t t' : tokspan => Nat.min 2 (sp_start (snd t)) = Nat.min 2 (sp_start (snd t')))
    (drop_comments all) (drop_comments all') ->
  parse_tokens data end_pos all = DOk l ->
  exists l', parse_tokens data' end_pos' all' = DOk l' /\ strip l' = strip l /\
             print_statements show l' = print_statements show l.
Proof. exact comments_same_program. Qed.
Print Assumptions C15_comments_same_program.

Definition ex_comments : list tokspan :=
  flat_map (fun t => [(TComment (s2l "/* ) */"), mk_span 40 50); t]) ex_tokens.
Example C15_example :
  map fst (drop_comments ex_comments) = map fst (drop_comments ex_tokens) /\
  Forall2 (fun t t' : tokspan => Nat.min 2 (sp_start (snd t)) = Nat.min 2 (sp_start (snd t')))
    (drop_comments ex_comments) (drop_comments ex_tokens) /\
  match parse_tokens [0] 60 ex_comments with DOk [_] => True | _ => False end.
Proof. split; [reflexivity|split; [repeat constructor|vm_compute; auto]]. Qed.

(** ** C17 *)
Theorem C17_spans_inside : forall toks n l p,
  (forall t, In t toks -> sp_start (snd t) <= n /\ sp_end (snd t) <= n) ->
  parse_top toks = POk l p ->
  forall sp, In (ASpan sp) (atoms l) ->
    sp_start sp <= n /\ sp_end sp <= n /\
    (sp_doc sp = None \/ exists t, In t toks /\ sp_doc sp = sp_doc (snd t)).
Proof.
  intros toks n l p B E sp I. pose proof (leaves_ok toks n l p B E) as F.
  rewrite Forall_forall in F. apply (F _ I).
Qed.
Print Assumptions C17_spans_inside.

Example C17_example :
  (forall t, In t ex_tokens -> sp_start (snd t) <= 22 /\ sp_end (snd t) <= 22) /\
  match parse_top ex_tokens with POk l _ => In (ASpan (mk_span 11 21)) (atoms l) | _ => False end.
Proof.
  split.
  - intros t H. repeat (destruct H as [<-|H]; [cbn; lia|]). destruct H.
  - vm_compute. tauto.
Qed.

(** ** C18 *)
Theorem C18_leaves_come_from_tokens : forall toks l p,
  parse_top toks = POk l p ->
  forall a, In a (atoms l) ->
  match a with
  | ASpan _ => True
  | AVarName s => In (TVariable s) (map fst toks) \/ name_in toks s
  | AIdent s => name_in toks s
  | APath q => exists abs fragments, fragments <> [] /\ Forall (name_in toks) fragments /\ q = path_of abs fragments
  | AStr s => exists parts, Forall (text_in toks) parts /\ s = List.concat parts
  | ABin _ => False
  | AInt z => In (TInt z) (map fst toks)
  | ADouble d => In (TDouble d) (map fst toks)
  | ACast t => exists k, cast_ty k = Some t
  end.
Proof.
  intros toks l p E a I. destruct (max_span toks) as (n & B).
  pose proof (leaves_ok toks n l p B E) as F. rewrite Forall_forall in F. specialize (F _ I).
  destruct a; cbn in F; auto.
Qed.
Print Assumptions C18_leaves_come_from_tokens.
Theorem C18_integers_non_negative : forall toks l p,
  (forall z, In (TInt z) (map fst toks) -> (0 <= z)%Z) ->
  parse_top toks = POk l p -> forall z, In (AInt z) (atoms l) -> (0 <= z)%Z.
Proof.
  intros toks l p Z E z I. apply Z.
  exact (C18_leaves_come_from_tokens toks l p E _ I).
Qed.
Print Assumptions C18_integers_non_negative.

Example C18_example :
  match parse_top ex_tokens with
  | POk l _ => In (AInt 1) (atoms l) /\ In (AStr (s2l "x")) (atoms l) /\ In (AVarName (s2l "a")) (atoms l) /\
               In (APath (path_of false [s2l "f"])) (atoms l)
  | _ => False
  end.
Proof. vm_compute. tauto. Qed.

(** ** C22 *)
Theorem C22_parsed_programs_print : forall show f code l,
  parse_str f code = DOk l -> exists s, print_statements show l = Some s.
Proof. exact parsed_source_printable. Qed.
Print Assumptions C22_parsed_programs_print.
Theorem C22_parsed_tokens_print : forall show toks l p,
  parse_top toks = POk l p -> exists s, print_statements show l = Some s.
Proof. exact parsed_printable. Qed.
Print Assumptions C22_parsed_tokens_print.
(** The printer itself is partial. *)
Theorem C22_printer_can_panic : forall show b sp sp',
  print_statements show [St (SExpr (Ex (EBinString b) sp)) sp'] = None.
Proof. reflexivity. Qed.
Print Assumptions C22_printer_can_panic.

Example C22_example :
  match parse_str 100 (s2l "<?php $a = 'x' . f(1);") with
  | DOk l => print_statements (fun s => s) l = Some (s2l "$a='x'.(f(1));" ++ [10%N])
  | _ => False
  end.
Proof. vm_compute. reflexivity. Qed.

(** ** C25 *)
Theorem C25_printing_is_compositional : forall show l l',
  print_statements show (l ++ l') =
  match print_statements show l, print_statements show l' with
  | Some x, Some y => Some (x ++ y)
  | _, _ => None
  end.
Proof. exact print_app. Qed.
Print Assumptions C25_printing_is_compositional.
Theorem C25_printing_ignores_positions : forall show l l',
  strip l = strip l' -> print_statements show l = print_statements show l'.
Proof. exact strip_print. Qed.
Print Assumptions C25_printing_ignores_positions.

Example C25_example :
  let s i := St (SEcho [Ex (EInt 1) (mk_span i i)]) (mk_span 0 i) in
  strip [s 1; s 2] = strip [s 3; s 4] /\
  print_statements (fun s => s) [s 1; s 2] =
    Some (s2l "echo 1;" ++ [10%N] ++ s2l "echo 1;" ++ [10%N]).
Proof. split; reflexivity. Qed.

(** ** C36 *)
(** [rename_tokens] renames variables, integers, doubles and the characters of
    strings and HTML; [rename_tree] does the same to a syntax tree. *)
Theorem C36_renaming_commutes : forall fv fz fd g toks,
  (forall c : N, g c <> []) ->
  (forall s, fv s = s) \/ ~ In (Kw KDollarCurlyBracesOpen) (map fst toks) ->
  match parse_top toks, parse_top (rename_tokens fv fz fd g toks) with
  | POk l p, POk l' p' => p = p' /\ strip l' = rename_tree fv fz fd g l
  | PErr e p, PErr e' p' => p = p' /\ e = e'
  | PPanic x, PPanic y => x = y
  | _, _ => False
  end.
Proof.
  intros fv fz fd g toks G D. apply rename_parse; auto.
  destruct D as [D|D]; [left; auto|right]. apply Forall_forall. intros t I E. apply D.
  rewrite <- E. apply in_map. exact I.
Qed.
Print Assumptions C36_renaming_commutes.

(** In [${a}] the name is an identifier token, which is not renamed. *)
Example C36_example :
  (forall c : N, [c; c] <> []) /\ ~ In (Kw KDollarCurlyBracesOpen) (map fst ex_tokens) /\
  match parse_top (rename_tokens (fun s => 95%N :: s) (fun z => z + 41)%Z (fun d => d) (fun c => [c; c]) ex_tokens) with
  | POk l _ => print_statements (fun s => s) l = Some (s2l "$_a='xx'.(f(42));" ++ [10%N])
  | _ => False
  end.
Proof.
  split; [discriminate|split].
  - cbn. intuition discriminate.
  - vm_compute. reflexivity.
Qed.
