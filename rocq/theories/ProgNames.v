(** * ProgNames: qualified names (C30) *)
From Verif Require Import Base Tokens Ast AstMap Lexer Parser Printer Driver Spec SpecProg SmallFacts ParserRel ParserFacts LexBase LexTok LexWords LexRun ParseRun ParseTac ParseExpr ParseStmt ParseDecl Emit.
From Coq Require Import String.

Lemma plain_word_facts w : plain_word w = true -> Spec.identifier w = true /\ word_token w = TString w /\ w <> s2l "yield" /\ w <> s2l "yieldfrom".
Proof.
  unfold plain_word. intros H. apply andb_prop in H. destruct H as [H H4]. apply andb_prop in H. destruct H as [H H3]. apply andb_prop in H. destruct H as [H1 H2].
  split; [exact H1|]. split.
  - unfold word_token. destruct (find _ _) as [[x k]|] eqn:E; [|reflexivity]. exfalso. destruct (List.find_some _ _ E) as [I X].
    destruct (existsb _ _) eqn:B; [discriminate|]. assert (T : existsb (fun p : string * kind => str_eqb (s2l (fst p)) w) keywords = true); [|congruence].
    apply existsb_exists. eauto.
  - split; intros ->; vm_compute in H3, H4; discriminate.
Qed.
Lemma seen_plain st w r vs : plain_word w = true -> follows r = true -> seen LInScripting st r vs -> seen LInScripting st (w ++ r) (TString w :: vs).
Proof. intros P F R. destruct (plain_word_facts w P) as (I & T & Y1 & Y2). rewrite <- T. apply seen_word; auto. Qed.
Lemma seen_joined st fs r vs : fs <> [] -> forallb plain_word fs = true -> follows r = true -> seen LInScripting st r vs ->
  seen LInScripting st (joined fs ++ r) (frag_tokens fs ++ vs).
Proof.
  intros NE P F R. induction fs as [|a fs IH]; [congruence|]. cbn in P. apply andb_prop in P. destruct P as [P1 P2].
  destruct fs as [|b fs]; [apply seen_plain; auto|].
  change (joined (a :: b :: fs)) with (a ++ s2l "\" ++ joined (b :: fs)).
  change (frag_tokens (a :: b :: fs) ++ vs) with (TString a :: Kw KNsSeparator :: frag_tokens (b :: fs) ++ vs).
  rewrite <- !app_assoc. apply seen_plain; auto. apply (seen_op st "\" KNsSeparator); auto; [|apply IH; auto; discriminate].
  set (z := joined (b :: fs) ++ r). destruct z; reflexivity.
Qed.
Lemma seen_name st abs fs r vs : fs <> [] -> forallb plain_word fs = true -> follows r = true -> seen LInScripting st r vs ->
  seen LInScripting st (name_text abs fs ++ r) (path_toks abs fs ++ vs).
Proof.
  intros NE P F R. unfold name_text, path_toks. destruct abs; cbn [abs_tokens app]; [|apply seen_joined; auto].
  apply (seen_op st "\" KNsSeparator (joined fs ++ r)); auto; [|apply seen_joined; auto]. set (z := joined fs ++ r). destruct z; reflexivity.
Qed.
Lemma joined_ns fs : joined fs = join_ns fs.
Proof. reflexivity. Qed.
Lemma removelast_snoc {A} (l : list A) a : removelast (l ++ [a]) = l.
Proof. induction l as [|b l IH]; auto. cbn [app removelast]. rewrite IH. destruct l; reflexivity. Qed.
Lemma name_path_of abs ns a : path_of abs (ns ++ [a]) = name_path abs ns a.
Proof.
  unfold path_of, name_path. rewrite removelast_snoc, last_last. destruct ns; auto.
Qed.
Lemma joined_snoc ns a : ns <> [] -> joined (ns ++ [a]) = joined ns ++ s2l "\" ++ a.
Proof.
  intros NE. induction ns as [|b [|c ns] IH]; [congruence|reflexivity|].
  change (joined ((b :: c :: ns) ++ [a])) with (b ++ s2l "\" ++ joined ((c :: ns) ++ [a])).
  change (joined (b :: c :: ns)) with (b ++ s2l "\" ++ joined (c :: ns)).
  rewrite IH by discriminate. rewrite <- !app_assoc. reflexivity.
Qed.
Lemma render_app a b x y : render a = Some x -> render b = Some y -> render (a ++ b) = Some (x ++ y).
Proof.
  revert x. induction a as [|[s|] a IH]; cbn; intros x A B; [injection A as <-; exact B| |discriminate].
  destruct (render a) as [z|]; [|discriminate]. injection A as <-. rewrite (IH z eq_refl B), app_assoc. reflexivity.
Qed.
Lemma name_prints abs ns a : render (pr_path (name_path abs ns a)) = Some (name_text abs (ns ++ [a])).
Proof.
  unfold pr_path, name_path, name_text. cbn [is_absolute namespace Ast.identifier].
  assert (X : render ((match (match ns with [] => None | _ :: _ => Some (joined ns) end) with Some ns0 => w ns0 ++ t "\" | None => [] end) ++ w a) = Some (joined (ns ++ [a]))).
  { destruct ns as [|b ns]; [cbn; rewrite app_nil_r; reflexivity|]. rewrite joined_snoc by discriminate. cbn. rewrite app_nil_r. reflexivity. }
  destruct abs; cbn [app]; [|exact X]. apply (render_app (t "\")); [reflexivity|exact X].
Qed.
Lemma no_const abs ns a : ns <> [] \/ const_name a = None -> resolve_constant (Ex (EPath (name_path abs ns a)) span_new) = Ex (EPath (name_path abs ns a)) span_new.
Proof.
  unfold resolve_constant, name_path, const_name. cbn [namespace Ast.identifier]. destruct ns; [|reflexivity]. intros [?|H]; [congruence|].
  destruct (str_eqb _ (s2l "true")); [discriminate|]. destruct (str_eqb _ (s2l "false")); [discriminate|]. destruct (str_eqb _ (s2l "null")); [discriminate|]. reflexivity.
Qed.
Lemma is_const abs a c : const_name a = Some c -> resolve_constant (Ex (EPath (name_path abs [] a)) span_new) = Ex (EConst c) span_new.
Proof.
  unfold resolve_constant, name_path, const_name. cbn [namespace Ast.identifier].
  destruct (str_eqb _ (s2l "true")); [congruence|]. destruct (str_eqb _ (s2l "false")); [congruence|]. destruct (str_eqb _ (s2l "null")); congruence.
Qed.
Lemma name_start abs fs : fs <> [] -> stm_expr_head (path_toks abs fs).
Proof.
  intros NE. destruct (path_head abs fs NE) as (t & r & -> & T). destruct t as [k| | | | | | | |]; try discriminate; [|exact Logic.I].
  destruct k; try discriminate. exact Logic.I.
Qed.
Lemma name_cls abs fs : fs <> [] -> Cls (path_toks abs fs) (path_of abs fs).
Proof. left. eauto. Qed.
Lemma name_expr abs ns a : forallb plain_word (ns ++ [a]) = true ->
  parses_to (s2l "<?php " ++ name_text abs (ns ++ [a]) ++ s2l ";") [expr_stm (resolve_constant (Ex (EPath (name_path abs ns a)) span_new))].
Proof.
  intros P. assert (NE : ns ++ [a] <> []) by (destruct ns; discriminate). set (fs := ns ++ [a]) in *.
  change (s2l "<?php " ++ name_text abs fs ++ s2l ";") with (s2l "<?php" ++ s2l " " ++ name_text abs fs ++ s2l ";").
  apply (program_parses _ [path_toks abs fs ++ [Kw KSemiColon]]); [|discriminate|].
  - cbn [List.concat app]. rewrite app_nil_r. apply (seen_ws [] (s2l " ")); auto. apply seen_name; auto.
    apply (seen_op [] ";" KSemiColon []); auto. apply seen_end.
  - constructor; [|constructor]. apply top_stm, stm_any, stm_expr; [|apply name_start; auto].
    rewrite <- name_path_of. apply (full_closing oplike); [apply closing_oplike|]. apply post_operand; auto. apply post_name. apply name_cls; auto.
Qed.
Lemma name_program abs ns a : forallb plain_word (ns ++ [a]) = true -> ns <> [] \/ const_name a = None ->
  parses_to (s2l "<?php " ++ name_text abs (ns ++ [a]) ++ s2l ";") (expr_program (EPath (name_path abs ns a))).
Proof. intros P C. pose proof (name_expr abs ns a P) as H. rewrite no_const in H by auto. exact H. Qed.
Lemma const_program abs a c : plain_word a = true -> const_name a = Some c ->
  parses_to (s2l "<?php " ++ name_text abs [a] ++ s2l ";") (expr_program (EConst c)).
Proof. intros P C. pose proof (name_expr abs [] a) as H. rewrite (is_const abs a c C) in H. apply H. cbn. rewrite P. reflexivity. Qed.
Lemma use_program abs ns a alias : forallb plain_word (ns ++ [a]) = true -> (forall b, alias = Some b -> plain_word b = true) ->
  parses_to (s2l "<?php use " ++ name_text abs (ns ++ [a]) ++ match alias with Some b => s2l " as " ++ b | None => [] end ++ s2l ";")
    [St (SUse [QualifiedName (name_path abs ns a) alias]) span_new].
Proof.
  intros P A. assert (NE : ns ++ [a] <> []) by (destruct ns; discriminate). set (fs := ns ++ [a]) in *.
  apply (program_parses (s2l " " ++ s2l "use" ++ s2l " " ++ name_text abs fs ++ match alias with Some b => s2l " as " ++ b | None => [] end ++ s2l ";")
    [Kw KUse :: commas [path_toks abs fs ++ match alias with Some b => [Kw KAs; TString b] | None => [] end] ++ [Kw KSemiColon]]); [|discriminate|].
  - cbn [List.concat app]. rewrite app_nil_r. apply (seen_ws [] (s2l " ")); auto. apply seen_kw; auto. apply (seen_ws [] (s2l " ")); auto.
    cbn [commas]. rewrite <- app_assoc. destruct alias as [b|].
    + cbn [app]. apply seen_name; auto. rewrite <- app_assoc. apply (seen_ws [] (s2l " ")); auto. apply (seen_kw [] "as" KAs (s2l " " ++ b ++ s2l ";")); auto.
      apply (seen_ws [] (s2l " ")); auto. apply seen_plain; auto. apply (seen_op [] ";" KSemiColon []); auto. apply seen_end.
    + cbn [app]. apply seen_name; auto. apply (seen_op [] ";" KSemiColon []); auto. apply seen_end.
  - constructor; [|constructor]. apply top_use; [discriminate|]. constructor; [|constructor].
    exists abs, fs. eexists. split; [exact NE|]. split; [reflexivity|]. split; [symmetry; apply name_path_of|]. reflexivity.
Qed.
Lemma namespace_program ns a : forallb plain_word (ns ++ [a]) = true ->
  parses_to (s2l "<?php namespace " ++ name_text false (ns ++ [a]) ++ s2l ";") [St (SDecl (DNamespace (name_path false ns a))) span_new].
Proof.
  intros P. assert (NE : ns ++ [a] <> []) by (destruct ns; discriminate). set (fs := ns ++ [a]) in *.
  apply (program_parses (s2l " " ++ s2l "namespace" ++ s2l " " ++ name_text false fs ++ s2l ";")
    [Kw KNamespace :: frag_tokens fs ++ [Kw KSemiColon]]); [|discriminate|].
  - cbn [List.concat app]. rewrite app_nil_r. apply (seen_ws [] (s2l " ")); auto. apply seen_kw; auto. apply (seen_ws [] (s2l " ")); auto.
    apply (seen_name [] false); auto. apply (seen_op [] ";" KSemiColon []); auto. apply seen_end.
  - constructor; [|constructor]. rewrite <- name_path_of. apply top_namespace. exact NE.
Qed.
