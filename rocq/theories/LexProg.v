(** * LexProg: programs of one literal, and HTML *)
From Verif Require Import Base Tokens Ast AstMap Lexer Parser Printer Driver Spec SmallFacts ParserTermination ParserFacts LexBase LexSteps LexWords LexTok LexNum LexStr LexMore LexRun LexParse LexFacts LexCrash.
From Coq Require Import String.

Ltac one := eexists; eexists; split; [vm_compute; reflexivity|vm_compute; reflexivity].

Lemma dec_program ds : decimal ds -> (number 10 ds <= i64_max)%N ->
  parses_to (s2l "<?php " ++ map (digit_char false) ds ++ s2l ";") (expr_program (EInt (Z.of_N (number 10 ds)))).
Proof.
  intros D L. rewrite canonical_show by auto. generalize (number 10 ds) L. intros n Ln.
  apply one_token with (t := TInt (Z.of_N n)); [intros; apply step_int; auto|discriminate|].
  generalize (Z.of_N n). intros z. one.
Qed.
Lemma dec_overflow ds : decimal ds -> (i64_max < number 10 ds)%N ->
  panics (s2l "<?php " ++ map (digit_char false) ds ++ s2l ";").
Proof.
  intros D L. rewrite canonical_show by auto. apply crash_panics.
  apply (crash_open [] (s2l " " ++ show_N (number 10 ds) ++ s2l ";")).
  apply (crash_ws LInScripting [] (s2l " ")); auto. apply int_crash; auto.
Qed.
Lemma dec_read code s ds r : decimal ds -> (number 10 ds <= i64_max)%N ->
  reading code s (map (digit_char false) ds ++ r) -> ends_word r = true -> (forall q, r <> s2l "." ++ q) ->
  reads code s (TInt (Z.of_N (number 10 ds))) r.
Proof.
  intros D L R E Dot. rewrite canonical_show in R by auto. apply int_read; auto.
  destruct r as [|c r]; auto. cbn. apply N.eqb_neq. intros ->. apply (Dot r). reflexivity.
Qed.
Lemma oct_program up ds : ds <> [] -> Forall (fun d => (d < 8)%N) ds -> (number 8 ds <= i64_max)%N ->
  parses_to (s2l "<?php " ++ (48%N :: map (digit_char up) ds) ++ s2l ";") (expr_program (EInt (Z.of_N (number 8 ds)))).
Proof.
  intros N F L. apply one_token with (t := TInt (Z.of_N (number 8 ds))); [intros; apply (step_oct st up ds); auto|discriminate|].
  generalize (Z.of_N (number 8 ds)). intros z. one.
Qed.
Lemma hex_program up ds : ds <> [] -> Forall (fun d => (d < 16)%N) ds -> (number 16 ds <= i64_max)%N ->
  parses_to (s2l "<?php " ++ (s2l "0x" ++ map (digit_char up) ds) ++ s2l ";") (expr_program (EInt (Z.of_N (number 16 ds)))).
Proof.
  intros N F L. apply one_token with (t := TInt (Z.of_N (number 16 ds))); [intros; rewrite <- app_assoc; apply (step_hex st up ds); auto|discriminate|].
  generalize (Z.of_N (number 16 ds)). intros z. one.
Qed.
Lemma bin_program up ds : ds <> [] -> Forall (fun d => (d < 2)%N) ds -> (number 2 ds <= i64_max)%N ->
  parses_to (s2l "<?php " ++ (s2l "0b" ++ map (digit_char up) ds) ++ s2l ";") (expr_program (EInt (Z.of_N (number 2 ds)))).
Proof.
  intros N F L. apply one_token with (t := TInt (Z.of_N (number 2 ds))); [intros; rewrite <- app_assoc; apply (step_bin st up ds); auto|discriminate|].
  generalize (Z.of_N (number 2 ds)). intros z. one.
Qed.
Lemma var_program w : name_ok w = true -> parses_to (s2l "<?php " ++ (s2l "$" ++ w) ++ s2l ";") (expr_program (EVar (VName w))).
Proof.
  intros N. apply one_token with (t := TVariable w); [intros; apply (step_var st w r); auto|discriminate|]. one.
Qed.
Lemma sq_program c : sq_content c = true -> Forall scalar c ->
  parses_to (s2l "<?php " ++ (s2l "'" ++ c ++ s2l "'") ++ s2l ";") (expr_program (EString (sq_decode c))).
Proof.
  intros N SC. apply one_token with (t := TCes (sq_decode c)).
  - intros. rewrite <- !app_assoc. apply (step_sq st c r); auto. apply Forall_forall. rewrite Forall_forall in SC.
    assert (X : forall s n, List.length s <= n -> forall x, In x (sq_decode s) -> In x s).
    { clear. intros s n. revert s. induction n as [|n IH]; intros [|c [|d s]] L x I; try exact I; try (cbn in L; lia).
      cbn [sq_decode] in I. destruct (_ && _)%bool.
      - destruct I as [I|I]; [right; left; auto|]. right; right. apply IH; auto. cbn in L; lia.
      - destruct I as [I|I]; [left; auto|]. right. apply (IH (d :: s)); auto. cbn in *; lia. }
    intros x I. apply SC. eapply X; eauto.
  - discriminate.
  - generalize (sq_decode c). intros w. one.
Qed.
(** HTML only *)
Lemma html_program w : w <> [] -> no_tag w ->
  exists F, forall f, F <= f -> exists sp sp' , parse_str f w = DOk [St (SEcho [Ex (EString w) sp]) sp'].
Proof.
  intros NE NT. assert (L : lexes LInitial [] (w ++ []) [TInlineHtml w]).
  { apply lex_html; auto. left. reflexivity. apply lex_end_html. }
  rewrite app_nil_r in L. destruct (lex_tokens _ _ L) as (F & T). exists F. intros f LF.
  destruct (T f LF) as (ts & s & E & M). unfold parse_str. rewrite E.
  destruct ts as [|[t sp] [|]]; try discriminate. cbn in M. injection M as ->.
  eexists. eexists. unfold parse_tokens.
  set (x := parse_top _). vm_compute in x. subst x. reflexivity.
Qed.
Lemma sq_scalar c : Forall scalar c -> Forall scalar (sq_decode c).
Proof.
  intros SC. apply Forall_forall. rewrite Forall_forall in SC.
  assert (X : forall s n, List.length s <= n -> forall x, In x (sq_decode s) -> In x s).
  { clear. intros s n. revert s. induction n as [|n IH]; intros [|c [|d s]] L x I; try exact I; try (cbn in L; lia).
    cbn [sq_decode] in I. destruct (_ && _)%bool.
    - destruct I as [I|I]; [right; left; auto|]. right; right. apply IH; auto. cbn in L; lia.
    - destruct I as [I|I]; [left; auto|]. right. apply (IH (d :: s)); auto. cbn in *; lia. }
  intros x I. apply SC. eapply X; eauto.
Qed.
Lemma sq_read code s c r : sq_content c = true -> Forall scalar c ->
  reading code s (s2l "'" ++ c ++ s2l "'" ++ r) -> reads code s (TCes (sq_decode c)) r.
Proof. intros C S R. eapply step_reads; [|exact R|reflexivity]. apply (step_sq (lstack s) c r); auto. apply sq_scalar; auto. Qed.
Lemma nowdoc_read code s tag line lines r :
  doc_line line = true -> forallb doc_line lines = true ->
  Forall (fun l => starts_with tag (l ++ [10%N]) = false) lines ->
  name_ok tag = true -> end_of_doc r ->
  let body := line ++ flat_map (fun l => 10%N :: l) lines in
  Forall scalar body ->
  reading code s (s2l "<<<'" ++ tag ++ s2l "'" ++ [10%N] ++ body ++ [10%N] ++ tag ++ r) ->
  reads code s (TCes body) r.
Proof.
  intros L LS TG N E body SC R. eapply step_reads; [|exact R|reflexivity].
  replace (s2l "<<<'" ++ tag ++ s2l "'" ++ [10%N] ++ body ++ [10%N] ++ tag ++ r)
    with (s2l "<<<'" ++ tag ++ s2l "'" ++ 10%N :: line ++ flat_map (fun l => 10%N :: l) lines ++ 10%N :: tag ++ r).
  - apply step_nowdoc; auto.
  - unfold body. rewrite <- !app_assoc. reflexivity.
Qed.
