(** * CompleteEx: the rules of SpecText.v cover every source (proofs and examples for C43) *)
From Verif Require Import Base Tokens Ast Lexer Parser Driver Spec SpecMixed SpecText SpecUnread SpecErr LexMono ParserFacts UnreadProof TextMain2 TextTotal TextEx UnreadEx.
From Coq Require Import String Lia.
Local Open Scope string_scope. Local Open Scope list_scope.

Lemma unread_fate src x : Unread src x -> exists F, forall f, F <= f -> fate_of src x f.
Proof. intros U. destruct (unread_run src x U) as (toks & L). exact (g_fate x src toks L). Qed.
Lemma tokenize_more f f' src : f <= f' -> tokenize f src <> DFuel -> tokenize f' src = tokenize f src.
Proof. intros L N. apply tokenize_mono; assumption. Qed.
Lemma tokens_complete src ts : Forall scalar src -> (tokens_of src ts <-> Source src ts).
Proof.
  intros S. split; [|apply source_tokens]. intros (F & T). destruct (source_total src S) as [(ts' & A)|(x & U)].
  - destruct (source_tokens _ _ A) as (F' & T'). destruct (T (F + F') ltac:(lia)) as (a & s & X & <-). destruct (T' (F + F') ltac:(lia)) as (b & s' & Y & <-).
    rewrite X in Y. injection Y as <- <-. exact A.
  - destruct (unread_fate _ _ U) as (F' & G). destruct (T (F + F') ltac:(lia)) as (a & s & X & _). specialize (G (F + F') ltac:(lia)).
    destruct x; cbn [fate_of] in G; cbv zeta in G; repeat match goal with H : exists _, _ |- _ => destruct H end; congruence.
Qed.
Lemma hangs_complete src : Forall scalar src -> ((forall f, parse_str f src = DFuel) <-> Unread src Hangs).
Proof.
  intros S. split; [|exact (unread_meets src Hangs)]. intros H. destruct (source_total src S) as [(ts & A)|(x & U)].
  - destruct (source_tokens _ _ A) as (F & T). destruct (T F (le_n F)) as (a & s & X & _). specialize (H F). unfold parse_str in H. rewrite X in H. destruct (parse_tokens_total _ _ _ H).
  - pose proof (unread_meets _ _ U) as M. destruct x; cbn [meets] in M; [|exact U|]; destruct M as (F & M); destruct (M F (le_n F)) as (y & M'); rewrite H in M'; [discriminate|destruct M'; discriminate].
Qed.
Lemma panics_complete src f p : Forall scalar src -> tokenize f src = DPanic p -> Unread src Panics.
Proof.
  intros S H. assert (G : forall g, f <= g -> tokenize g src = DPanic p) by (intros g L; rewrite <- H; apply tokenize_more; [exact L|congruence]).
  destruct (source_total src S) as [(ts & A)|(x & U)].
  - destruct (source_tokens _ _ A) as (F & T). destruct (T (f + F) ltac:(lia)) as (a & s & X & _). rewrite G in X by lia. discriminate.
  - destruct (unread_fate _ _ U) as (F & M). specialize (M (f + F) ltac:(lia)). specialize (G (f + F) ltac:(lia)). destruct x; cbn [fate_of] in M; cbv zeta in M; [exact U|congruence|destruct M; congruence].
Qed.
Lemma parse_syntax d n all e : parse_tokens d n all = DErr e -> se_syntax e = None.
Proof.
  unfold parse_tokens. destruct (parse_top _) as [l q|pe q|q|]; try discriminate.
  assert (Z : forall a b, mk_serror d n a b pe None = DErr e -> se_syntax e = None).
  { intros a b. unfold mk_serror. repeat match goal with |- context [match ?x with _ => _ end] => destruct x end; try discriminate; intros E; injection E as <-; reflexivity. }
  repeat match goal with |- context [match ?x with _ => _ end] => destruct x end; try discriminate; apply Z.
Qed.
Lemma reports_complete src f e x : Forall scalar src -> parse_str f src = DErr e -> se_syntax e = Some x ->
  exists c from len, Unread src (Reports c from len) /\ se_start e = blen src - blen from /\ se_end e = se_start e + len /\ x = complaint_error c (se_start e) (se_end e).
Proof.
  intros S H X. destruct (source_total src S) as [(ts & A)|(y & U)].
  - destruct (source_tokens _ _ A) as (F & T). destruct (T (f + F) ltac:(lia)) as (a & s & E & _).
    rewrite <- (parse_str_mono f (f + F)) in H by (try lia; congruence). unfold parse_str in H. rewrite E in H. apply parse_syntax in H. congruence.
  - pose proof (unread_meets _ _ U) as M. assert (G : forall g, f <= g -> parse_str g src = DErr e) by (intros g L; rewrite <- H; apply parse_str_mono; [exact L|congruence]).
    destruct y as [| |c from len]; cbn [meets] in M.
    + destruct M as (F & M). destruct (M (f + F) ltac:(lia)) as (p & E). rewrite G in E by lia. discriminate.
    + rewrite M in H. discriminate.
    + destruct M as (F & M). destruct (M (f + F) ltac:(lia)) as (e' & E & A & B & C). rewrite G in E by lia. injection E as <-.
      exists c, from, len. repeat split; auto. congruence.
Qed.

(** ** Examples *)
(** HTML, the short tag, a backquote at the end of the source *)
Definition short_source : str := s2l "a<? $a->->if `b`".
Lemma short_derived : Source short_source [TInlineHtml (s2l "a"); Kw KOpenTag; TVariable (s2l "a"); Kw KObjectOp; Kw KObjectOp; TString (s2l "if"); Kw KBackquote; TCes (s2l "b"); Kw KBackquote].
Proof.
  apply (source_script (s2l "a") (s2l "<?") KOpenTag (s2l " $a->->if `b`") [TVariable (s2l "a"); Kw KObjectOp; Kw KObjectOp; TString (s2l "if"); Kw KBackquote; TCes (s2l "b"); Kw KBackquote] 0);
    [none_inside|apply tag_short; reflexivity|].
  sp. var "a". apply (tx_property (s2l "->->") [Kw KObjectOp; Kw KObjectOp] [] (s2l "if")); [apply (arrows_more [] (s2l "->") [Kw KObjectOp]); [reflexivity|apply arrows_one]|reflexivity..|]. sp.
  apply (tx_back 0 (s2l "`b`") (s2l "b`") [] [] (s2l "b") [TCes (s2l "b")]).
  - apply opened_back. discriminate.
  - apply behind_start.
  - repeat constructor; cbn; intuition discriminate.
  - apply (literal_some (s2l "b")); [discriminate|]. apply (fragment_text (s2l "b")). repeat constructor; reflexivity.
Qed.
(** code inside a string that cannot be read: its brace is dropped *)
Definition lost_code : str := s2l "<?php ""{$" ++ [8364%N] ++ s2l """;".
Lemma lost_code_derived : Source lost_code [Kw KOpenTag; Kw KDoubleQuote; TCes (s2l "$" ++ [8364%N]); Kw KDoubleQuote; Kw KSemiColon].
Proof.
  apply (source_script [] (s2l "<?php") KOpenTag (s2l " ""{$" ++ [8364%N] ++ s2l """;") [Kw KDoubleQuote; TCes (s2l "$" ++ [8364%N]); Kw KDoubleQuote; Kw KSemiColon] 0); [none_inside|apply tag_php|]. sp.
  apply (tx_string 0 _ (s2l "{$" ++ [8364%N] ++ s2l """;") [] (encode (s2l "$" ++ [8364%N])) [TCes (s2l "$" ++ [8364%N])] (s2l ";") [Kw KSemiColon]).
  - apply (opened_quotes false). discriminate.
  - eapply ps_piece; [apply (pc_lost Quotes [] (s2l "$" ++ [8364%N] ++ s2l """;") [Kw KDollar] 0 ([8364%N] ++ s2l """;") Unknown ([8364%N] ++ s2l """;") 1)| |reflexivity].
    + exact I.
    + reflexivity.
    + op "$" KDollar. apply tx_stop.
    + apply st_stray. split; [reflexivity|]. split; [reflexivity|]. split; [cbn; intuition discriminate|].
      intros op k I. cbn in I. repeat (destruct I as [I|I]; [injection I as <- _; discriminate|]). destruct I.
    + discriminate.
    + eapply ps_piece; [apply pc_dollar; [exact I|intros c z E; injection E as <- _; split; [reflexivity|discriminate]]| |reflexivity]. ch Quotes 8364%N. apply ps_none.
  - apply literal_some; [discriminate|]. apply fragment_text. repeat constructor; reflexivity.
  - op ";" KSemiColon. apply tx_stop.
Qed.
