(** * LexParse: from token lists to whole sources *)
From Verif Require Import Base Tokens Ast AstMap Lexer Parser Printer Driver Spec SmallFacts ParserTermination ParserFacts LexBase LexSteps LexWords LexTok LexNum LexStr LexMore LexRun.
From Coq Require Import String.

(** ** HTML and properties *)
Lemma lex_html st w r toks : w <> [] -> no_tag w -> tag_or_end r -> lexes LInitial st r toks ->
  lexes LInitial st (w ++ r) (TInlineHtml w :: toks).
Proof.
  intros NE NT TE R. eapply lex_step with (m' := LInitial) (st' := st) (r := r); [discriminate| |discriminate|exact R].
  exists 0. intros code nt lf s LF H M ST Q. unfold scan. rewrite M, (html_tok code s w r H NE NT TE).
  eexists. eexists. split; [reflexivity|]. split; [apply at_move_eq with w; auto|cbn; repeat split; auto; lia].
Qed.
Lemma lex_open st r toks : lexes LInScripting st r toks -> lexes LInitial st (s2l "<?php" ++ r) (Kw KOpenTag :: toks).
Proof.
  intros R. eapply lex_step with (m' := LInScripting) (st' := st) (r := r); [discriminate| |discriminate|exact R].
  exists 0. intros code nt lf s LF H M ST Q. unfold scan. rewrite M, (open_php code s r H).
  eexists. eexists. split; [reflexivity|]. split; [|cbn; repeat split; auto; lia].
  eapply at_same; [|apply (at_move_eq code s (s2l "<?php") r (src_pos s + 5)); auto]. reflexivity.
Qed.
Lemma lex_open_echo st r toks : lexes LInScripting st r toks -> lexes LInitial st (s2l "<?=" ++ r) (Kw KOpenTagWithEcho :: toks).
Proof.
  intros R. eapply lex_step with (m' := LInScripting) (st' := st) (r := r); [discriminate| |discriminate|exact R].
  exists 0. intros code nt lf s LF H M ST Q. unfold scan. rewrite M, (open_echo code s r H).
  eexists. eexists. split; [reflexivity|]. split; [|cbn; repeat split; auto; lia].
  eapply at_same; [|apply (at_move_eq code s (s2l "<?=") r (src_pos s + 3)); auto]. reflexivity.
Qed.
Lemma lex_prop m st w r toks : name_ok w = true -> ends_word r = true -> lexes m st r toks ->
  lexes LLookingForProperty (m :: st) (w ++ r) (TString w :: toks).
Proof.
  intros N E R. eapply lex_step with (m' := m) (st' := st) (r := r); [discriminate| |discriminate|exact R].
  exists 0. intros code nt lf s LF H M ST Q. unfold scan. rewrite M, (prop_tok code s w r m st H N E ST).
  eexists. eexists. split; [reflexivity|]. split; [|cbn; repeat split; auto; lia].
  eapply at_same; [|apply (at_move_eq code s w r (src_pos s + blen w)); auto]. reflexivity.
Qed.
Lemma lex_prop_none st inp toks : head_is is_ws inp = false -> starts_with (s2l "->") inp = false ->
  head_is (fun c => is_label_char c && negb (is_digit c)) inp = false -> lexes LInScripting st inp toks ->
  lexes LLookingForProperty (LInScripting :: st) inp toks.
Proof.
  intros W A L (F & R). exists (S F). intros code nt lf s LF H M ST Q.
  set (s2 := set_restart false (set_restart true (set_mode LInScripting (set_stack st s)))).
  assert (H2 : at_ code s2 inp) by (eapply at_same; [|exact H]; reflexivity).
  destruct (R code nt lf s2 ltac:(lia) H2 eq_refl eq_refl Q) as (ts & sf & RR & M2 & LL).
  exists ts, sf. split; [|split; [exact M2|exact LL]].
  eapply runs_skip; [|exact RR]. intros k. rewrite nt_scan by congruence. unfold scan. rewrite M.
  rewrite (prop_none code s inp LInScripting st H W A L ST). reflexivity.
Qed.

Lemma step_oct st up ds r : ds <> [] -> Forall (fun d => (d < 8)%N) ds -> (number 8 ds <= i64_max)%N ->
  head_is (fun c => (c =? 46)%N) r = false -> ends_word r = true ->
  step1 LInScripting st (48%N :: map (digit_char up) ds ++ r) (TInt (Z.of_N (number 8 ds))) LInScripting st r.
Proof.
  intros NE F8 N D E. exists 0. intros code nt lf s LF H M ST Q. unfold scan. rewrite M, (oct_tok code nt lf s up ds r H NE F8 N D E).
  eexists. eexists. split; [reflexivity|]. split; [|cbn; repeat split; auto; lia].
  apply (at_move_eq code s (48%N :: map (digit_char up) ds) r); auto. cbn [blen]. rewrite blen_ascii, map_length; [change (clen 48) with 1; lia|].
  apply digits_ascii. clear - F8. induction F8; cbn; constructor; auto. unfold digit_char. apply N.lt_le_trans with (p := 10%N) in H; [|lia].
  apply N.ltb_lt in H. rewrite H. unfold is_digit. apply N.ltb_lt in H. apply andb_true_intro. split; apply N.leb_le; lia.
Qed.
Lemma hex_chars_ascii up ds : Forall (fun d => (d < 16)%N) ds -> blen (map (digit_char up) ds) = List.length ds.
Proof.
  induction 1 as [|d ds L _ IH]; cbn; auto. rewrite IH. replace (clen (digit_char up d)) with 1; auto.
  symmetry. unfold digit_char, clen. destruct (N.ltb_spec d 10).
  - rewrite (proj2 (N.ltb_lt _ _)); auto; lia.
  - destruct up; rewrite (proj2 (N.ltb_lt _ _)); auto; lia.
Qed.
Lemma step_hex st up ds r : ds <> [] -> Forall (fun d => (d < 16)%N) ds -> (number 16 ds <= i64_max)%N -> ends_word r = true ->
  step1 LInScripting st (s2l "0x" ++ map (digit_char up) ds ++ r) (TInt (Z.of_N (number 16 ds))) LInScripting st r.
Proof.
  intros NE F N E. exists 0. intros code nt lf s LF H M ST Q. unfold scan. rewrite M. destruct (hex_tok code nt lf s up ds r H NE F N E) as (e & ->).
  eexists. eexists. split; [reflexivity|]. split; [|cbn; repeat split; auto; lia].
  apply (at_move_eq code s (s2l "0x" ++ map (digit_char up) ds) r); [rewrite <- app_assoc; auto|]. rewrite blen_app, hex_chars_ascii; auto. change (blen (s2l "0x")) with 2. lia.
Qed.
Lemma step_bin st up ds r : ds <> [] -> Forall (fun d => (d < 2)%N) ds -> (number 2 ds <= i64_max)%N -> ends_word r = true ->
  step1 LInScripting st (s2l "0b" ++ map (digit_char up) ds ++ r) (TInt (Z.of_N (number 2 ds))) LInScripting st r.
Proof.
  intros NE F N E. exists 0. intros code nt lf s LF H M ST Q. unfold scan. rewrite M. destruct (bin_tok code nt lf s up ds r H NE F N E) as (e & ->).
  eexists. eexists. split; [reflexivity|]. split; [|cbn; repeat split; auto; lia].
  apply (at_move_eq code s (s2l "0b" ++ map (digit_char up) ds) r); [rewrite <- app_assoc; auto|].
  rewrite blen_app, hex_chars_ascii; [change (blen (s2l "0b")) with 2; lia|]. eapply Forall_impl; [|exact F]. cbn; intros; lia.
Qed.

(** ** Whole sources *)
Lemma lex_tokens src toks : lexes LInitial [] src toks -> tokens_of src toks.
Proof.
  intros (F & R). exists (S (F + S (List.length toks))). intros f L. destruct f as [|f]; [lia|].
  destruct (R src (next_token src f) f tst_init ltac:(lia)) as (ts & sf & RR & M & _); try reflexivity.
  { exists []. auto. }
  exists ts, sf. split; [|exact M]. unfold tokenize.
  rewrite (runs_loop src f F tst_init ts sf RR ltac:(lia) (S f) []); [reflexivity|].
  assert (X : List.length ts = List.length toks) by (rewrite <- M; symmetry; apply map_length). lia.
Qed.
(** a source that starts with the opening tag *)
Lemma lex_php r toks : lexes LInScripting [] r toks ->
  exists F, forall f, F <= f -> exists ts sf sp, tokenize f (s2l "<?php" ++ r) = DOk ((Kw KOpenTag, sp) :: ts, sf) /\ map fst ts = toks /\ late 5 ts.
Proof.
  intros (F & R). set (src := s2l "<?php" ++ r). exists (S (S (F + S (List.length toks)))). intros f L. destruct f as [|f]; [lia|].
  assert (H : at_ src tst_init (s2l "<?php" ++ r)) by (exists []; auto).
  pose proof (open_php src tst_init r H) as E.
  set (s1 := set_mode LInScripting (set_pos (src_pos tst_init + 5) tst_init)) in *.
  assert (H1 : at_ src s1 r).
  { eapply at_same; [|apply (at_move_eq src tst_init (s2l "<?php") r 5); auto]. reflexivity. }
  destruct (R src (next_token src f) f s1 ltac:(lia) H1) as (ts & sf & RR & M & LT); try reflexivity.
  exists ts, sf, (mk_span 0 5). split; [|split; [exact M|exact LT]]. unfold tokenize.
  assert (RR' : runs src (next_token src f) f (S F) tst_init ((Kw KOpenTag, mk_span 0 5) :: ts) sf).
  { eapply runs_tok; [|discriminate|eapply runs_mono; [|exact RR]; lia].
    intros k K. destruct k as [|k]; [lia|]. rewrite nt_scan by discriminate. unfold scan. cbn [lmode tst_init]. rewrite E. reflexivity. }
  rewrite (runs_loop src f (S F) tst_init _ sf RR' ltac:(lia) (S f) []); [reflexivity|].
  cbn [List.length]. assert (X : List.length ts = List.length toks) by (rewrite <- M; symmetry; apply map_length). lia.
Qed.

(** tokens at made-up positions *)
Definition placed (toks : list token) : list tokspan := map (fun t => (t, mk_span 2 2)) toks.
Lemma placed_alike ts toks : map fst ts = toks -> late 2 ts -> Forall2 alike ts (placed toks).
Proof.
  intros <-. unfold placed. rewrite map_map. induction 1 as [|[t sp] ts L _ IH]; cbn; constructor; auto.
  split; [reflexivity|]. cbn [snd] in *. change (sp_start (mk_span 2 2)) with 2. lia.
Qed.
Definition agrees (o : pout (list stmt)) (d : dout (list stmt) serror) : Prop :=
  match o, d with
  | POk l _, DOk l' => strip l' = strip l
  | PPanic x, DPanic y => x = y
  | PErr _ _, (DErr _ | DPanic _) => True
  | _, _ => False
  end.
Lemma tokens_agree ts toks data e : map fst ts = toks -> late 2 ts ->
  agrees (parse_top (filter_tokens (placed toks))) (parse_tokens data e ts).
Proof.
  intros M L. pose proof (alike_outcome _ _ (filter_alike _ _ (placed_alike _ _ M L))) as S.
  unfold parse_tokens. unfold same_outcome in S.
  destruct (parse_top (filter_tokens ts)) as [l p|er p|x|]; destruct (parse_top (filter_tokens (placed toks))) as [l' p'|er' p'|x'|]; try contradiction; cbn.
  - tauto.
  - assert (K : forall a b c d g, match mk_serror data a b c d g with DErr _ | DPanic _ => True | _ => False end).
    { intros. unfold mk_serror. destruct (line_from_position _ _) as [k|]; auto. destruct (line_range _ _ _) as [[? ?]|]; auto. }
    destruct (nth_error _ (err_pos er)); [apply K|]. destruct (List.length _); auto. destruct (nth_error _ _); auto. apply K.
  - auto.
Qed.
Lemma lex_parse r toks : lexes LInScripting [] r toks ->
  exists F, forall f, F <= f -> agrees (parse_top (filter_tokens (placed toks))) (parse_str f (s2l "<?php" ++ r)).
Proof.
  intros H. destruct (lex_php r toks H) as (F & G). exists F. intros f L. destruct (G f L) as (ts & sf & sp & E & M & LT).
  unfold parse_str. rewrite E.
  change (parse_tokens (lines sf) (blen (s2l "<?php" ++ r)) ((Kw KOpenTag, sp) :: ts))
    with (parse_tokens (lines sf) (blen (s2l "<?php" ++ r)) ts).
  apply tokens_agree; auto. eapply late_weak; [|exact LT]. lia.
Qed.
Lemma lex_parse_ok r toks l p : lexes LInScripting [] r toks -> parse_top (filter_tokens (placed toks)) = POk l p ->
  parses_to (s2l "<?php" ++ r) l.
Proof.
  intros H E. destruct (lex_parse r toks H) as (F & G). exists F. intros f L. specialize (G f L). rewrite E in G.
  destruct (parse_str _ _); try contradiction. eauto.
Qed.
Lemma lex_parse_panic r toks x : lexes LInScripting [] r toks -> parse_top (filter_tokens (placed toks)) = PPanic x ->
  panics (s2l "<?php" ++ r).
Proof.
  intros H E. destruct (lex_parse r toks H) as (F & G). exists F. intros f L. specialize (G f L). rewrite E in G.
  destruct (parse_str _ _); try contradiction. eauto.
Qed.
