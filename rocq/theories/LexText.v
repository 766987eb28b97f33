(** * LexText: runs of the tokenizer with any end, and code inside strings (proofs for C41) *)
From Verif Require Import Base Tokens Ast AstMap Lexer Parser Printer Driver Spec SpecMixed SmallFacts ParserTermination ParserFacts LexBase LexSteps LexWords LexTok LexNum LexStr LexMore LexRun LexParse LexFacts.
From Coq Require Import String.
Local Open Scope list_scope.

(** ** Runs that end with an outcome satisfying [E] *)
Inductive runz (code : str) (f F : nat) (E : tout tokspan -> Prop) : tst -> list tokspan -> Prop :=
| runz_end s o : E o -> (forall k, F <= k -> nt_loop code (next_token code f) f k s = o) -> runz code f F E s []
| runz_tok s t s' ts : (forall k, F <= k -> nt_loop code (next_token code f) f k s = TOk t s') -> fst t <> Kw KEnd ->
    runz code f F E s' ts -> runz code f F E s (t :: ts).
Lemma runz_mono code f F F' E s ts : F <= F' -> runz code f F E s ts -> runz code f F' E s ts.
Proof.
  intros L R. induction R.
  - eapply runz_end; eauto. intros. apply H0; lia.
  - eapply runz_tok; eauto. intros. apply H; lia.
Qed.
Lemma runz_skip code f F E s s2 ts : (forall k, nt_loop code (next_token code f) f (S k) s = nt_loop code (next_token code f) f k s2) ->
  runz code f F E s2 ts -> runz code f (S F) E s ts.
Proof.
  intros X R. inversion R; subst.
  - eapply runz_end; eauto. intros k K. destruct k; [lia|]. rewrite X. apply H0; lia.
  - eapply runz_tok; [|eassumption|eapply runz_mono; [|eassumption]; lia].
    intros k K. destruct k; [lia|]. rewrite X by lia. apply H; lia.
Qed.
Lemma runz_same code f F E s s2 ts : (forall k, nt_loop code (next_token code f) f (S k) s = nt_loop code (next_token code f) f (S k) s2) ->
  runz code f F E s2 ts -> runz code f (S F) E s ts.
Proof.
  intros X R. inversion R; subst.
  - eapply runz_end; eauto. intros k K. destruct k; [lia|]. rewrite X. apply H0; lia.
  - eapply runz_tok; [|eassumption|eapply runz_mono; [|eassumption]; lia].
    intros k K. destruct k; [lia|]. rewrite X. apply H; lia.
Qed.
Definition lexg (E : str -> tout tokspan -> Prop) (m : lstate) (st : list lstate) (inp : str) (toks : list token) : Prop :=
  exists F, forall code f s, F <= f -> at_ code s inp -> lmode s = m -> lstack s = st -> queue s = [] ->
  exists ts, runz code f F (E code) s ts /\ map fst ts = toks /\ late (src_pos s) ts.
(** the two ends: the end of the source, and the end of code inside a string *)
Definition at_end (code : str) (o : tout tokspan) : Prop := exists sp sf, o = TOk (Kw KEnd, sp) sf.
Definition at_brace (r code : str) (o : tout tokspan) : Prop := exists sf, o = TErr SENone sf /\ at_ code sf r /\ queue sf = [].

Lemma g_end_script st : lexg at_end LInScripting st [] [].
Proof.
  exists 1. intros code f s L H M ST Q. exists []. split; [|split; [reflexivity|constructor]].
  eapply runz_end; [|intros k K; destruct k as [|k]; [lia|]; rewrite nt_scan by congruence; unfold scan; rewrite M, (script_end code _ f s H); reflexivity].
  eexists. eexists. reflexivity.
Qed.
Lemma g_end_html st : lexg at_end LInitial st [] [].
Proof.
  exists 1. intros code f s L H M ST Q. exists []. split; [|split; [reflexivity|constructor]].
  eapply runz_end; [|intros k K; destruct k as [|k]; [lia|]; rewrite nt_scan by congruence; unfold scan; rewrite M, (html_end code s H); reflexivity].
  eexists. eexists. reflexivity.
Qed.
Lemma g_end_brace st r : lexg (at_brace r) LDoNothing st r [].
Proof.
  exists 2. intros code f s L H M ST Q. exists []. split; [|split; [reflexivity|constructor]].
  apply runz_end with (o := TErr SENone (if restart s then set_restart false s else s)).
  - eexists. split; [reflexivity|]. destruct (restart s); [|auto]. split; [eapply at_same; [|exact H]; reflexivity|exact Q].
  - intros k K. destruct k as [|[|k]]; [lia|lia|]. rewrite nt_scan by congruence. unfold scan. rewrite M.
    destruct (restart s) eqn:R; [|reflexivity]. rewrite nt_scan by (cbn; congruence). unfold scan. cbn [lmode set_restart]. rewrite M. reflexivity.
Qed.
Section G.
Variable E : str -> tout tokspan -> Prop.
Lemma g_step m st inp t m' st' r toks : m <> LEmitQueue -> step1 m st inp t m' st' r -> t <> Kw KEnd ->
  lexg E m' st' r toks -> lexg E m st inp (t :: toks).
Proof.
  intros NM (L & S1) NE (F & R). exists (S (L + F)). intros code f s LF H M ST Q.
  destruct (S1 code (next_token code f) f s ltac:(lia) H M ST Q) as (sp & s' & X & H' & M' & ST' & Q' & P1 & P2).
  destruct (R code f s' ltac:(lia) H' M' ST' Q') as (ts & RR & MM & LL).
  exists ((t, sp) :: ts). split; [|split].
  - eapply runz_tok; [|exact NE|eapply runz_mono; [|exact RR]; lia].
    intros k K. destruct k as [|k]; [lia|]. rewrite nt_scan by congruence. rewrite X. reflexivity.
  - cbn. congruence.
  - constructor; [exact P1|]. eapply late_weak; [|exact LL]. lia.
Qed.
Lemma g_ws m st w r toks : m = LInScripting \/ m = LLookingForProperty -> white w = true -> lexg E m st r toks -> lexg E m st (w ++ r) toks.
Proof.
  intros MM B (F & R). exists (S F). intros code f s LF H M ST Q.
  destruct (ws_skip code w r s (blank_forall w B) H) as (A1 & A2 & A3 & A4).
  set (s2 := whitespace_loop w s) in *. injection A2 as B1 B2 B3 B4.
  destruct (R code f s2 ltac:(lia) A1 ltac:(congruence) ltac:(congruence) ltac:(congruence)) as (ts & RR & M2 & LL).
  exists ts. split; [|split; [exact M2|eapply late_weak; [|exact LL]; lia]].
  eapply runz_same; [|exact RR]. intros k.
  rewrite !nt_scan by (destruct MM; congruence).
  assert (X : scan code (next_token code f) f s = scan code (next_token code f) f s2); [|rewrite X; reflexivity].
  unfold scan. rewrite B1, M. destruct MM as [-> | ->].
  - unfold in_scripting_token, tbind at 1. rewrite A4. reflexivity.
  - unfold looking_for_property_token, tbind at 1. rewrite A4. reflexivity.
Qed.
Lemma g_line st (hash : bool) w r toks : ~ In 10%N w -> (r = [] \/ exists z, r = 10%N :: z) -> lexg E LInScripting st r toks ->
  lexg E LInScripting st (s2l (if hash then "#" else "//") ++ w ++ r) (TComment w :: toks).
Proof.
  intros C NL R. eapply g_step with (m' := LInScripting) (st' := st) (r := r); [discriminate| |discriminate|exact R].
  exists 0. intros code nt lf s LF H M ST Q. unfold scan. rewrite M.
  destruct (line_comment code nt lf s hash w r H C) as (sp & s' & X & A & B & D & G).
  { destruct NL as [-> |(z & ->)]; reflexivity. }
  injection B as B1 B2 B3 B4. exists sp, s'. repeat (split; [congruence || lia || auto|]). auto.
Qed.
Lemma g_block st w r toks : w <> [] -> no_close w -> lexg E LInScripting st r toks ->
  lexg E LInScripting st (s2l "/*" ++ w ++ s2l "*/" ++ r) (TComment (block_body w) :: toks).
Proof.
  intros C1 C2 R. eapply g_step with (m' := LInScripting) (st' := st) (r := r); [discriminate| |discriminate|exact R].
  exists 0. intros code nt lf s LF H M ST Q. unfold scan. rewrite M.
  destruct (block_comment code nt lf s w r H C1 C2) as (sp & s' & X & A & B & D & G).
  injection B as B1 B2 B3 B4. exists sp, s'. repeat (split; [congruence || lia || auto|]). auto.
Qed.
Lemma g_html st w r toks : w <> [] -> no_tag w -> tag_or_end r -> lexg E LInitial st r toks ->
  lexg E LInitial st (w ++ r) (TInlineHtml w :: toks).
Proof.
  intros NE NT TE R. eapply g_step with (m' := LInitial) (st' := st) (r := r); [discriminate| |discriminate|exact R].
  exists 0. intros code nt lf s LF H M ST Q. unfold scan. rewrite M, (html_tok code s w r H NE NT TE).
  eexists. eexists. split; [reflexivity|]. split; [apply at_move_eq with w; auto|cbn; repeat split; auto; lia].
Qed.
Lemma g_open st r toks : lexg E LInScripting st r toks -> lexg E LInitial st (s2l "<?php" ++ r) (Kw KOpenTag :: toks).
Proof.
  intros R. eapply g_step with (m' := LInScripting) (st' := st) (r := r); [discriminate| |discriminate|exact R].
  exists 0. intros code nt lf s LF H M ST Q. unfold scan. rewrite M, (open_php code s r H).
  eexists. eexists. split; [reflexivity|]. split; [|cbn; repeat split; auto; lia].
  eapply at_same; [|apply (at_move_eq code s (s2l "<?php") r (src_pos s + 5)); auto]. reflexivity.
Qed.
Lemma g_open_echo st r toks : lexg E LInScripting st r toks -> lexg E LInitial st (s2l "<?=" ++ r) (Kw KOpenTagWithEcho :: toks).
Proof.
  intros R. eapply g_step with (m' := LInScripting) (st' := st) (r := r); [discriminate| |discriminate|exact R].
  exists 0. intros code nt lf s LF H M ST Q. unfold scan. rewrite M, (open_echo code s r H).
  eexists. eexists. split; [reflexivity|]. split; [|cbn; repeat split; auto; lia].
  eapply at_same; [|apply (at_move_eq code s (s2l "<?=") r (src_pos s + 3)); auto]. reflexivity.
Qed.
Lemma g_prop m st w r toks : name_ok w = true -> ends_word r = true -> lexg E m st r toks ->
  lexg E LLookingForProperty (m :: st) (w ++ r) (TString w :: toks).
Proof.
  intros N X R. eapply g_step with (m' := m) (st' := st) (r := r); [discriminate| |discriminate|exact R].
  exists 0. intros code nt lf s LF H M ST Q. unfold scan. rewrite M, (prop_tok code s w r m st H N X ST).
  eexists. eexists. split; [reflexivity|]. split; [|cbn; repeat split; auto; lia].
  eapply at_same; [|apply (at_move_eq code s w r (src_pos s + blen w)); auto]. reflexivity.
Qed.
Lemma g_prop_none st inp toks : head_is is_ws inp = false -> starts_with (s2l "->") inp = false ->
  head_is (fun c => is_label_char c && negb (is_digit c)) inp = false -> lexg E LInScripting st inp toks ->
  lexg E LLookingForProperty (LInScripting :: st) inp toks.
Proof.
  intros W A L (F & R). exists (S F). intros code f s LF H M ST Q.
  set (s2 := set_restart false (set_restart true (set_mode LInScripting (set_stack st s)))).
  assert (H2 : at_ code s2 inp) by (eapply at_same; [|exact H]; reflexivity).
  destruct (R code f s2 ltac:(lia) H2 eq_refl eq_refl Q) as (ts & RR & M2 & LL).
  exists ts. split; [|split; [exact M2|exact LL]].
  eapply runz_skip; [|exact RR]. intros k. rewrite nt_scan by congruence. unfold scan. rewrite M.
  rewrite (prop_none code s inp LInScripting st H W A L ST). reflexivity.
Qed.
Lemma g_drain code f F q p0 : forall s s2 m st toks, lmode s = LEmitQueue -> lstack s = m :: st -> queue s = q ->
  (forall t, In t q -> fst t <> Kw KEnd) ->
  s2 = set_restart true (set_mode m (set_stack st (set_queue [] s))) ->
  (exists ts, runz code f F (E code) s2 ts /\ map fst ts = toks /\ late p0 ts) ->
  late p0 q ->
  exists ts, runz code f (S F) (E code) s ts /\ map fst ts = map fst q ++ toks /\ late p0 ts.
Proof.
  induction q as [|t q IH]; intros s s2 m st toks M ST Q NE S2 (ts & R & MM & LL) LQ.
  - exists ts. split; [|auto]. eapply runz_skip; [|exact R]. intros k. cbn [nt_loop]. rewrite M, Q.
    unfold pop_state. rewrite ST, S2. destruct s as [a b c d e g h]. cbn in *. subst. reflexivity.
  - inversion LQ; subst. destruct (IH (set_queue q s) (set_restart true (set_mode m (set_stack st (set_queue [] (set_queue q s))))) m st (map fst ts)) as (ts' & R' & M' & L'); auto.
    { intros; apply NE; right; auto. }
    { exists ts. auto. }
    exists (t :: ts'). split; [|split].
    + eapply runz_tok; [|apply NE; left; reflexivity|exact R'].
      intros k K. destruct k as [|k]; [lia|]. cbn [nt_loop]. rewrite M, Q. reflexivity.
    + cbn. f_equal. exact M'.
    + constructor; auto.
Qed.
(** a string whose parts are handed out from the queue *)
Lemma g_quoted st inp t raw r toks :
  (exists F, forall code f s, F <= f -> at_ code s inp -> lmode s = LInScripting -> lstack s = st -> queue s = [] ->
     exists sp s' q, scan code (next_token code f) f s = TOk (t, sp) s' /\ at_ code s' r /\ lmode s' = LEmitQueue /\
       lstack s' = LInScripting :: st /\ queue s' = q /\ map fst q = raw /\ late (src_pos s) q /\ src_pos s <= sp_start sp /\ src_pos s <= src_pos s') ->
  t <> Kw KEnd -> ~ In (Kw KEnd) raw -> lexg E LInScripting st r toks -> lexg E LInScripting st inp (t :: raw ++ toks).
Proof.
  intros (F1 & S) NE NR (F & R). exists (Datatypes.S (Datatypes.S (F1 + F))). intros code f s LF H M ST Q.
  destruct (S code f s ltac:(lia) H M ST Q) as (sp & s' & q & X & A & B1 & B2 & B3 & D & G & P1 & P2).
  set (s2 := set_restart true (set_mode LInScripting (set_stack st (set_queue [] s')))).
  destruct (R code f s2 ltac:(lia)) as (ts & RR & MM & LL); auto.
  destruct (g_drain code f F q (src_pos s) s' s2 LInScripting st toks B1 B2 B3) as (ts' & R' & M' & L'); auto.
  { intros x I X'. apply (in_map fst) in I. rewrite D, X' in I. contradiction. }
  { exists ts. split; auto. split; auto. eapply late_weak; [|exact LL]. exact P2. }
  exists ((t, sp) :: ts'). split; [|split].
  - eapply runz_tok; [|exact NE|eapply runz_mono; [|exact R']; lia].
    intros k K. destruct k as [|k]; [lia|]. rewrite nt_scan by congruence. rewrite X. reflexivity.
  - cbn [map fst]. f_equal. etransitivity; [exact M'|]. rewrite D. reflexivity.
  - constructor; [exact P1|exact L'].
Qed.
End G.

(** ** Whole sources *)
Lemma runz_loop code f F s ts : runz code f F (at_end code) s ts -> F <= f -> forall n acc, List.length ts < n ->
  exists sf, tokenize_loop code n (S f) acc s = DOk (acc ++ ts, sf).
Proof.
  induction 1 as [s o (sp & sf & ->) X|s t s' ts X NE R IH]; intros LF n acc LN; (destruct n as [|n]; [lia|]);
    cbn [tokenize_loop]; change (next_token code (S f) s) with (nt_loop code (next_token code f) f f s).
  - rewrite X by lia. rewrite app_nil_r. eauto.
  - rewrite X by lia. destruct t as [t sp]. cbn in NE.
    destruct (IH LF n (acc ++ [(t, sp)])) as (sf & Y); [cbn in LN; lia|]. rewrite <- app_assoc in Y. exists sf.
    destruct t as [| | | | | | | |k]; try exact Y. destruct k; try exact Y. congruence.
Qed.
Lemma g_tokens src toks : lexg at_end LInitial [] src toks -> tokens_of src toks.
Proof.
  intros (F & R). exists (S (F + S (List.length toks))). intros f L. destruct f as [|f]; [lia|].
  destruct (R src f tst_init ltac:(lia)) as (ts & RR & M & _); try reflexivity.
  { exists []. auto. }
  assert (X : List.length ts = List.length toks) by (rewrite <- M; symmetry; apply map_length).
  destruct (runz_loop src f F tst_init ts RR ltac:(lia) (S f) []) as (sf & Y); [lia|].
  exists ts, sf. split; [|exact M]. unfold tokenize. rewrite Y. reflexivity.
Qed.

(** ** Code inside strings *)
Lemma block_run code f F r s ts : runz code f F (at_brace r code) s ts -> F <= f -> forall n acc, List.length ts < n ->
  exists sf, block_loop (next_token code (S f)) n acc s = TOk (acc ++ ts) sf /\ at_ code sf r /\ queue sf = [].
Proof.
  induction 1 as [s o (sf & -> & A & Q) X|s t s' ts X NE R IH]; intros LF n acc LN; (destruct n as [|n]; [lia|]);
    cbn [block_loop]; change (next_token code (S f) s) with (nt_loop code (next_token code f) f f s).
  - rewrite X by lia. rewrite app_nil_r. eauto.
  - rewrite X by lia. destruct (IH LF n (acc ++ [t])) as (sf & Y & Z); [cbn in LN; lia|]. rewrite <- app_assoc in Y. exists sf. split; [exact Y|exact Z].
Qed.
Lemma at_le code s inp s' r w : at_ code s inp -> at_ code s' r -> inp = w ++ r -> src_pos s <= src_pos s'.
Proof. intros A B ->. pose proof (at_pos _ _ _ A) as P1. pose proof (at_pos _ _ _ B) as P2. rewrite blen_app in P1. lia. Qed.
Lemma block_ok inp raw r : lexg (at_brace r) LInScripting [LDoNothing] inp (raw ++ [Kw KCurlyBracesClose]) ->
  exists F, forall code f s bs parts p0 (req : bool), F <= f -> at_ code s (123%N :: inp) -> (req = true -> starts_with_c 36 inp = true) ->
  queue s = [] -> p0 + List.length bs <= src_pos s -> late p0 parts ->
  exists parts' s' pb ts, str_block code (next_token code f) f bs parts req s = TOk ([], parts') s' /\ at_ code s' r /\ lmode s' = lmode s /\
    lstack s' = lstack s /\ queue s' = [] /\ flush bs parts (src_pos s) s = TOk pb s /\
    parts' = pb ++ (Kw KCurlyBracesOpen, mk_span (src_pos s) (src_pos s + 1)) :: ts /\ map fst ts = raw ++ [Kw KCurlyBracesClose] /\ late p0 ts.
Proof.
  intros (F & R). exists (S (S (S (F + S (List.length raw))))). intros code f s bs parts p0 req LF H RQ Q PB LP.
  destruct f as [|f]; [lia|].
  pose proof (at_move_eq code s [123%N] inp (src_pos s + 1) H eq_refl) as H1.
  set (s1 := set_pos (src_pos s + 1) s) in *.
  set (s2 := set_stack [LDoNothing] (set_mode LInScripting s1)).
  assert (H2 : at_ code s2 inp) by (eapply at_same; [|exact H1]; reflexivity).
  destruct (R code f s2 ltac:(lia) H2 eq_refl eq_refl Q) as (ts & RR & M & LT).
  assert (LN : List.length ts = S (List.length raw)).
  { transitivity (List.length (map fst ts)); [symmetry; apply map_length|]. rewrite M, app_length. cbn. lia. }
  destruct (block_run code f F r s2 ts RR ltac:(lia) (S f) [(Kw KCurlyBracesOpen, mk_span (src_pos s) (src_pos s + 1))]) as (sf & BL & A & QF); [lia|].
  destruct (flush_ok bs parts (src_pos s) s p0 PB LP) as (pb & F1 & F2 & F3).
  assert (F1' : flush bs parts (src_pos s) sf = TOk pb sf).
  { unfold flush in *. destruct bs; [injection F1 as <-; reflexivity|]. unfold tbind, tsub in *. destruct (_ <=? _); [|discriminate]. unfold tret in *. injection F1 as <-. reflexivity. }
  exists (pb ++ (Kw KCurlyBracesOpen, mk_span (src_pos s) (src_pos s + 1)) :: ts), (set_stack (lstack s) (set_mode (lmode s) sf)), pb, ts.
  split; [|split; [eapply at_same; [|exact A]; reflexivity|]]; [|repeat (split; [reflexivity || exact QF || exact F1 || exact M|]); eapply late_weak; [|exact LT]; cbn; lia].
  unfold str_block. unfold tbind at 1. rewrite (adv_bytes_n code s [123%N] inp 1 H eq_refl). fold s1. rewrite (tbind_input _ _ _ _ H1).
  replace (starts_with_c 36 inp || negb req) with true by (destruct req; [rewrite RQ by reflexivity; reflexivity|rewrite orb_true_r; reflexivity]).
  unfold tbind at 1, tget at 1. unfold tbind at 1, tput at 1. unfold tbind at 1, input_pos at 1. fold s2.
  unfold tbind at 1, tsub at 1. change (src_pos s2) with (src_pos s + 1). destruct (Nat.leb_spec 1 (src_pos s + 1)) as [_|]; [|lia]. unfold tret at 1.
  replace (src_pos s + 1 - 1) with (src_pos s) by lia. unfold tbind at 1. rewrite BL. cbn [app].
  assert (LA : exists sp, last ((Kw KCurlyBracesOpen, mk_span (src_pos s) (src_pos s + 1)) :: ts) (Kw KEnd, span_new) = (Kw KCurlyBracesClose, sp)).
  { clear - M. revert M. generalize (Kw KCurlyBracesOpen, mk_span (src_pos s) (src_pos s + 1)) as x. revert raw. induction ts as [|y ts IH]; intros raw x M; [destruct raw; discriminate|].
    destruct raw as [|z raw]; cbn in M.
    - injection M as M1 M2. destruct ts; [|discriminate]. destruct y as [y sp]. cbn in *. subst. eauto.
    - injection M as M1 M2. destruct (IH raw y M2) as (sp & X). exists sp. exact X. }
  destruct LA as (sp & LA). match goal with |- context [last ?a ?b] => change (last a b) with (last ((Kw KCurlyBracesOpen, mk_span (src_pos s) (src_pos s + 1)) :: ts) (Kw KEnd, span_new)) end. rewrite LA. unfold tbind at 1, tsub at 1. change (src_pos s1) with (src_pos s + 1). destruct (Nat.leb_spec 1 (src_pos s + 1)) as [_|]; [|lia]. unfold tret at 1.
  replace (src_pos s + 1 - 1) with (src_pos s) by lia. unfold tbind at 1. rewrite F1'. reflexivity.
Qed.
