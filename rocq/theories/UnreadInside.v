(** * UnreadInside: whole strings, and strings that do not end (proofs for C41, C42) *)
From Verif Require Import Base Tokens Ast AstMap Lexer Parser Printer Driver Spec SpecMixed SpecText SpecCrash SpecUnread SpecRun SpecGrammar SmallFacts ParserTermination ParserFacts LexBase LexSteps LexWords LexTok LexNum LexStr LexMore LexRun LexParse LexFacts LexMono LexTotal LexCrash LexProg LexText TextTok TextProof UnreadProof TextMain.
From Coq Require Import String.
Local Open Scope list_scope.

(** ** Opening a string *)
Definition quote_kinds (q : quoting) : kind * kind :=
  match q with Quotes => (KDoubleQuote, KDoubleQuote) | Back => (KBackquote, KBackquote) | _ => (KHereDocStart, KHereDocEnd) end.
Definition finish (q : quoting) (bak : tst) (r : bytes * list tokspan) : T tokspan :=
  match q with
  | Now _ => p <- input_pos ;; match snd r with [] => tret (frag_token (fst r), mk_span (src_pos bak) p) | _ => tpanic PAssert end
  | _ => p <- input_pos ;; x <- tsub p 1 ;;
      return_tokens_from_parts (Kw (fst (quote_kinds q)), mk_span (src_pos bak) (src_pos bak + 1)) (Kw (snd (quote_kinds q)), mk_span x p) (fst r) (snd r)
  end.
Lemma opened_part q whole inp : Opened q whole inp -> exists w, w <> [] /\ whole = w ++ inp.
Proof.
  intros [bin i _|i _|bin quoted a tag nl i w _ _ _ -> _|bin a tag nl i w _ _ _ -> _].
  - eexists. split; [|reflexivity]. destruct bin; discriminate.
  - eexists. split; [|reflexivity]. discriminate.
  - exists (s2l (if bin then "b<<<" else "<<<") ++ a ++ (if quoted then [34%N] ++ tag ++ [34%N] else tag) ++ nl). split; [destruct bin; discriminate|]. rewrite <- !app_assoc. reflexivity.
  - exists (s2l (if bin then "b<<<" else "<<<") ++ a ++ (s2l "'" ++ tag ++ s2l "'") ++ nl). split; [destruct bin; discriminate|]. rewrite <- !app_assoc. reflexivity.
Qed.
Lemma opened_head q whole inp : Opened q whole inp -> exists c r, whole = c :: r /\ is_ws c = false.
Proof.
  intros [bin i _|i _|bin quoted a tag nl i w _ _ _ -> _|bin a tag nl i w _ _ _ -> _]; try destruct bin; eexists; eexists; split; reflexivity.
Qed.
Lemma opened_scan q whole inp code f s : Opened q whole inp -> at_ code s whole -> lmode s = LInScripting ->
  exists s1 k, at_ code s1 inp /\ ctl s1 = ctl s /\
    scan code (next_token code f) f s = ret_token (fun _ => tbind (qloop q code f f s [] []) (finish q s) s1) k s.
Proof.
  intros O H M. unfold scan. rewrite M. pose proof H as H0. destruct (opened_head q whole inp O) as (c0 & r0 & E0 & W0). rewrite E0 in H0. rewrite (chain code _ f s c0 r0 H0 W0). clear E0 W0 H0 c0 r0.
  assert (DOC : q <> Quotes -> q <> Back -> exists s1, at_ code s1 inp /\ ctl s1 = ctl s /\ match_here_now_doc code (next_token code f) f s = tbind (qloop q code f f s [] []) (finish q s) s1).
  { intros N1 N2. destruct (opened_shape q whole inp O N1 N2) as (bin & a & ty & tag & nl & D & EQ).
    destruct (doc_parse code (next_token code f) f s whole H) as [[X _]|(bin' & a' & ty' & tag' & nl' & inp' & s1 & D' & A & C & U & X)]; [exfalso; apply X; exists q, inp; auto|].
    destruct (U _ _ _ _ _ _ D) as (<- & <- & <-). exists s1. split; [exact A|]. split; [exact C|]. rewrite X, EQ. destruct ty; reflexivity. }
  destruct O as [bin i I|i I|bin quoted a tag nl i w BA NT NL E L|bin a tag nl i w BA NT NL E L].
  - set (pre := s2l (if bin then "b""" else """")) in *. set (np := if bin then 2 else 1).
    assert (BP : blen pre = np) by (destruct bin; reflexivity).
    pose proof (at_move_eq code s pre i (src_pos s + np) H ltac:(lia)) as H1.
    rewrite (ret_none _ _ _ _ (doc_none code (next_token code f) f s _ H ltac:(destruct bin; reflexivity) ltac:(destruct bin; reflexivity))).
    rewrite (ret_none (bnum code) _ s s (pnum_none code s _ (s2l "0b") _ _ H ltac:(destruct bin; reflexivity))).
    rewrite (ret_none (hnum code) _ s s (pnum_none code s _ (s2l "0x") _ _ H ltac:(destruct bin; reflexivity))). unfold tail.
    rewrite (ret_none _ _ _ _ (onum_none code s _ H ltac:(destruct bin; reflexivity))).
    exists (set_pos (src_pos s + np) s). eexists. split; [exact H1|]. split; [reflexivity|]. unfold ret_token at 1. 
    assert (X : match_dq_string code (next_token code f) f s = tbind (qloop Quotes code f f s [] []) (finish Quotes s) (set_pos (src_pos s + np) s)).
    { unfold match_dq_string. rewrite (tbind_input _ _ _ _ H).
      assert (BL : (blen (pre ++ i) <? 2) = false).
      { apply Nat.ltb_ge. rewrite blen_app. unfold np in *. destruct bin; [lia|]. specialize (I eq_refl). destruct i as [|c i]; [congruence|]. cbn [blen]. pose proof (clen_pos c). lia. }
      rewrite BL. unfold tbind at 1, tget.
      match goal with |- tbind ?m _ _ = _ => assert (OK : m s = TOk true (set_pos (src_pos s + np) s)) end.
      { destruct bin; unfold pre in *.
        - rewrite starts_with_app. unfold tbind. rewrite (adv_bytes_n code s (s2l "b""") _ 2 H eq_refl). reflexivity.
        - change (starts_with (s2l "b""") (s2l """" ++ i)) with false. change (starts_with_c 34 (s2l """" ++ i)) with true. cbn match.
          unfold tbind. rewrite (adv_bytes_n code s (s2l """") _ 1 H eq_refl). reflexivity. }
      unfold tbind at 1. rewrite OK. reflexivity. }
    rewrite X. reflexivity.
  - rewrite (ret_none _ _ _ _ (doc_none code (next_token code f) f s _ H eq_refl eq_refl)).
    rewrite (ret_none (bnum code) _ s s (pnum_none code s _ (s2l "0b") _ _ H eq_refl)).
    rewrite (ret_none (hnum code) _ s s (pnum_none code s _ (s2l "0x") _ _ H eq_refl)). unfold tail.
    rewrite (ret_none _ _ _ _ (onum_none code s _ H eq_refl)).
    rewrite (ret_none _ _ _ _ (dq_none code _ f s _ H eq_refl eq_refl)).
    rewrite (ret_none _ _ _ _ (var_none code s _ H eq_refl)).
    rewrite (ret_none _ _ _ _ (sq_none code f s _ H eq_refl eq_refl)).
    rewrite (ret_none _ _ _ _ (comm_none code s _ H eq_refl eq_refl eq_refl)).
    exists (set_pos (src_pos s + 1) s). eexists. split; [exact (at_move_eq code s (s2l "`") i _ H eq_refl)|]. split; [reflexivity|]. unfold ret_token at 1.
    assert (X : match_backquote code (next_token code f) f s = tbind (qloop Back code f f s [] []) (finish Back s) (set_pos (src_pos s + 1) s)).
    { unfold match_backquote. rewrite (tbind_input _ _ _ _ H).
      assert (BL : (blen (s2l "`" ++ i) <? 2) = false).
      { apply Nat.ltb_ge. rewrite blen_app. destruct i as [|c r]; [congruence|]. cbn [blen]. pose proof (clen_pos c). change (blen (s2l "`")) with 1. lia. }
      rewrite BL. change (starts_with_c 96 (s2l "`" ++ i)) with true. cbv iota. unfold tbind at 1, tget.
      unfold tbind at 1. rewrite (adv_bytes_n code s (s2l "`") i 1 H eq_refl). reflexivity. }
    rewrite X. reflexivity.
  - destruct (DOC ltac:(discriminate) ltac:(discriminate)) as (s1 & A & C & X). exists s1. eexists. split; [exact A|]. split; [exact C|]. unfold ret_token at 1. rewrite X. reflexivity.
  - destruct (DOC ltac:(discriminate) ltac:(discriminate)) as (s1 & A & C & X). exists s1. eexists. split; [exact A|]. split; [exact C|]. unfold ret_token at 1. rewrite X. reflexivity.
Qed.

(** ** Whole strings *)
Definition inside_run (raw : list token) (q : quoting) (b : bytes) (inp : str) (r : str) : Prop :=
  exists F, forall code f n s bak parts p0, F <= f -> F <= n -> at_ code s inp -> queue s = [] -> p0 + List.length b <= src_pos s -> late p0 parts ->
  exists bs' parts' s', qloop q code f n bak b parts s = TOk (bs', parts') s' /\ at_ code s' r /\ lmode s' = lmode s /\ lstack s' = lstack s /\
    queue s' = [] /\ map fst parts' ++ LexStr.pend bs' = map fst parts ++ raw /\ late p0 parts'.
Lemma pieces_inside raw raw' q b inp b' inp' r : pieces_run raw q b inp b' inp' -> inside_run raw' q b' inp' r -> inside_run (raw ++ raw') q b inp r.
Proof.
  intros (F & k & G) (F' & G'). exists (F + F' + k). intros code f n s bak parts p0 LF LN H Q PB LP.
  destruct (G code f n s bak parts p0 ltac:(lia) ltac:(lia) H Q PB LP) as (n' & parts' & s' & LE & X & A & M & ST & Q2 & MP & LP' & PB').
  destruct (G' code f n' s' bak parts' p0 ltac:(lia) ltac:(lia) A Q2 PB' LP') as (b2 & p2 & s2 & X2 & A2 & M2 & ST2 & Q3 & MP2 & LP2).
  exists b2, p2, s2. rewrite X. split; [exact X2|]. split; [exact A2|]. split; [congruence|]. split; [congruence|]. split; [exact Q3|]. split; [|exact LP2].
  rewrite MP2, MP, app_assoc. reflexivity.
Qed.
Lemma quote_end b l r : Literal b l -> inside_run l Quotes b (34%N :: r) r.
Proof.
  intros L. apply literal_pend in L. exists 1. intros code f n s bak parts p0 LF LN H Q PB LP. fuel n.
  rewrite (q_here code f n bak Quotes s 34%N r b parts H eq_refl). cbn [qrest]. unfold dq_rest. rewrite (tbind_input _ _ _ _ H). cbn [N.eqb Pos.eqb].
  unfold tbind. rewrite (adv_bytes_n code s [34%N] r 1 H eq_refl). exists b, parts, (set_pos (src_pos s + 1) s).
  split; [reflexivity|]. split; [exact (at_move_eq code s [34%N] r _ H eq_refl)|]. repeat (split; [reflexivity || exact Q|]). split; [rewrite L; reflexivity|exact LP].
Qed.
Lemma line_end_doc r : line_end r -> match r with 59%N :: c :: _ => (c =? 10) || (c =? 13) | c :: _ => (c =? 10) || (c =? 13) | [] => false end%N = true.
Proof. intros (c & q & I & [-> | ->]); cbn in I; destruct I as [<-|[<-|[]]]; reflexivity. Qed.
(** the end of a heredoc or nowdoc *)
Lemma doc_finish q tag code f n bak s r b parts : is_doc q tag -> line_end r -> at_ code s (10%N :: tag ++ r) ->
  exists s', qloop q code f (S n) bak b parts s = TOk (b, parts) s' /\ at_ code s' r /\ ctl s' = ctl s.
Proof.
  intros I E H. assert (SP : special q 10 = true) by (destruct I as [->| ->]; reflexivity).
  rewrite (q_here code f n bak q s 10%N _ b parts H SP).
  pose proof (at_move_eq code s [10%N] (tag ++ r) (src_pos s + 1) H eq_refl) as H1.
  assert (H2 : at_ code (next_line_st (set_pos (src_pos s + 1) s)) (tag ++ r)) by (eapply at_same; [|exact H1]; reflexivity).
  set (s1 := next_line_st (set_pos (src_pos s + 1) s)) in *.
  pose proof (at_move code s1 tag r H2) as H3. set (s2 := set_pos (src_pos s1 + blen tag) s1) in *.
  assert (X : exists s3, (if starts_with_c 59 r then advance_bytes code 1 ;;; tret tt else tret tt) s2 = TOk tt s3 /\ (exists nl z, new_line nl z /\ at_ code s3 (nl ++ z)) /\ ctl s3 = ctl s2).
  { destruct E as (c & z & IC & [E|E]); rewrite E in *.
    - exists s2. split; [|split; [|reflexivity]].
      + cbn [starts_with_c]. destruct (N.eqb_spec c 59) as [->|]; [cbn in IC; destruct IC as [IC|[IC|[]]]; discriminate|reflexivity].
      + cbn in IC. destruct IC as [<-|[<-|[]]]; [exists [10%N], z; split; [left; reflexivity|exact H3]|].
        destruct z as [|d z]; [exists [13%N], []; split; [right; right; split; [reflexivity|discriminate]|exact H3]|].
        destruct (N.eq_dec d 10) as [->|ND]; [exists [13; 10]%N, z; split; [right; left; reflexivity|exact H3]|exists [13%N], (d :: z); split; [right; right; split; [reflexivity|congruence]|exact H3]].
    - exists (set_pos (src_pos s2 + 1) s2). cbn [starts_with_c]. change (59 =? 59)%N with true. cbv iota. split; [|split; [|reflexivity]].
      + unfold tbind. rewrite (adv_bytes_n code s2 [59%N] (c :: z) 1 H3 eq_refl). reflexivity.
      + pose proof (at_move_eq code s2 [59%N] (c :: z) (src_pos s2 + 1) H3 eq_refl) as H4.
        cbn in IC. destruct IC as [<-|[<-|[]]]; [exists [10%N], z; split; [left; reflexivity|exact H4]|].
        destruct z as [|d z]; [exists [13%N], []; split; [right; right; split; [reflexivity|discriminate]|exact H4]|].
        destruct (N.eq_dec d 10) as [->|ND]; [exists [13; 10]%N, z; split; [right; left; reflexivity|exact H4]|exists [13%N], (d :: z); split; [right; right; split; [reflexivity|congruence]|exact H4]]. }
  destruct X as (s3 & X & (nl & z & NL & H4) & C3). destruct (newline_at code s3 nl z H4 NL) as (s4 & NW & H5 & C4).
  assert (Y : qrest code f n bak q b parts s = TOk (b, parts) (set_pos (src_pos s2) s4)).
  { destruct I as [->| ->]; cbn [qrest]; unfold doc_rest; rewrite (tbind_input _ _ _ _ H); cbn [N.eqb Pos.eqb];
      unfold tbind at 1; rewrite (adv_bytes_n code s [10%N] _ 1 H eq_refl); unfold tbind at 1, next_line at 1; fold s1; rewrite (tbind_input _ _ _ _ H2), starts_with_app;
      unfold tbind at 1; rewrite (adv_bytes_n code s1 tag r _ H2 eq_refl); fold s2; unfold tbind at 1, input_pos at 1; rewrite (tbind_input _ _ _ _ H3);
      unfold tbind at 1; rewrite X; unfold tbind at 1; rewrite NW; reflexivity. }
  exists (set_pos (src_pos s2) s4). split; [exact Y|]. split; [|transitivity (ctl s4); [reflexivity|rewrite C4, C3; reflexivity]].
  eapply at_same; [|exact H3]. reflexivity.
Qed.
Lemma tag_end q tag b l r : is_doc q tag -> Literal b l -> line_end r -> inside_run l q b (10%N :: tag ++ r) r.
Proof.
  intros I L E. apply literal_pend in L. exists 1. intros code f n s bak parts p0 LF LN H Q PB LP. fuel n.
  destruct (doc_finish q tag code f n bak s r b parts I E H) as (s' & A & B & C). exists b, parts, s'. split; [exact A|]. split; [exact B|].
  injection C as C1 C2 C3 C4. split; [exact C1|]. split; [exact C2|]. split; [rewrite C4; exact Q|]. split; [rewrite L; reflexivity|exact LP].
Qed.
Lemma back_end b w l : Forall (plain_char Back) w -> Literal (b ++ encode w) l -> inside_run l Back b (w ++ [96%N]) [].
Proof.
  intros P L. apply literal_pend in L. exists 1. intros code f n s bak parts p0 LF LN H Q PB LP. fuel n.
  rewrite (q_last code f n bak Back s w 96%N b parts H ltac:(cbn; tauto)) by (apply plain_all, Forall_app; split; [exact P|repeat constructor; [intros X; cbn in X; repeat (destruct X as [X|X]; [discriminate X|]); exact X|discriminate]]).
  pose proof (at_move code s w [96%N] H) as H1. cbn [qrest]. unfold bq_rest. rewrite (tbind_input _ _ _ _ H1). cbn [N.eqb Pos.eqb].
  unfold tbind. rewrite (adv_bytes_n code _ [96%N] [] 1 H1 eq_refl). eexists. exists parts. eexists.
  split; [reflexivity|]. split; [exact (at_move_eq code _ [96%N] [] _ H1 eq_refl)|]. repeat (split; [reflexivity || exact Q|]). split; [rewrite L; reflexivity|exact LP].
Qed.
Lemma parts_queue (t1 t2 : tokspan) bs parts s raw : queue s = [] -> map fst parts ++ LexStr.pend bs = raw ->
  exists s' q, return_tokens_from_parts t1 t2 bs parts s = TOk t1 s' /\ src_pos s' = src_pos s /\ lmode s' = LEmitQueue /\ lstack s' = lmode s :: lstack s /\
    queue s' = q /\ map fst q = raw ++ [fst t2] /\ (forall p0, late p0 parts -> p0 <= sp_start (snd t1) -> p0 <= sp_start (snd t2) -> late p0 q).
Proof.
  intros Q M. unfold return_tokens_from_parts, tbind, tget, tput, push_state, tret. cbn beta iota.
  eexists. eexists. split; [reflexivity|]. split; [reflexivity|]. split; [reflexivity|]. split; [reflexivity|]. split; [reflexivity|].
  cbn [queue set_queue]. rewrite Q. unfold tokspan in *. split.
  - rewrite <- M, <- app_assoc. etransitivity; [apply map_app|]. f_equal. destruct bs; reflexivity.
  - intros p0 L1 L2 L3. apply Forall_app. split; [exact L1|]. destruct bs; repeat constructor; cbn; auto.
Qed.
Lemma string_ok E st q whole inp raw r toks : Opened q whole inp -> is_now q = false -> inside_run raw q [] inp r -> (exists w, inp = w ++ r) -> ~ In (Kw KEnd) raw ->
  lexg E LInScripting st r toks -> lexg E LInScripting st whole (Kw (fst (quote_kinds q)) :: (raw ++ [Kw (snd (quote_kinds q))]) ++ toks).
Proof.
  intros O NW (F & G) (w & W) NE L. destruct (opened_part q whole inp O) as (v & V & EV).
  apply (g_quoted E _ _ _ _ r); [|destruct q; discriminate| |exact L].
  2: { intros X. apply in_app_or in X. destruct X as [X|[X|[]]]; [contradiction|destruct q; discriminate]. }
  exists F. intros code f s LF H M ST Q. destruct (opened_scan q whole inp code f s O H M) as (s1 & k & A & C & ->). injection C as C1 C2 C3 C4.
  assert (P1 : src_pos s + 1 <= src_pos s1).
  { pose proof (at_pos _ _ _ H) as X1. pose proof (at_pos _ _ _ A) as X2. rewrite EV, blen_app in X1. destruct v as [|c v]; [congruence|]. cbn [blen] in X1. pose proof (clen_pos c). lia. }
  destruct (G code f f s1 s [] (src_pos s) LF LF A ltac:(congruence) ltac:(cbn; lia) ltac:(constructor)) as (bs & parts & s2 & E1 & E2 & E3 & E4 & E5 & E6 & E7).
  assert (P2 : src_pos s1 <= src_pos s2) by (pose proof (at_pos _ _ _ E2) as X1; pose proof (at_pos _ _ _ A) as X2; rewrite W, blen_app in X2; lia).
  destruct (parts_queue (Kw (fst (quote_kinds q)), mk_span (src_pos s) (src_pos s + 1)) (Kw (snd (quote_kinds q)), mk_span (src_pos s2 - 1) (src_pos s2)) bs parts s2 raw E5 E6)
    as (s' & qu & R1 & R2 & R3 & R4 & R5 & R6 & R7).
  exists (mk_span (src_pos s) (src_pos s + 1)), s', qu.
  split; [|split; [|split; [exact R3|split; [rewrite R4, E3, E4; congruence|split; [exact R5|split; [exact R6|split; [apply R7; cbn; auto; lia|split; [cbn; lia|lia]]]]]]]].
  - apply ret_ok. unfold tbind at 1. rewrite E1.
    assert (X : finish q s (bs, parts) = (p <- input_pos ;; x <- tsub p 1 ;; return_tokens_from_parts (Kw (fst (quote_kinds q)), mk_span (src_pos s) (src_pos s + 1)) (Kw (snd (quote_kinds q)), mk_span x p) bs parts)) by (destruct q; try reflexivity; discriminate).
    rewrite X. unfold tbind at 1, input_pos. unfold tbind at 1, tsub. destruct (Nat.leb_spec 1 (src_pos s2)); [|lia]. unfold tret at 1. exact R1.
  - destruct E2 as (x & X1 & X2). exists x. split; [exact X1|congruence].
Qed.
Lemma now_ok E st tag whole inp b t r toks : Opened (Now tag) whole inp -> pieces_run [] (Now tag) [] inp b ([10%N] ++ tag ++ r) -> (exists w, inp = w ++ r) -> Fragment b t -> line_end r ->
  lexg E LInScripting st r toks -> lexg E LInScripting st whole (t :: toks).
Proof.
  intros O (F & k & G) (w & W) FR LE (FL & L). destruct (opened_part _ whole inp O) as (v & V & EV).
  assert (NE : t <> Kw KEnd) by (destruct FR; discriminate). apply fragment_token in FR.
  exists (S (S (F + k + FL))). intros code f s LF H M ST Q. destruct (opened_scan _ whole inp code f s O H M) as (s1 & kk & A & C & SC). injection C as C1 C2 C3 C4.
  assert (P1 : src_pos s + 1 <= src_pos s1).
  { pose proof (at_pos _ _ _ H) as X1. pose proof (at_pos _ _ _ A) as X2. rewrite EV, blen_app in X1. destruct v as [|c v]; [congruence|]. cbn [blen] in X1. pose proof (clen_pos c). lia. }
  destruct (G code f f s1 s [] (src_pos s) ltac:(lia) ltac:(lia) A ltac:(congruence) ltac:(cbn; lia) ltac:(constructor)) as (n' & parts & s2 & LN & E1 & E2 & E3 & E4 & E5 & E6 & E7 & E8).
  destruct parts as [|? ?]; [|discriminate E6]. fuel n'.
  destruct (doc_finish (Now tag) tag code f n' s s2 r b [] ltac:(right; reflexivity) LE E2) as (s3 & X & B & C). injection C as D1 D2 D3 D4.
  assert (P2 : src_pos s1 <= src_pos s3) by (pose proof (at_pos _ _ _ B) as X1; pose proof (at_pos _ _ _ A) as X2; rewrite W, blen_app in X2; lia).
  destruct (L code f s3 ltac:(lia) B ltac:(congruence) ltac:(congruence) ltac:(congruence)) as (ts & RR & MM & LL).
  exists ((t, mk_span (src_pos s) (src_pos s3)) :: ts). split; [|split; [cbn; rewrite MM; reflexivity|constructor; [cbn; lia|eapply late_weak; [|exact LL]; lia]]].
  eapply runz_tok; [|exact NE|eapply runz_mono; [|exact RR]; lia].
  intros j K. fuel j. rewrite nt_scan by congruence. rewrite SC, (ret_ok _ kk s (t, mk_span (src_pos s) (src_pos s3)) s3); [reflexivity|].
  unfold tbind at 1. rewrite E1, X. cbn [finish]. unfold tbind, input_pos. cbn [fst snd]. rewrite FR. reflexivity.
Qed.

(** ** Strings that do not end *)
Definition stops_inside (whole : str) (q : quoting) (b : bytes) (r : str) (x : fate) : Prop :=
  exists F, forall code f n s bak parts p0, F <= f -> F <= n -> at_ code s r -> queue s = [] -> at_ code bak whole ->
    p0 + List.length b <= src_pos s -> late p0 parts -> ends x code (qloop q code f n bak b parts s).
Lemma opened_stops q whole inp st x : Opened q whole inp -> stops_inside whole q [] inp x -> ends1 x st whole.
Proof.
  intros O (F & G). exists F. intros code f s LF H M ST Q. destruct (opened_scan q whole inp code f s O H M) as (s1 & k & A & C & ->). injection C as C1 C2 C3 C4.
  apply ends_ret. apply ends_bind. apply (G code f f s1 s [] 0); try lia; auto; [congruence|cbn; lia|constructor].
Qed.
Lemma pieces_stop whole raw q b inp b' r x : pieces_run raw q b inp b' r -> stops_inside whole q b' r x -> stops_inside whole q b inp x.
Proof.
  intros (F & k & G) (F' & G'). exists (F + F' + k). intros code f n s bak parts p0 LF LN H Q HB PB LP.
  destruct (G code f n s bak parts p0 ltac:(lia) ltac:(lia) H Q PB LP) as (n' & parts' & s' & LE & X & A & M & ST & Q2 & MP & LP' & PB').
  rewrite X. apply (G' code f n' s' bak parts' p0); try lia; assumption.
Qed.
Lemma unterminated_ends {A} code bak s whole what r : at_ code bak whole -> at_ code s r -> queue s = [] -> blen r <= blen whole ->
  @ends A (Reports (Unterminated what) whole (blen whole - blen r)) code ((old_pos <- input_pos ;; trestore bak ;;; p <- input_pos ;; terr (SEUnterminated (s2l what) (mk_span p old_pos))) s).
Proof.
  intros HB H Q LE. unfold tbind, input_pos, trestore, terr. cbn [ends complaint_error]. eexists. cbv zeta.
  pose proof (at_pos _ _ _ HB) as A1. pose proof (at_pos _ _ _ H) as A2.
  split; [f_equal; f_equal; f_equal; cbn [src_pos restore set_queue]; lia|]. split; [cbn [src_pos restore set_queue skipped]; lia|exact Q].
Qed.
Lemma not_special_dq c : special Quotes c = false -> (c =? 10)%N = false /\ (c =? 36)%N = false /\ (c =? 123)%N = false /\ (c =? 34)%N = false /\ (c =? 92)%N = false.
Proof. cbn [special]. unfold dq_special. intros H. repeat (apply orb_false_elim in H; destruct H as [H ?]). auto. Qed.
Lemma double_stop w whole b c : Forall (plain_char Quotes) (w ++ [c]) -> clen c <= blen whole ->
  stops_inside whole Quotes b (w ++ [c]) (Reports (Unterminated "double-quoted string literal") whole (blen whole - clen c)).
Proof.
  intros P LC. exists 1. intros code f n s bak parts p0 LF LN H Q HB PB LP. fuel n.
  rewrite (q_last code f n bak Quotes s w c b parts H ltac:(cbn; tauto)) by (apply plain_all, P).
  pose proof (at_move code s w [c] H) as H1. cbn [qrest]. unfold dq_rest. rewrite (tbind_input _ _ _ _ H1).
  apply Forall_app in P. destruct P as [_ P]. destruct (not_special_dq c (proj1 (plain_special _ _) (Forall_inv P))) as (A1 & A2 & A3 & A4 & A5). rewrite A1, A2, A3, A4, A5.
  pose proof (@unterminated_ends (bytes * list tokspan) code bak _ whole "double-quoted string literal" [c] HB H1 Q) as X. cbn [blen] in X. rewrite Nat.add_0_r in X. exact (X LC).
Qed.
Lemma back_stop w whole b c : Forall (plain_char Back) (w ++ [c]) -> c <> 96%N -> clen c <= blen whole ->
  stops_inside whole Back b (w ++ [c]) (Reports (Unterminated "Backquote") whole (blen whole - clen c)).
Proof.
  intros P N LC. exists 1. intros code f n s bak parts p0 LF LN H Q HB PB LP. fuel n.
  rewrite (q_last code f n bak Back s w c b parts H ltac:(cbn; tauto)) by (apply plain_all, P).
  pose proof (at_move code s w [c] H) as H1. cbn [qrest]. unfold bq_rest. rewrite (tbind_input _ _ _ _ H1).
  apply Forall_app in P. destruct P as [_ P]. destruct (not_special_dq c (proj1 (plain_special Back _) (Forall_inv P))) as (A1 & A2 & A3 & A4 & A5). rewrite A1, A2, A3, (proj2 (N.eqb_neq c 96) N).
  pose proof (@unterminated_ends (bytes * list tokspan) code bak _ whole "Backquote" [c] HB H1 Q) as X. cbn [blen] in X. rewrite Nat.add_0_r in X. exact (X LC).
Qed.
Lemma back_stop_at whole b c r : In c [34; 92]%N -> blen (c :: r) <= blen whole ->
  stops_inside whole Back b (c :: r) (Reports (Unterminated "Backquote") whole (blen whole - blen (c :: r))).
Proof.
  intros I LE. exists 1. intros code f n s bak parts p0 LF LN H Q HB PB LP. fuel n.
  rewrite (q_here code f n bak Back s c r b parts H) by (destruct I as [<-|[<-|[]]]; reflexivity).
  cbn [qrest]. unfold bq_rest. rewrite (tbind_input _ _ _ _ H).
  pose proof (@unterminated_ends (bytes * list tokspan) code bak _ whole "Backquote" (c :: r) HB H Q LE) as X.
  destruct I as [<-|[<-|[]]]; exact X.
Qed.
Lemma end_stop q whole b : In q [Quotes; Back] -> stops_inside whole q b [] Panics.
Proof.
  intros I. exists 1. intros code f n s bak parts p0 LF LN H Q HB PB LP. fuel n. 
  cbn in I. destruct I as [<-|[<-|[]]]; cbn [qloop dq_loop bq_loop]; rewrite (tbind_input _ _ _ _ H); exists POverflow; reflexivity.
Qed.
Lemma doc_stop whole q tag b : is_doc q tag -> stops_inside whole q b [] (Reports (Unterminated "Here/Nowdoc") whole (blen whole)).
Proof.
  intros I. exists 1. intros code f n s bak parts p0 LF LN H Q HB PB LP. fuel n.
  rewrite (q_end code f n bak q s b parts H) by (destruct I as [->| ->]; exact Logic.I).
  pose proof (@unterminated_ends (bytes * list tokspan) code bak _ whole "Here/Nowdoc" [] HB H Q ltac:(cbn; lia)) as X. cbn [blen] in X. rewrite Nat.sub_0_r in X.
  destruct I as [->| ->]; cbn [qrest]; unfold doc_rest; rewrite (tbind_input _ _ _ _ H); exact X.
Qed.
Lemma now_stop whole tag b c r : In c [36; 123]%N -> blen (c :: r) <= blen whole ->
  stops_inside whole (Now tag) b (c :: r) (Reports (Unterminated "Here/Nowdoc") whole (blen whole - blen (c :: r))).
Proof.
  intros I LE. exists 1. intros code f n s bak parts p0 LF LN H Q HB PB LP. fuel n.
  rewrite (q_here code f n bak (Now tag) s c r b parts H) by (destruct I as [<-|[<-|[]]]; reflexivity).
  cbn [qrest]. unfold doc_rest. rewrite (tbind_input _ _ _ _ H).
  pose proof (@unterminated_ends (bytes * list tokspan) code bak _ whole "Here/Nowdoc" (c :: r) HB H Q LE) as X.
  destruct I as [<-|[<-|[]]]; exact X.
Qed.
Lemma tag_stop whole q tag b (semicolon : bool) r : is_doc q tag -> (semicolon = false -> starts_with (s2l ";") r = false) -> (forall c z, r = c :: z -> ~ In c [10; 13]%N) -> blen r <= blen whole ->
  stops_inside whole q b (10%N :: tag ++ s2l (if semicolon then ";" else "") ++ r)
    (Reports (Unterminated "Here/Nowdoc: end-tag requires to be followed by a newline") whole (blen whole - blen r)).
Proof.
  intros I NS NL LE. exists 1. intros code f n s bak parts p0 LF LN H Q HB PB LP. fuel n.
  rewrite (q_here code f n bak q s 10%N _ b parts H) by (destruct I as [->| ->]; reflexivity).
  set (z := s2l (if semicolon then ";" else "")) in *.
  pose proof (at_move_eq code s [10%N] (tag ++ z ++ r) (src_pos s + 1) H eq_refl) as H1.
  assert (H2 : at_ code (next_line_st (set_pos (src_pos s + 1) s)) (tag ++ z ++ r)) by (eapply at_same; [|exact H1]; reflexivity).
  set (s1 := next_line_st (set_pos (src_pos s + 1) s)) in *.
  pose proof (at_move code s1 tag _ H2) as H3. set (s2 := set_pos (src_pos s1 + blen tag) s1) in *.
  pose proof (at_move code s2 z r H3) as H4. set (s3 := set_pos (src_pos s2 + blen z) s2) in *.
  assert (D : (if starts_with_c 59 (z ++ r) then advance_bytes code 1 ;;; tret tt else tret tt) s2 = TOk tt s3).
  { subst z. destruct semicolon.
    - change (starts_with_c 59 (s2l ";" ++ r)) with true. cbv iota. unfold tbind. rewrite (adv_bytes_n code s2 (s2l ";") r 1 H3 eq_refl). reflexivity.
    - change (s2l "" ++ r) with r in *. specialize (NS eq_refl). change (s2l ";") with [59%N] in NS. rewrite starts1 in NS. rewrite NS. unfold tret. f_equal. symmetry. apply set_pos_id. cbn. lia. }
  assert (Y : newline code s3 = TOk false s3).
  { apply (newline_no code s3 r H4). intros nl u [-> |[-> |[-> _]]] E; eapply (NL _ _ E); cbn; tauto. }
  pose proof (@unterminated_ends (bytes * list tokspan) code bak s3 whole "Here/Nowdoc: end-tag requires to be followed by a newline" r HB H4 Q LE) as X.
  destruct I as [->| ->]; cbn [qrest]; unfold doc_rest; rewrite (tbind_input _ _ _ _ H); cbn [N.eqb Pos.eqb];
    unfold tbind at 1; rewrite (adv_bytes_n code s [10%N] _ 1 H eq_refl); unfold tbind at 1, next_line at 1; fold s1; rewrite (tbind_input _ _ _ _ H2), starts_with_app;
    unfold tbind at 1; rewrite (adv_bytes_n code s1 tag _ (blen tag) H2 eq_refl); fold s2; unfold tbind at 1, input_pos at 1; rewrite (tbind_input _ _ _ _ H3);
    unfold tbind at 1; rewrite D; unfold tbind at 1; rewrite Y; exact X.
Qed.

(** ** Code inside a string *)
Definition block_stops (inp : str) (x : fate) : Prop := exists F, forall code f s bs parts (req : bool), F <= f -> at_ code s (123%N :: inp) ->
  (req = true -> starts_with_c 36 inp = true) -> queue s = [] -> ends x code (str_block code (next_token code f) f bs parts req s).
Lemma block_bad inp toks x : lexg (ends x) LInScripting [LDoNothing] inp toks -> x = Panics \/ x = Hangs -> block_stops inp x.
Proof.
  intros (F & R) PH. exists (S (S (F + List.length toks))). intros code f s bs parts req LF H RQ Q. fuel f.
  destruct (block_enter code (S f) s inp bs parts req H RQ) as [H2 ->]. apply ends_bind.
  match type of H2 with at_ _ ?s2 _ => destruct (R code f s2 ltac:(lia) H2 eq_refl eq_refl Q) as (ts & RR & M & LT) end.
  assert (LN : List.length ts = List.length toks) by (rewrite <- M; symmetry; apply map_length).
  pose proof (block_ends x code f F _ ts RR ltac:(lia) (S f) [(Kw KCurlyBracesOpen, mk_span (src_pos s) (src_pos s + 1))] ltac:(lia)) as B.
  destruct PH as [-> | ->]; exact B.
Qed.
Lemma block_hang inp toks : lexg eof LInScripting [LDoNothing] inp toks -> block_stops inp Hangs.
Proof.
  intros (F & R). exists (S (S F)). intros code f s bs parts req LF H RQ Q. fuel f.
  destruct (block_enter code (S f) s inp bs parts req H RQ) as [H2 ->]. apply ends_bind.
  match type of H2 with at_ _ ?s2 _ => destruct (R code f s2 ltac:(lia) H2 eq_refl eq_refl Q) as (ts & RR & M & LT) end.
  exact (block_eof code f F _ ts RR ltac:(lia) ltac:(lia) _ _).
Qed.

(** ** Inside a string *)
Definition bad_stop (q : quoting) (r : str) (x : fate) : Prop := head_is (special q) r = true /\ forall whole b, stops_inside whole q b r x.
Lemma escape_stop q r x : q <> Back -> (exists F, forall code (f : nat) s b, F <= f -> at_ code s (92%N :: r) -> queue s = [] -> ends x code (str_escape code b (is_now q) s)) -> bad_stop q (92%N :: r) x.
Proof.
  intros NB (F & G). split; [sp_head|]. intros whole b. exists (S F). intros code f n s bak parts p0 LF LN H Q HB PB LP. fuel n.
  rewrite (q_here code f n bak q s 92%N _ b parts H (special_at q 92%N ltac:(cbn; tauto))), (q_escape code f n bak q s _ b parts H NB).
  apply ends_bind. apply (G code f s b); [lia|exact H|exact Q].
Qed.
Lemma variable_stop q r x : splices q -> (exists F, forall code f s b parts p0, F <= f -> at_ code s (36%N :: r) -> queue s = [] -> p0 + List.length b <= src_pos s -> late p0 parts ->
    ends x code (str_variable code (next_token code f) f b parts s)) -> bad_stop q (36%N :: r) x.
Proof.
  intros SP (F & G). split; [sp_head|]. intros whole b. exists (S F). intros code f n s bak parts p0 LF LN H Q HB PB LP. fuel n.
  rewrite (q_here code f n bak q s 36%N _ b parts H (special_at q 36%N ltac:(cbn; tauto))), (q_variable code f n bak q s _ b parts H SP).
  apply ends_bind. apply (G code f s b parts p0); [lia|exact H|exact Q|exact PB|exact LP].
Qed.
Lemma block_stop q (dollar : bool) inp x : splices q -> (dollar = false -> starts_with (s2l "$") inp = true) -> block_stops inp x -> bad_stop q (s2l (fst (opener dollar)) ++ inp) x.
Proof.
  intros SP D (F & G). destruct dollar; cbn [opener fst].
  - apply variable_stop; [exact SP|]. exists F. intros code f s b parts p0 LF H Q PB LP.
    destruct (dollar_enter code f s inp b parts p0 H PB LP) as (pb & H1 & ->). apply ends_bind. apply G; [lia|exact H1|discriminate|exact Q].
  - split; [sp_head|]. intros whole b. exists (S F). intros code f n s bak parts p0 LF LN H Q HB PB LP. fuel n.
    rewrite (q_here code f n bak q s 123%N _ b parts H (special_at q 123%N ltac:(cbn; tauto))), (q_block code f n bak q s _ b parts H SP).
    apply ends_bind. apply G; [lia|exact H|intros _; rewrite <- starts1; exact (D eq_refl)|exact Q].
Qed.
Lemma dollar_drop_stop q inp : splices q -> block_drops inp -> bad_stop q (36%N :: 123%N :: inp) Panics.
Proof.
  intros SP (F & G). apply variable_stop; [exact SP|]. exists F. intros code f s b parts p0 LF H Q PB LP.
  destruct (dollar_enter code f s inp b parts p0 H PB LP) as (pb & H1 & ->).
  destruct (G code f _ [] pb false ltac:(lia) H1 ltac:(discriminate) Q) as (s' & B & _). unfold tbind at 1. rewrite B.
  rewrite (proj2 (nth_error_None pb (List.length pb))) by lia. exists PIndex. reflexivity.
Qed.
Lemma index_stop q v r : splices q -> name_ok v = true -> bad_stop q (36%N :: v ++ 91%N :: r) Panics.
Proof.
  intros SP V. apply variable_stop; [exact SP|]. exists 0. intros code f s b parts p0 LF H Q PB LP.
  destruct (name_facts v V) as (V0 & VF & VD).
  unfold str_variable. unfold tbind at 1. rewrite (adv_bytes_n code s [36%N] (v ++ 91%N :: r) 1 H eq_refl).
  pose proof (at_move_eq code s [36%N] (v ++ 91%N :: r) (src_pos s + 1) H eq_refl) as H1. rewrite (tbind_input _ _ _ _ H1).
  replace (starts_with_c 123 (v ++ 91%N :: r)) with false.
  2: { destruct v as [|c v]; [congruence|]. inversion VF; subst. cbn. symmetry. apply label_not; auto. }
  unfold tbind at 1. rewrite (label_at code _ v (91%N :: r) H1 V0 VF VD eq_refl).
  pose proof (at_move code _ v (91%N :: r) H1) as H2. rewrite (tbind_input _ _ _ _ H2). exists PUnimplemented. reflexivity.
Qed.
Lemma not_hex d : (forall up v, (v < 16)%N -> d <> digit_char up v) -> digit_val 16 d = None.
Proof.
  intros H. destruct (digit_val 16 d) as [v|] eqn:E; [|reflexivity]. exfalso. unfold digit_val in E.
  destruct ((48 <=? d) && (d <=? 57))%N eqn:A; [|destruct ((97 <=? d) && (d <=? 122))%N eqn:B; [|destruct ((65 <=? d) && (d <=? 90))%N eqn:C; [|discriminate]]];
    match type of E with (if (?x <? 16)%N then _ else _) = _ => destruct (N.ltb_spec x 16) as [L|L]; [|discriminate] end; injection E as E.
  - apply andb_prop in A. destruct A as [A1 A2]. apply N.leb_le in A1, A2. apply (H false v ltac:(lia)). unfold digit_char. destruct (N.ltb_spec v 10); lia.
  - apply andb_prop in B. destruct B as [B1 B2]. apply N.leb_le in B1, B2. apply (H false v ltac:(lia)). unfold digit_char. destruct (N.ltb_spec v 10); lia.
  - apply andb_prop in C. destruct C as [C1 C2]. apply N.leb_le in C1, C2. apply (H true v ltac:(lia)). unfold digit_char. destruct (N.ltb_spec v 10); lia.
Qed.
Lemma not_hex_val w acc : Exists (fun d => forall up v, (v < 16)%N -> d <> digit_char up v) w -> digits_val 16 acc w = None.
Proof.
  intros E. revert acc. induction E as [d w H|d w E IH]; intros acc; cbn [digits_val].
  - rewrite (not_hex d H). reflexivity.
  - destruct (digit_val 16 d); [apply IH|reflexivity].
Qed.
Lemma not_hex_radix w : Exists (fun d => forall up v, (v < 16)%N -> d <> digit_char up v) w -> from_str_radix 16 255 w = None.
Proof. intros E. unfold from_str_radix. rewrite (not_hex_val w 0%N E). destruct w; reflexivity. Qed.
Lemma byte_stop q c w r : escapes q -> In c (s2l "xX") -> w <> [] -> List.length w <= 2 -> Forall letter_or_digit w ->
    (List.length w = 1 -> forall d z, r = d :: z -> ~ letter_or_digit d) ->
    r = [] \/ Exists (fun d => forall up v, (v < 16)%N -> d <> digit_char up v) w -> bad_stop q (92%N :: c :: w ++ r) Panics.
Proof.
  intros ES C NE LW F ND BAD. destruct (escapes_facts q ES) as [NB NW]. apply escape_stop; [exact NB|]. exists 0. intros code f s b _ H Q. rewrite NW, (escape_x code s c _ b C H). cbv zeta.
  assert (X : x_index (92%N :: c :: w ++ r) = 1 + List.length w).
  { unfold x_index. cbn [nth_error]. destruct w as [|d1 [|d2 [|]]]; [congruence| | |cbn in LW; lia]; inversion F as [|? ? D1 F2]; subst; cbn [app nth_error List.length].
    - rewrite (proj2 (alnum_iff d1) D1). destruct r as [|d z]; [reflexivity|]. destruct (is_alnum d) eqn:Y; [|reflexivity]. apply alnum_iff in Y. exfalso. exact (ND eq_refl d z eq_refl Y).
    - inversion F2 as [|? ? D2 _]; subst. rewrite (proj2 (alnum_iff d1) D1), (proj2 (alnum_iff d2) D2). reflexivity. }
  rewrite X. cbn [Nat.eqb Nat.add]. replace (S (List.length w) - 1) with (List.length w) by lia. cbn [skipn]. rewrite firstn_app, firstn_all, Nat.sub_diag, firstn_O, app_nil_r.
  destruct BAD as [->|BAD].
  - rewrite (proj2 (nth_error_None (92%N :: c :: w ++ []) (S (List.length w + 1)))) by (rewrite app_nil_r; cbn [List.length]; lia). exists PUnwrap. reflexivity.
  - rewrite (not_hex_radix w BAD). match goal with |- context [match ?o with Some _ => _ | None => _ end] => destruct o end; exists PUnwrap; reflexivity.
Qed.
(** reading would go on in the middle of a character *)
Lemma middle_none code (s s0 : tst) w c z : at_ code s0 (w ++ c :: z) -> src_pos s = blen code - blen (c :: z) + 1 -> clen c <> 1 -> input code s = TPanic PSlice.
Proof.
  intros (p & E1 & E2) P N. unfold input. rewrite P.
  assert (B : blen code - blen (c :: z) + 1 = blen (p ++ w) + 1) by (rewrite E1, !blen_app; lia).
  rewrite B. replace (drop_bytes _ code) with (@None str); [reflexivity|]. symmetry. rewrite E1, app_assoc, drop_more. change (c :: z) with ([c] ++ z). pose proof (clen_pos c).
  apply drop_none; [cbn [blen]; lia|]. intros a b E. destruct a as [|x a]; [discriminate|]. injection E as <- E. destruct a; [cbn [blen]; lia|discriminate].
Qed.
Lemma loop_none q code f n bak b parts s : input code s = TPanic PSlice -> qloop q code f (S n) bak b parts s = TPanic PSlice.
Proof. intros H. destruct q; cbn [qloop dq_loop bq_loop doc_loop]; unfold tbind at 1; rewrite H; reflexivity. Qed.
Lemma cut_stop q (dollar : bool) inp toks c z w : splices q -> (dollar = false -> starts_with (s2l "$") inp = true) ->
  block_takes inp toks (fun code s => src_pos s = blen code - blen (c :: z) + 1) -> inp = w ++ c :: z -> clen c <> 1 -> bad_stop q (s2l (fst (opener dollar)) ++ inp) Panics.
Proof.
  intros SP D T W N. destruct dollar; cbn [opener fst].
  - split; [sp_head|]. intros whole b. destruct (dollar_takes _ _ _ T) as (F & G). exists (S (S F)). intros code f n s bak parts p0 LF LN H Q HB PB LP. fuel n.
    change (s2l "${" ++ inp) with (36%N :: 123%N :: inp) in H.
    rewrite (q_here code f n bak q s 36%N _ b parts H (special_at q 36%N ltac:(cbn; tauto))), (q_variable code f n bak q s _ b parts H SP).
    destruct (G code f s b parts p0 ltac:(lia) H Q PB LP) as (sf & parts' & X & PS & _). unfold tbind at 1. rewrite X. fuel n. exists PSlice. apply loop_none.
    rewrite W in H. change (36%N :: 123%N :: w ++ c :: z) with ((36%N :: 123%N :: w) ++ c :: z) in H. exact (middle_none code (set_stack (lstack s) (set_mode (lmode s) sf)) s _ c z H PS N).
  - split; [sp_head|]. intros whole b. destruct T as (F & G). exists (S (S F)). intros code f n s bak parts p0 LF LN H Q HB PB LP. fuel n.
    change (s2l "{" ++ inp) with (123%N :: inp) in H.
    rewrite (q_here code f n bak q s 123%N _ b parts H (special_at q 123%N ltac:(cbn; tauto))), (q_block code f n bak q s _ b parts H SP).
    destruct (G code f s b parts p0 true ltac:(lia) H ltac:(intros _; rewrite <- starts1; exact (D eq_refl)) Q PB LP) as (sf & pb & ts & X & PS & _).
    unfold tbind at 1. rewrite X. fuel n. exists PSlice. apply loop_none.
    rewrite W in H. change (123%N :: w ++ c :: z) with ((123%N :: w) ++ c :: z) in H. exact (middle_none code (set_stack (lstack s) (set_mode (lmode s) sf)) s _ c z H PS N).
Qed.
