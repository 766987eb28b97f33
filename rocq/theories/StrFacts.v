(** * StrFacts: which strings survive being printed (C21) *)
From Verif Require Import Base Tokens Ast AstMap Lexer Parser Printer Driver Spec SpecProg SpecRT SmallFacts LexBase LexSteps LexWords LexTok LexNum LexStr LexMore LexRun LexParse LexFacts LexCrash LexMono ParseRun ParseTac ParseExpr ParseStmt ParseDecl Emit ProgNames RTBase RoundTrip.
From Coq Require Import String.

(** ** Literals without an end *)
(** reading on behind the opening quote: the contents and the rest *)
Fixpoint rd (x : str) : option (str * str) :=
  match x with
  | [] => None
  | c :: q =>
    if (c =? 39)%N then Some ([], q)
    else if (c =? 92)%N then
      match q with
      | [] => None
      | d :: q' => match rd q' with Some (w, r) => Some ((if ((d =? 92) || (d =? 39))%N then [d] else [92; d]%N) ++ w, r) | None => None end
      end
    else match rd q with Some (w, r) => Some (c :: w, r) | None => None end
  end.
Lemma rd_some : forall n x w r, List.length x <= n -> rd x = Some (w, r) -> exists c, x = c ++ 39%N :: r /\ sq_content c = true /\ sq_decode c = w.
Proof.
  induction n as [|n IH]; intros [|c q] w r L E; try discriminate; [cbn in L; lia|]. cbn [rd] in E. cbn [List.length] in L.
  destruct (N.eqb_spec c 39) as [->|N39]; [injection E as <- <-; exists []; auto|].
  destruct (N.eqb_spec c 92) as [->|N92].
  - destruct q as [|d q]; [discriminate|]. destruct (rd q) as [[w' r']|] eqn:R; [|discriminate]. injection E as <- <-.
    destruct (IH q w' r' ltac:(cbn in L; lia) R) as (k & -> & C & D). exists (92%N :: d :: k). split; [reflexivity|]. split; [exact C|].
    change (sq_decode (92%N :: d :: k)) with (if ((d =? 92) || (d =? 39))%N then d :: sq_decode k else 92%N :: sq_decode (d :: k)). rewrite <- D.
    destruct ((d =? 92) || (d =? 39))%N eqn:DD; [reflexivity|]. rewrite sq_decode_cons; [reflexivity|]. apply orb_false_elim in DD. tauto.
  - destruct (rd q) as [[w' r']|] eqn:R; [|discriminate]. injection E as <- <-. destruct (IH q w' r' ltac:(lia) R) as (k & -> & C & D). exists (c :: k). split; [reflexivity|].
    split; [|rewrite sq_decode_cons, D; [reflexivity|apply N.eqb_neq; exact N92]]. cbn [sq_content]. rewrite (proj2 (N.eqb_neq _ _) N39), (proj2 (N.eqb_neq _ _) N92). exact C.
Qed.
Lemma rd_run w q : Forall (fun c => sq_special c = false) w -> rd (w ++ q) = None -> rd q = None.
Proof.
  induction 1 as [|c w H F IH]; auto. cbn [app rd]. unfold sq_special in H. apply orb_false_elim in H. destruct H as [H _]. apply orb_false_elim in H. destruct H as [H1 H2].
  rewrite H1, H2. destruct (rd (w ++ q)) as [[]|]; [discriminate|auto].
Qed.

(** ** Errors of the tokenizer *)
Definition errs1 (m : lstate) (st : list lstate) (inp : str) : Prop :=
  exists L, forall code nt lf s, L <= lf -> at_ code s inp -> lmode s = m -> lstack s = st -> queue s = [] ->
  exists e s', scan code nt lf s = TErr e s' /\ e <> SENone.
Lemma sq_loop_open code : forall n x s bak bs, at_ code s x -> rd x = None -> List.length x < n ->
  exists e s', sq_loop code n bak bs s = TErr e s' /\ e <> SENone.
Proof.
  induction n as [|n IH]; intros x s bak bs H C L; [lia|]. cbn [sq_loop].
  destruct (split_run sq_special x) as (w & q & -> & F & Q). apply rd_run in C; auto. rewrite app_length in L.
  rewrite (tbind_input _ _ _ _ H). change (fun x => ((x =? 92) || (x =? 39) || (x =? 10))%N) with sq_special.
  rewrite position_app; auto.
  assert (E : match (match q with [] => None | _ :: _ => Some (List.length w) end) with Some e => e | None => List.length (w ++ q) end = List.length w).
  { destruct q; [rewrite app_nil_r|]; reflexivity. }
  rewrite E. clear E. unfold tbind at 1. rewrite (adv_chars code s w _ _ H eq_refl).
  pose proof (at_move code s w _ H) as H1. rewrite (tbind_input _ _ _ _ H1).
  destruct q as [|c q].
  - unfold tbind, input_pos, trestore, terr. eexists. eexists. split; [reflexivity|discriminate].
  - cbn in Q. apply negb_false_iff in Q. cbn in L. destruct (N.eqb_spec c 10) as [->|N10].
    + unfold tbind at 1. rewrite (adv_bytes_n code _ [10%N] _ 1 H1 eq_refl). unfold tbind at 1, next_line.
      pose proof (at_move_eq code _ [10%N] q (src_pos (set_pos (src_pos s + blen w) s) + 1) H1 eq_refl) as H2.
      apply (IH q); [eapply at_same; [|exact H2]; reflexivity| |lia]. cbn in C. destruct (rd q) as [[]|]; [discriminate|reflexivity].
    + unfold sq_special in Q. rewrite (proj2 (N.eqb_neq c 10) N10), orb_false_r in Q. cbn [rd] in C. destruct (N.eqb_spec c 92) as [->|N92]; cycle 1.
      { cbn in Q. rewrite Q in C. discriminate. }
      cbn [N.eqb Pos.eqb] in C |- *. destruct q as [|d q].
      * unfold tbind at 1. unfold str_escape. rewrite (tbind_input _ _ _ _ H1). cbn [nth_error]. unfold tbind, input_pos, terr. eexists. eexists. split; [reflexivity|discriminate].
      * cbn in L. unfold tbind at 1. rewrite (escape_sq _ _ 92 d q _ H1) by reflexivity. pose proof (at_move code _ [92; d]%N q H1) as H2.
        apply (IH q _ bak _ H2); [|lia]. destruct (rd q) as [[]|]; [discriminate|reflexivity].
Qed.
Lemma errs_sq st x : x <> [] -> rd x = None -> errs1 LInScripting st (39%N :: x).
Proof.
  intros NX R. exists (S (List.length x)). intros code nt lf s LF H M ST Q. unfold scan. rewrite M.
  unfold in_scripting_token. unfold tbind at 1, whitespace. rewrite (tbind_input _ _ _ _ H).
  rewrite ws_none by reflexivity. rewrite (tbind_input _ _ _ _ H). unfold tbind at 1, input_pos at 1.
  rewrite (ret_none _ _ _ _ (doc_none code nt lf s _ H ltac:(reflexivity) ltac:(reflexivity))).
  rewrite (ret_none (bnum code) _ s s (pnum_none code s _ (s2l "0b") _ _ H ltac:(reflexivity))).
  rewrite (ret_none (hnum code) _ s s (pnum_none code s _ (s2l "0x") _ _ H ltac:(reflexivity))).
  rewrite (ret_none _ _ _ _ (onum_none code s _ H ltac:(reflexivity))).
  rewrite (ret_none _ _ _ _ (dq_none code nt lf s _ H ltac:(reflexivity) ltac:(reflexivity))).
  rewrite (ret_none _ _ _ _ (var_none code s _ H ltac:(reflexivity))).
  pose proof (at_move_eq code s [39%N] _ (src_pos s + 1) H eq_refl) as H1.
  destruct (sq_loop_open code lf x _ s [] H1 R ltac:(lia)) as (e & s' & A & NE).
  exists e, s'. split; [|exact NE]. unfold ret_token at 1. unfold match_sq_string. rewrite (tbind_input _ _ _ _ H).
  assert (BL : (blen (39%N :: x) <? 2) = false).
  { apply Nat.ltb_ge. cbn [blen]. destruct x as [|c x]; [congruence|]. cbn [blen]. change (clen 39) with 1. pose proof (clen_pos c). lia. }
  rewrite BL. unfold tbind at 1, tget. replace (starts_with (s2l "b'") (39%N :: x)) with false by reflexivity.
  cbn [starts_with_c]. rewrite N.eqb_refl. unfold tbind at 1. unfold tbind at 1. rewrite (adv_bytes_n code s [39%N] _ 1 H eq_refl). unfold tret at 1.
  unfold tbind at 1. rewrite A. destruct e; congruence.
Qed.

(** from [inp] in mode [m] the tokenizer ends in an error *)
Definition ends_badly (m : lstate) (st : list lstate) (inp : str) : Prop :=
  exists F, forall code f s, F <= f -> at_ code s inp -> lmode s = m -> lstack s = st -> queue s = [] ->
  forall n acc, F <= n -> exists x, tokenize_loop code n (S f) acc s = DErr x.
Lemma stop_step m st inp t m' st' r : m <> LEmitQueue -> step1 m st inp t m' st' r -> t <> Kw KEnd -> ends_badly m' st' r -> ends_badly m st inp.
Proof.
  intros NM (L & S1) NE (F & R). exists (S (L + F)). intros code f s LF H M ST Q n acc LN.
  destruct (S1 code (next_token code f) f s ltac:(lia) H M ST Q) as (sp & s' & E & H' & M' & ST' & Q' & P1 & P2).
  destruct n as [|n]; [lia|]. cbn [tokenize_loop]. change (next_token code (S f) s) with (nt_loop code (next_token code f) f f s).
  destruct f as [|f]; [lia|]. rewrite nt_scan by congruence. rewrite E.
  destruct (R code (S f) s' ltac:(lia) H' M' ST' Q' n (acc ++ [(t, sp)]) ltac:(lia)) as (x & X).
  exists x. destruct t as [k| | | | | | | |]; auto. destruct k; auto; congruence.
Qed.
Lemma stop_now m st inp : m <> LEmitQueue -> errs1 m st inp -> ends_badly m st inp.
Proof.
  intros NM (L & S1). exists (S L). intros code f s LF H M ST Q n acc LN.
  destruct (S1 code (next_token code f) f s ltac:(lia) H M ST Q) as (e & s' & E & NE). exists (e, s').
  destruct n as [|n]; [lia|]. cbn [tokenize_loop]. change (next_token code (S f) s) with (nt_loop code (next_token code f) f f s).
  destruct f as [|f]; [lia|]. rewrite nt_scan by congruence. rewrite E. destruct e; try reflexivity. congruence.
Qed.
Lemma stop_ws st w r : blank w = true -> ends_badly LInScripting st r -> ends_badly LInScripting st (w ++ r).
Proof.
  intros B (F & R). exists (S F). intros code f s LF H M ST Q n acc LN.
  destruct (ws_skip code w r s (blank_forall w B) H) as (A1 & A2 & A3 & A4).
  set (s2 := whitespace_loop w s) in *. injection A2 as B1 B2 B3 B4.
  destruct (R code f s2 ltac:(lia) A1 ltac:(congruence) ltac:(congruence) ltac:(congruence) n acc ltac:(lia)) as (x & X).
  exists x. rewrite <- X. destruct n as [|n]; [lia|]. cbn [tokenize_loop].
  replace (next_token code (S f) s) with (next_token code (S f) s2); [reflexivity|].
  change (next_token code (S f) s) with (nt_loop code (next_token code f) f f s).
  change (next_token code (S f) s2) with (nt_loop code (next_token code f) f f s2).
  destruct f as [|f]; [lia|]. rewrite !nt_scan by congruence.
  assert (E : scan code (next_token code (S f)) (S f) s = scan code (next_token code (S f)) (S f) s2); [|rewrite E; reflexivity].
  unfold scan. rewrite B1, M. unfold in_scripting_token, tbind at 1. rewrite A4. reflexivity.
Qed.
Lemma stop_open st r : ends_badly LInScripting st r -> ends_badly LInitial st (s2l "<?php" ++ r).
Proof.
  intros R. eapply stop_step with (t := Kw KOpenTag) (m' := LInScripting) (st' := st) (r := r); [discriminate| |discriminate|exact R].
  exists 0. intros code nt lf s LF H M ST Q. unfold scan. rewrite M, (open_php code s r H).
  eexists. eexists. split; [reflexivity|]. split; [|cbn; repeat split; auto; lia].
  eapply at_same; [|apply (at_move_eq code s (s2l "<?php") r (src_pos s + 5)); auto]. reflexivity.
Qed.
Lemma stop_rejects src l : ends_badly LInitial [] src -> ~ parses_to src l.
Proof.
  intros (F & R) (F' & P). destruct (R src (F + F') tst_init ltac:(lia)) with (n := S (F + F')) (acc := @nil tokspan) as (x & X); try reflexivity; try lia.
  - exists []. auto.
  - destruct (P (S (F + F')) ltac:(lia)) as (l' & E & _). unfold parse_str, tokenize in E. rewrite X in E. destruct x as [e s].
    unfold mk_serror in E. destruct (err_span e); [|discriminate]. destruct (line_from_position _ _); [|discriminate]. destruct (line_range _ _ _) as [[]|]; discriminate.
Qed.

(** ** Printed strings *)
Lemma rd_shorter : forall n x w r, List.length x <= n -> rd x = Some (w, r) -> List.length r < List.length x.
Proof. intros n x w r L E. destruct (rd_some n x w r L E) as (c & -> & _). rewrite app_length. cbn. lia. Qed.
Lemma rd_print : forall n s r d r', List.length s <= n -> rd (sq_print s ++ 39%N :: r) = Some (d, r') -> r' = r ->
  List.length d <= List.length s /\ (two_backslashes s = true -> List.length d < List.length s).
Proof.
  induction n as [|n IH]; intros [|c s] r d r' L E R; [| cbn in L; lia| |].
  1, 2: cbn in E; injection E as <- <-; cbn; split; [lia|discriminate].
  cbn [List.length] in L. cbn [sq_print] in E. cbn [two_backslashes].
  destruct (N.eqb_spec c 39) as [->|N39].
  { cbn [app rd N.eqb Pos.eqb orb] in E. destruct (rd (sq_print s ++ 39%N :: r)) as [[w z]|] eqn:X; [|discriminate]. injection E as <- <-.
    destruct (IH s r w z ltac:(lia) X R) as [I1 I2]. cbn [app List.length]. split; [lia|]. intros T. destruct s; [discriminate|]. cbn [N.eqb Pos.eqb andb orb] in T. specialize (I2 T). lia. }
  destruct (N.eqb_spec c 92) as [->|N92].
  - destruct s as [|e s].
    { cbn in E. injection E as <- <-. cbn. split; [lia|discriminate]. }
    destruct (N.eqb_spec e 39) as [->|M39].
    + cbn [app rd N.eqb Pos.eqb orb] in E. destruct (rd (sq_print s ++ 39%N :: r)) as [[w z]|] eqn:X; [|discriminate]. injection E as <- <-.
      cbn [List.length] in *. destruct (IH s r w z ltac:(lia) X R) as [I1 I2]. cbn [app List.length]. split; [lia|]. intros T. cbn [two_backslashes N.eqb Pos.eqb andb orb] in T. destruct s; [discriminate|]. specialize (I2 T). lia.
    + destruct (N.eqb_spec e 92) as [->|M92].
      * cbn [sq_print N.eqb Pos.eqb] in E. cbn [List.length] in *. assert (G : List.length d < S (S (List.length s))); [|split; [lia|intros _; exact G]].
        destruct s as [|g s].
        { cbn [app rd N.eqb Pos.eqb orb] in E. destruct (rd r) as [[w z]|] eqn:X; [|discriminate]. injection E as <- <-. pose proof (rd_shorter _ r w z (le_n _) X). subst z. lia. }
        destruct (N.eqb_spec g 39) as [->|P39].
        { cbn [app rd N.eqb Pos.eqb orb] in E. injection E as <- <-. cbn. lia. }
        cbn [app] in E. change (rd (92%N :: 92%N :: sq_print (g :: s) ++ 39%N :: r)) with (match rd (sq_print (g :: s) ++ 39%N :: r) with Some (w, r) => Some ([92%N] ++ w, r) | None => None end) in E.
        destruct (rd (sq_print (g :: s) ++ 39%N :: r)) as [[w z]|] eqn:X; [|discriminate]. injection E as <- <-.
        destruct (IH (g :: s) r w z ltac:(lia) X R) as [I1 I2]. cbn [app List.length] in *. lia.
      * assert (SP : sq_print (e :: s) = e :: sq_print s) by (cbn [sq_print]; rewrite (proj2 (N.eqb_neq _ _) M39), (proj2 (N.eqb_neq _ _) M92); reflexivity). rewrite SP in E.
        cbn [app rd N.eqb Pos.eqb orb] in E. rewrite (proj2 (N.eqb_neq _ _) M39), (proj2 (N.eqb_neq _ _) M92) in E. cbn [orb] in E.
        destruct (rd (sq_print s ++ 39%N :: r)) as [[w z]|] eqn:X; [|discriminate]. injection E as <- <-. cbn [List.length] in *. destruct (IH s r w z ltac:(lia) X R) as [I1 I2].
        cbn [app List.length]. split; [lia|]. intros T. cbn [two_backslashes] in T. rewrite ?(proj2 (N.eqb_neq _ _) M92), ?andb_false_r in T. cbn [andb orb] in T. destruct s; [discriminate|]. specialize (I2 T). lia.
  - cbn [app rd] in E. rewrite (proj2 (N.eqb_neq _ _) N39), (proj2 (N.eqb_neq _ _) N92) in E. destruct (rd (sq_print s ++ 39%N :: r)) as [[w z]|] eqn:X; [|discriminate]. injection E as <- <-.
    destruct (IH s r w z ltac:(lia) X R) as [I1 I2]. cbn [List.length]. split; [lia|]. intros T. destruct s; [discriminate|]. rewrite ?(proj2 (N.eqb_neq _ _) N92) in T. cbn [andb orb] in T. specialize (I2 T). lia.
Qed.
Lemma suffix_eq (code p q r r' : str) : code = p ++ r -> code = q ++ r' -> blen p = blen q -> r = r'.
Proof. intros -> E B. pose proof (drop_app p r) as D. rewrite E, B, drop_app in D. congruence. Qed.
Lemma rd_chars : forall n x w r, List.length x <= n -> rd x = Some (w, r) -> Forall scalar x -> Forall scalar w /\ Forall scalar r.
Proof.
  induction n as [|n IH]; intros [|c q] w r L E F; try discriminate; [cbn in L; lia|]. cbn [rd] in E. cbn [List.length] in L. inversion F as [|? ? F1 F2]. subst.
  destruct (N.eqb_spec c 39) as [->|N39]; [injection E as <- <-; auto|].
  destruct (N.eqb_spec c 92) as [->|N92].
  - destruct q as [|d q]; [discriminate|]. destruct (rd q) as [[w' r']|] eqn:R; [|discriminate]. injection E as <- <-. inversion F2. subst.
    destruct (IH q w' r' ltac:(cbn in L; lia) R ltac:(auto)) as [A B]. split; [|exact B]. apply Forall_app. split; [|exact A]. destruct ((d =? 92) || (d =? 39))%N; auto.
  - destruct (rd q) as [[w' r']|] eqn:R; [|discriminate]. injection E as <- <-. destruct (IH q w' r' ltac:(lia) R F2) as [A B]. auto.
Qed.
Lemma sq_print_chars s : Forall scalar s -> Forall scalar (sq_print s).
Proof.
  assert (B : scalar 92) by (left; lia). assert (Q : scalar 39) by (left; lia). revert s.
  assert (H : forall n s, List.length s <= n -> Forall scalar s -> Forall scalar (sq_print s)); [|intros s; exact (H _ s (le_n _))].
  induction n as [|n IH]; intros [|c s] L F; auto; [cbn in L; lia|]. cbn [sq_print List.length] in *. inversion F; subst. assert (I := IH s ltac:(lia) ltac:(auto)).
  destruct (c =? 39)%N; auto. destruct (c =? 92)%N; auto. destruct s as [|d s]; auto. inversion H2; subst. cbn in L. assert (I' := IH s ltac:(lia) ltac:(auto)). destruct (d =? 39)%N; auto.
Qed.
Lemma printed_string_iff code st s r : Forall scalar (s ++ r) -> reading code st (out_str (pr_string s) ++ r) -> reads code st (TCes s) r <-> two_backslashes s = false.
Proof.
  intros SC R. apply Forall_app in SC. destruct SC as [S1 S2]. rewrite out_string in R. rewrite <- !app_assoc in R. 
  change (s2l "'" ++ sq_print s ++ s2l "'" ++ r) with (39%N :: sq_print s ++ 39%N :: r) in R. split.
  - intros (F & N). destruct (two_backslashes s) eqn:T; [exfalso|reflexivity].
    destruct (rd (sq_print s ++ 39%N :: r)) as [[d r']|] eqn:X.
    + destruct (rd_some _ _ d r' (le_n _) X) as (c & E & C & D).
      destruct (rd_chars _ _ d r' (le_n _) X) as [SD _]. { apply Forall_app. split; [apply sq_print_chars; exact S1|]. constructor; [left; lia|exact S2]. }
      assert (RD : reads code st (TCes d) r'). { assert (ST : step1 LInScripting (lstack st) (39%N :: c ++ 39%N :: r') (TCes d) LInScripting (lstack st) r') by (rewrite <- D; apply step_sq; [exact C|rewrite D; exact SD]).
        rewrite E in R. exact (step_reads code st (lstack st) _ _ _ ST R eq_refl). }
      destruct RD as (F' & N'). destruct (N (max F F') ltac:(lia)) as (sp & s' & A & (_ & _ & U) & _). destruct (N' (max F F') ltac:(lia)) as (sp2 & s2 & A2 & (_ & _ & U2) & _).
      rewrite A in A2. injection A2 as E1 E2 E3. subst s2. destruct U as (p & U1 & U3), U2 as (p2 & U4 & U5).
      assert (RR : r' = r) by (eapply suffix_eq; [exact U4|exact U1|congruence]). destruct (rd_print _ s r d r' (le_n _) X RR) as [_ G]. specialize (G T). rewrite <- E1 in G. lia.
    + assert (NN : sq_print s ++ 39%N :: r <> []) by (intros Z; apply app_eq_nil in Z; destruct Z; discriminate). destruct (errs_sq (lstack st) _ NN X) as (L & EL).
      destruct R as (M & Q & U). destruct (EL code (next_token code (S (F + L))) (S (F + L)) st ltac:(lia) U M eq_refl Q) as (e & s' & SE & NE).
      destruct (N (S (S (F + L))) ltac:(lia)) as (sp & s2 & A & _). rewrite next_scan in A by congruence. rewrite SE in A. destruct e; congruence.
  - intros T. destruct (sq_print_ok _ s (le_n _) T) as [C D]. apply (step_reads code st (lstack st) (39%N :: sq_print s ++ 39%N :: r)); [|exact R|reflexivity]. rewrite <- D at 2. apply step_sq; auto. rewrite D. exact S1.
Qed.
Lemma string_render sf n s sp : render (pr_expr sf n (Ex (EString s) sp)) = Some (out_str (pr_string s)).
Proof.
  change (pr_expr sf n (Ex (EString s) sp)) with (pr_string s). unfold pr_string. destruct (ends_with_bs _); reflexivity.
Qed.
Lemma printed_literal_iff sf n s sp p code st r : render (pr_expr sf n (Ex (EString s) sp)) = Some p -> Forall scalar (s ++ r) -> reading code st (p ++ r) ->
  reads code st (TCes s) r <-> two_backslashes s = false.
Proof. intros E. rewrite string_render in E. injection E as <-. apply printed_string_iff. Qed.
Lemma rd_quote : forall n x w r, List.length x <= n -> rd x = Some (w, r) -> In 39%N x.
Proof. intros n x w r L E. destruct (rd_some n x w r L E) as (c & -> & _). apply in_or_app. cbn. auto. Qed.
Lemma rd_noquote : forall n s r d r', List.length s <= n -> ~ In 39%N s -> ~ In 39%N r -> rd (sq_print s ++ 39%N :: r) = Some (d, r') -> r' = r.
Proof.
  induction n as [|n IH]; intros [|c s] r d r' L NS NR E; [| cbn in L; lia| |].
  1, 2: cbn in E; congruence.
  cbn [sq_print List.length] in *. assert (N39 : c <> 39%N) by (intros ->; apply NS; left; reflexivity). assert (NS' : ~ In 39%N s) by (intros X; apply NS; right; exact X). rewrite (proj2 (N.eqb_neq _ _) N39) in E.
  destruct (N.eqb_spec c 92) as [->|N92].
  - destruct s as [|e s]; [cbn in E; congruence|]. assert (M39 : e <> 39%N) by (intros ->; apply NS'; left; reflexivity). assert (NS2 : ~ In 39%N s) by (intros X; apply NS'; right; exact X). rewrite (proj2 (N.eqb_neq _ _) M39) in E.
    cbn [sq_print] in E. rewrite (proj2 (N.eqb_neq _ _) M39) in E. cbn [List.length] in L. destruct (N.eqb_spec e 92) as [->|M92].
    + destruct s as [|g s].
      * cbn [app rd N.eqb Pos.eqb orb] in E. destruct (rd r) as [[w z]|] eqn:X; [|discriminate]. destruct NR. exact (rd_quote _ r w z (le_n _) X).
      * assert (P39 : g <> 39%N) by (intros ->; apply NS2; left; reflexivity). rewrite (proj2 (N.eqb_neq _ _) P39) in E.
        cbn [app] in E. change (rd (92%N :: 92%N :: sq_print (g :: s) ++ 39%N :: r)) with (match rd (sq_print (g :: s) ++ 39%N :: r) with Some (w, r) => Some ([92%N] ++ w, r) | None => None end) in E.
        destruct (rd (sq_print (g :: s) ++ 39%N :: r)) as [[w z]|] eqn:X; [|discriminate]. injection E as <- <-. eapply (IH (g :: s)); eauto. lia.
    + cbn [app rd N.eqb Pos.eqb orb] in E. destruct (rd (sq_print s ++ 39%N :: r)) as [[w z]|] eqn:X; [|discriminate]. injection E as <- <-. eapply (IH s); eauto. lia.
  - cbn [app rd] in E. rewrite (proj2 (N.eqb_neq _ _) N39), (proj2 (N.eqb_neq _ _) N92) in E. destruct (rd (sq_print s ++ 39%N :: r)) as [[w z]|] eqn:X; [|discriminate]. injection E as <- <-. eapply (IH s); eauto. lia.
Qed.
Lemma string_text_parses c : sq_content c = true -> Forall scalar (sq_decode c) ->
  parses_to (s2l "<?php" ++ [10%N] ++ 39%N :: c ++ 39%N :: s2l ";" ++ [10%N] ++ [10%N] ++ s2l "?>") (expr_program (EString (sq_decode c))).
Proof.
  intros C SC. apply (program_parses _ [[TCes (sq_decode c)] ++ [Kw KSemiColon]]); [|discriminate|].
  - cbn [List.concat app]. apply seen_nl. apply (seen_sq [] c); auto. apply (seen_op [] ";" KSemiColon); auto. apply seen_nl, seen_nl. apply (seen_close_tag [] []), seen_html_end.
  - constructor; [|constructor]. apply top_stm, stm_any, stm_expr; [apply (chain_full 18 17); [lia|apply operand_chain, var_operand, var_string]|exact Logic.I].
Qed.
Lemma string_program_iff sf s : Forall scalar s -> ~ In 39%N s -> survives sf (expr_program (EString s)) <-> two_backslashes s = false.
Proof.
  intros SC NQ. split.
  - intros (p & E & P). destruct (two_backslashes s) eqn:T; [exfalso|reflexivity].
    assert (PT : around p = s2l "<?php" ++ [10%N] ++ 39%N :: sq_print s ++ 39%N :: s2l ";" ++ [10%N] ++ [10%N] ++ s2l "?>").
    { apply render_out in E. change (flat_map (pr_stmt sf 0) (expr_program (EString s))) with ((pr_string s ++ t ";" ++ nl) ++ []) in E. rewrite app_nil_r in E. revert E. outs. rewrite out_string. intros <-. unfold around. rewrite <- !app_assoc. reflexivity. }
    rewrite PT in P. set (r := s2l ";" ++ [10%N] ++ [10%N] ++ s2l "?>") in *. assert (NR : ~ In 39%N r) by (cbn; intuition discriminate).
    destruct (rd (sq_print s ++ 39%N :: r)) as [[d r']|] eqn:X.
    + pose proof (rd_noquote _ s r d r' (le_n _) NQ NR X) as ->. destruct (rd_print _ s r d r (le_n _) X eq_refl) as [_ G]. specialize (G T).
      destruct (rd_some _ _ d r (le_n _) X) as (c & E2 & C & D). apply app_inv_tail in E2. subst c.
      pose proof (string_text_parses (sq_print s) C) as Q. rewrite D in Q.
      destruct (rd_chars _ _ d r (le_n _) X) as [SD _]. { apply Forall_app. split; [apply sq_print_chars; exact SC|]. repeat (constructor; [left; cbn; lia|]). constructor. }
      specialize (Q SD). pose proof (parses_det _ _ _ P Q) as Z. cbn in Z. injection Z as Z. unfold id in Z. rewrite <- Z in G. lia.
    + revert P. apply stop_rejects. apply stop_open. apply (stop_ws [] [10%N]); [reflexivity|]. apply stop_now; [discriminate|]. apply errs_sq; [intros Z; apply app_eq_nil in Z; destruct Z; discriminate|exact X].
  - intros T. apply round_trip; [discriminate|]. cbn. unfold string_ok. rewrite T. cbn. rewrite !andb_true_r. apply forallb_forall. intros c I. rewrite Forall_forall in SC. unfold scalar_b. specialize (SC c I). unfold scalar in SC. destruct SC as [SC|[SC1 SC2]]; [apply N.ltb_lt in SC; rewrite SC; reflexivity|]. apply N.leb_le in SC1. apply N.ltb_lt in SC2. rewrite SC1, SC2. apply orb_true_r.
Qed.
