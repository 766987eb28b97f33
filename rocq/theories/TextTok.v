(** * TextTok: single tokens (proofs for C41) *)
From Verif Require Import Base Tokens Ast AstMap Lexer Parser Printer Driver Spec SpecMixed SpecText SpecGrammar SmallFacts ParserTermination ParserFacts LexBase LexSteps LexWords LexTok LexNum LexStr LexMore LexRun LexParse LexFacts LexCrash LexProg LexText.
From Coq Require Import String.
Local Open Scope list_scope.

(** ** Single tokens *)
Lemma ws_white c : white [c] = is_ws c.
Proof. cbn. rewrite andb_true_r. reflexivity. Qed.
Lemma step_yield st w r : white w = true -> (forall c z, r = c :: z -> white [c] = false) -> ends_word (w ++ r) = true ->
  starts_with (s2l "from") r = false -> step1 LInScripting st (s2l "yield" ++ w ++ r) (Kw KYield) LInScripting st r.
Proof.
  intros W WR E NF. exists 0. intros code nt lf s LF H M ST Q. unfold scan. rewrite M.
  assert (HR : head_is is_ws r = false). { destruct r as [|c z]; [reflexivity|]. cbn. rewrite <- ws_white. eapply WR. reflexivity. }
  destruct (ident_facts (s2l "yield") eq_refl) as (N & F & D & A).
  rewrite ends_label in E. apply negb_true_iff in E.
  rewrite (scripting_plain code nt lf s _ H (word_plain (s2l "yield") (w ++ r) N F D eq_refl)).
  unfold label_or_other. unfold tbind at 1. rewrite (label_at code s (s2l "yield") (w ++ r) H N F D E).
  unfold tbind at 1, put_pos at 1. rewrite set_pos2, set_pos_id by reflexivity.
  pose proof (at_move_eq code s (s2l "yield") (w ++ r) (src_pos s + 5) H eq_refl) as H1.
  set (s1 := set_pos (src_pos s + 5) s) in *. set (s2 := whitespace_loop (w ++ r) s1).
  destruct (ws_loop code w r s1 (blank_forall w W) HR H1) as (A1 & A2). fold s2 in A1, A2.
  assert (Y : match_yield code s = TOk (Kw KYield, mk_span (src_pos s) (src_pos s2)) s2).
  { unfold match_yield. rewrite (tbind_input _ _ _ _ H), ci_starts by (apply asciib_iff; reflexivity).
    change (to_lower (s2l "yield")) with (s2l "yield"). rewrite starts_with_app.
    unfold tbind at 1, input_pos at 1. unfold tbind at 1.
    rewrite (adv_bytes_n code s (s2l "yield") (w ++ r) 5 H eq_refl). fold s1.
    unfold tbind at 1, whitespace. rewrite (tbind_input _ _ _ _ H1). fold s2.
    rewrite (tbind_input _ _ _ _ A1), ci_starts by (apply asciib_iff; reflexivity).
    change (to_lower (s2l "from")) with (s2l "from"). rewrite NF. reflexivity. }
  assert (O : in_scripting_other_token code s = TOk (Kw KYield, mk_span (src_pos s) (src_pos s2)) s2).
  { unfold in_scripting_other_token. rewrite (try_entries_at code _ _ s _ H t1).
    change (find_entry table1 (s2l "yield" ++ w ++ r)) with (@None entry). unfold ret_token at 1. rewrite Y. reflexivity. }
  rewrite O. cbn [snd sp_end mk_span].
  assert (P : src_pos s + 5 <= src_pos s2).
  { pose proof (at_le code s1 (w ++ r) s2 r w H1 A1 eq_refl) as P. exact P. }
  change (List.length (s2l "yield")) with 5. destruct (Nat.leb_spec (src_pos s + 5) (src_pos s2)) as [_|]; [|lia].
  injection A2 as B1 B2 B3 B4. subst s1. cbn in B1, B2, B4.
  eexists. eexists. split; [reflexivity|]. rewrite set_pos_id by reflexivity. split; [exact A1|]. repeat split; try congruence; cbn; lia.
Qed.
Lemma step_yield_from st w r : white w = true -> (w = [] -> ends_word r = true) ->
  step1 LInScripting st (s2l "yield" ++ w ++ s2l "from" ++ r) (Kw KYieldFrom) LInScripting st r.
Proof.
  intros W EW. exists 0. intros code nt lf s LF H M ST Q. unfold scan. rewrite M.
  assert (HR : head_is is_ws (s2l "from" ++ r) = false) by reflexivity.
  (* the word that begins here *)
  assert (L : exists u v, s2l "yield" ++ w ++ s2l "from" ++ r = u ++ v /\ ends_word v = true /\ Spec.identifier u = true /\ List.length u <= 9 /\ (w <> [] -> List.length u = 5)).
  { destruct w as [|c w].
    - exists (s2l "yieldfrom"), r. repeat split; auto. congruence.
    - exists (s2l "yield"), ((c :: w) ++ s2l "from" ++ r). repeat split; auto; try (cbn; lia). cbn in W. apply andb_prop in W. destruct W as [W _]. rewrite ends_label. cbn [head_is app].
      apply negb_true_iff. apply not_true_iff_false. intros X. unfold is_ws in W. repeat (apply orb_prop in W; destruct W as [W|W]); apply N.eqb_eq in W; subst c; discriminate X. }
  destruct L as (u & v & E & EV & U & LU & LU5). rewrite E in H. destruct (ident_facts u U) as (N & F & D & A).
  assert (QB : quote_b u v = false) by (apply plain_quote; intros ->; destruct v as [|x v]; apply (f_equal (hd 0%N)) in E; discriminate E).
  rewrite ends_label in EV. apply negb_true_iff in EV.
  rewrite (scripting_plain code nt lf s _ H (word_plain u v N F D QB)).
  unfold label_or_other. unfold tbind at 1. rewrite (label_at code s u v H N F D EV).
  unfold tbind at 1, put_pos at 1. rewrite set_pos2, set_pos_id by reflexivity. rewrite <- E in H. 
  pose proof (at_move_eq code s (s2l "yield") (w ++ s2l "from" ++ r) (src_pos s + 5) H eq_refl) as H1.
  set (s1 := set_pos (src_pos s + 5) s) in *. set (s2 := whitespace_loop (w ++ s2l "from" ++ r) s1).
  destruct (ws_loop code w (s2l "from" ++ r) s1 (blank_forall w W) HR H1) as (A1 & A2). fold s2 in A1, A2.
  pose proof (at_move_eq code s2 (s2l "from") r (src_pos s2 + 4) A1 eq_refl) as A3.
  assert (Y : match_yield code s = TOk (Kw KYieldFrom, mk_span (src_pos s) (src_pos s2 + 4)) (set_pos (src_pos s2 + 4) s2)).
  { unfold match_yield. rewrite (tbind_input _ _ _ _ H), ci_starts by (apply asciib_iff; reflexivity).
    change (to_lower (s2l "yield")) with (s2l "yield"). rewrite starts_with_app.
    unfold tbind at 1, input_pos at 1. unfold tbind at 1.
    rewrite (adv_bytes_n code s (s2l "yield") (w ++ s2l "from" ++ r) 5 H eq_refl). fold s1.
    unfold tbind at 1, whitespace. rewrite (tbind_input _ _ _ _ H1). fold s2.
    rewrite (tbind_input _ _ _ _ A1), ci_starts by (apply asciib_iff; reflexivity).
    change (to_lower (s2l "from")) with (s2l "from"). rewrite starts_with_app. unfold tbind at 1. rewrite (adv_bytes_n code s2 (s2l "from") r 4 A1 eq_refl). reflexivity. }
  assert (O : in_scripting_other_token code s = TOk (Kw KYieldFrom, mk_span (src_pos s) (src_pos s2 + 4)) (set_pos (src_pos s2 + 4) s2)).
  { unfold in_scripting_other_token. rewrite (try_entries_at code _ _ s _ H t1).
    change (find_entry table1 (s2l "yield" ++ w ++ s2l "from" ++ r)) with (@None entry). unfold ret_token at 1. rewrite Y. reflexivity. }
  rewrite O. cbn [snd sp_end mk_span].
  assert (P : src_pos s + 5 <= src_pos s2).
  { pose proof (at_le code s1 (w ++ s2l "from" ++ r) s2 (s2l "from" ++ r) w H1 A1 eq_refl) as P. exact P. }
  destruct (Nat.leb_spec (src_pos s + List.length u) (src_pos s2 + 4)) as [_|]; [|lia].
  injection A2 as B1 B2 B3 B4. subst s1. cbn in B1, B2, B4.
  eexists. eexists. split; [reflexivity|]. rewrite set_pos2. split; [exact A3|]. repeat split; cbn; try congruence; lia.
Qed.
(** names outside of ASCII *)
Lemma wide_blen w : blen w <> List.length w -> Forall (fun c => (c < 128)%N) w -> False.
Proof. intros H A. apply H. apply blen_ascii, A. Qed.
Lemma name_tok code nt lf s w r : at_ code s (w ++ r) -> name_ok w = true -> ends_word r = true -> blen w <> List.length w ->
  in_scripting_token code nt lf s = TOk (TString w, mk_span (src_pos s) (src_pos s + List.length w)) (set_pos (src_pos s + List.length w) s).
Proof.
  intros H NW E W. destruct (name_facts w NW) as (N & F & D).
  assert (AS : forall x, Forall (fun c => (c < 128)%N) (s2l x) -> w <> s2l x) by (intros x X ->; exact (wide_blen _ W X)).
  rewrite <- (word_other w).
  2: { intros x k I X. symmetry in X. revert X. apply AS. clear - I.
    assert (B : forallb (fun p : string * kind => forallb (fun c => (c <? 128)%N) (s2l (fst p))) keywords = true) by (vm_compute; reflexivity).
    rewrite forallb_forall in B. specialize (B _ I). cbn [fst] in B. apply Forall_forall. rewrite forallb_forall in B. intros c C. apply N.ltb_lt, B, C. }
  assert (QB : quote_b w r = false) by (apply plain_quote; intros ->; exfalso; apply W; reflexivity).
  assert (Y1 : w <> s2l "yield") by (apply AS; repeat constructor). assert (Y2 : w <> s2l "yieldfrom") by (apply AS; repeat constructor).
  rewrite ends_label in E. apply negb_true_iff in E.
  rewrite (scripting_plain code nt lf s _ H (word_plain w r N F D QB)).
  unfold label_or_other. unfold tbind at 1. rewrite (label_at code s w r H N F D E).
  unfold tbind at 1, put_pos at 1. rewrite set_pos2, set_pos_id by reflexivity.
  destruct (starts_with (s2l "yield") (w ++ r)) eqn:Y.
  - apply prefix_word in Y; auto. apply starts_with_iff in Y. destruct Y as (w' & ->).
    assert (N' : w' <> []) by (intros ->; rewrite app_nil_r in Y1; congruence).
    assert (X : w' <> s2l "from") by (intros ->; apply Y2; reflexivity).
    rewrite <- app_assoc in H. apply Forall_app in F. destruct F as [_ F].
    destruct (yield_long code s w' r H N' F E X) as (k & n & L & ->).
    cbn [snd sp_end mk_span]. replace (_ <=? _) with false by (symmetry; apply Nat.leb_gt; rewrite app_length; cbn [s2l List.length]; lia).
    rewrite (word_token_entry (s2l "yield" ++ w') N) by (apply Forall_app; split; auto; repeat constructor).
    destruct (kw_entry (s2l "yield" ++ w')) eqn:K; [|reflexivity].
    exfalso. apply kw_entry_some in K. destruct K as [K1 K2].
    assert (B : forallb (fun e => negb (starts_with (s2l "yield") (spelling e))) all_entries = true) by (vm_compute; reflexivity).
    rewrite forallb_forall in B. specialize (B _ K1). rewrite K2, starts_with_app in B. discriminate.
  - rewrite (other_at code s _ H Y (cast_none_word code s w r H N F)).
    pose proof (word_entry w r N F E) as V0. rewrite (word_token_entry w N F).
    destruct (kw_entry w) as [e|] eqn:K.
    + rewrite V0. apply kw_entry_some in K. destruct K as [K1 K2].
      assert (V : wordy e = true) by (unfold wordy; rewrite K2; apply forallb_Forall; auto).
      destruct (kw_wordy e K1 V) as [V1 V2]. rewrite V2. unfold entry_result, tbind. rewrite V1. cbn [do_act tret snd sp_end mk_span].
      rewrite (spelling_len e K1), K2, Nat.leb_refl. reflexivity.
    + destruct (other_entry (w ++ r)) as [e|].
      * destruct V0 as (K1 & V & L). destruct (kw_wordy e K1 V) as [V1 V2]. rewrite V2. unfold entry_result, tbind. rewrite V1. cbn [do_act tret snd sp_end mk_span].
        rewrite (spelling_len e K1). replace (_ <=? _) with false by (symmetry; apply Nat.leb_gt; lia). reflexivity.
      * assert (M : m_token code s = TErr SENone s).
        { unfold m_token. rewrite (tbind_input _ _ _ _ H). destruct w as [|c w]; [congruence|]. inversion F; subst. cbn [app].
          rewrite simple_label; auto. }
        rewrite (ret_none _ _ _ _ M). reflexivity.
Qed.
Lemma step_wide st a b r : name_ok (a ++ b) = true -> b <> [] -> ends_word r = true -> blen a = List.length (a ++ b) ->
  step1 LInScripting st (a ++ b ++ r) (TString (a ++ b)) LInScripting st (b ++ r).
Proof.
  intros N B E L. exists 0. intros code nt lf s LF H M ST Q. unfold scan. rewrite M. rewrite app_assoc in H.
  assert (W : blen (a ++ b) <> List.length (a ++ b)).
  { rewrite blen_app, L. destruct b as [|c b]; [congruence|]. cbn [blen]. pose proof (clen_pos c). lia. }
  rewrite (name_tok code nt lf s (a ++ b) r H N E W). eexists. eexists. split; [reflexivity|].
  split; [|cbn; repeat split; auto; lia]. rewrite <- app_assoc in H. apply (at_move_eq code s a (b ++ r)); [exact H|lia].
Qed.
Lemma step_sq_any st (bin : bool) c r : sq_content c = true -> Forall scalar (sq_decode c) ->
  step1 LInScripting st (s2l (if bin then "b'" else "'") ++ c ++ s2l "'" ++ r) (TCes (sq_decode c)) LInScripting st r.
Proof.
  intros C S. destruct bin; [|exact (step_sq st c r C S)]. exists (List.length c + 1). intros code nt lf s LF H M ST Q. unfold scan. rewrite M.
  pose proof (at_move_eq code s (s2l "b'") (c ++ 39%N :: r) (src_pos s + 2) H eq_refl) as H1.
  destruct (sq_loop_at code lf c r _ s [] H1 C ltac:(lia)) as (s' & A & B & D). injection D as D1 D2 D3 D4. cbn in D1, D2, D4.
  assert (P : src_pos s + 2 <= src_pos s') by exact (at_le code _ (c ++ 39%N :: r) s' r (c ++ [39%N]) H1 B ltac:(rewrite <- app_assoc; reflexivity)).
  exists (mk_span (src_pos s) (src_pos s')), s'. split; [|split; [exact B|repeat split; cbn; try congruence; lia]].
  unfold in_scripting_token. unfold tbind at 1, whitespace. rewrite (tbind_input _ _ _ _ H).
  replace (whitespace_loop (s2l "b'" ++ c ++ s2l "'" ++ r) s) with s by reflexivity. rewrite (tbind_input _ _ _ _ H).
  change (match s2l "b'" ++ ?x with [] => _ | _ :: _ => ?y end) with y. unfold tbind at 1, input_pos at 1.
  rewrite (ret_none _ _ _ _ (doc_none code nt lf s _ H eq_refl eq_refl)).
  rewrite (ret_none (bnum code) _ s s (pnum_none code s _ (s2l "0b") _ _ H eq_refl)).
  rewrite (ret_none (hnum code) _ s s (pnum_none code s _ (s2l "0x") _ _ H eq_refl)).
  rewrite (ret_none _ _ _ _ (onum_none code s _ H eq_refl)).
  rewrite (ret_none _ _ _ _ (dq_none code nt lf s _ H eq_refl eq_refl)).
  rewrite (ret_none _ _ _ _ (var_none code s _ H eq_refl)).
  apply ret_ok. unfold match_sq_string. rewrite (tbind_input _ _ _ _ H).
  assert (BL : (blen (s2l "b'" ++ c ++ s2l "'" ++ r) <? 2) = false) by (apply Nat.ltb_ge; rewrite blen_app; change (blen (s2l "b'")) with 2; lia).
  rewrite BL. unfold tbind at 1, tget. rewrite starts_with_app. unfold tbind at 1. unfold tbind at 1. rewrite (adv_bytes_n code s (s2l "b'") _ 2 H eq_refl). unfold tret at 1.
  unfold tbind at 1. rewrite A. unfold tbind, input_pos, tret. cbn [app]. rewrite frag_ces by exact S. reflexivity.
Qed.
Lemma digits_is w : digits w -> Forall (fun c => is_digit c = true) w.
Proof. apply Forall_impl. intros c [A B]. unfold is_digit. apply andb_true_intro. split; apply N.leb_le; assumption. Qed.
Lemma no_point_head r : no_point r -> head_is (fun c => (c =? 46)%N) r = false.
Proof. intros H. destruct r as [|c r]; [reflexivity|]. cbn. apply N.eqb_neq. intros ->. exact (H r eq_refl). Qed.
Lemma keyword_word w k r : In (w, k) keywords -> quote_b (s2l w) r = false /\ Spec.identifier (s2l w) = true /\ s2l w <> s2l "yield" /\ s2l w <> s2l "yieldfrom".
Proof.
  intros I.
  assert (B : forallb (fun p : string * kind => Spec.identifier (s2l (fst p)) && negb (str_eqb (s2l (fst p)) (s2l "yield")) &&
    negb (str_eqb (s2l (fst p)) (s2l "yieldfrom")) && negb (str_eqb (s2l (fst p)) (s2l "b"))) keywords = true) by (vm_compute; reflexivity).
  rewrite forallb_forall in B. specialize (B _ I). cbn [fst] in B.
  apply andb_prop in B. destruct B as [B B4]. apply andb_prop in B. destruct B as [B B3]. apply andb_prop in B. destruct B as [B1 B2].
  split; [apply plain_quote; intros X; rewrite X in B4; discriminate|]. split; [exact B1|]. split; intros X; rewrite X in *; discriminate.
Qed.
Lemma struct_op op k r : In (op, k) [("->", KObjectOp); ("{", KCurlyBracesOpen); ("}", KCurlyBracesClose); ("?>", KCloseTag)]%string ->
  In (op, k) operators /\ plain_op op k r.
Proof.
  intros I. split; [cbn in I |- *; tauto|].
  assert (X : plain (s2l op ++ r) = true /\ k <> KParenthesesOpen).
  { cbn in I. repeat (destruct I as [I|I]; [injection I as <- <-; split; [reflexivity|discriminate]|]). contradiction. }
  destruct X as [X1 X2]. split; [|split; [exact X1|congruence]]. split; [apply starts_with_app|].
  intros op' k' I' S. unfold operators in I'. cbn [In] in I, I'.
  repeat (destruct I as [I|I]; [injection I as <- <-; repeat (destruct I' as [I'|I']; [injection I' as <- <-; first [discriminate S | cbn; lia]|]); contradiction|]). contradiction.
Qed.


(** ** The chain of scanners *)
Definition tail (code : str) (nt : T tokspan) (lf old : nat) : T tokspan :=
  ret_token (onum_dnum_lnum code) (ret_token (match_dq_string code nt lf) (ret_token (match_variable code) (ret_token (match_sq_string code lf)
    (ret_token (match_comments code) (ret_token (match_backquote code nt lf) (put_pos old ;;; label_or_other code old)))))).
Lemma chain code nt lf s c r : at_ code s (c :: r) -> is_ws c = false ->
  in_scripting_token code nt lf s = ret_token (match_here_now_doc code nt lf) (ret_token (bnum code) (ret_token (hnum code) (tail code nt lf (src_pos s)))) s.
Proof.
  intros H W. unfold in_scripting_token. unfold tbind at 1, whitespace. rewrite (tbind_input _ _ _ _ H), ws_none by exact W.
  rewrite (tbind_input _ _ _ _ H). reflexivity.
Qed.
(** a name at the beginning of a text *)
Lemma split_name z : head_is (fun c => is_label_char c && negb (is_digit c)) z = true ->
  exists w r, z = w ++ r /\ name_ok w = true /\ ends_word r = true.
Proof.
  intros H. destruct (split_run (fun c => negb (is_label_char c)) z) as (w & r & E & F & R).
  exists w, r. split; [exact E|]. rewrite ends_label. split.
  - destruct w as [|c w].
    + exfalso. cbn in E. subst z. destruct r as [|c r]; [discriminate|]. cbn in H, R. rewrite negb_involutive in R. rewrite R in H. discriminate.
    + rewrite E in H. cbn [app head_is] in H. inversion F as [|? ? F1 F2]; subst. cbn [name_ok]. rewrite name_label. unfold is_digit in H. rewrite H. cbn [andb].
      apply forallb_forall. intros x I. rewrite name_label. rewrite Forall_forall in F2. specialize (F2 x I). apply negb_false_iff in F2. exact F2.
  - destruct r as [|c r]; [reflexivity|]. cbn in R |- *. rewrite negb_involutive in R. rewrite R. reflexivity.
Qed.
Lemma blank_split x : exists a, blanks a /\ x = a ++ skip_blank x /\ head_is (fun c => (c =? 32) || (c =? 9))%N (skip_blank x) = false.
Proof.
  induction x as [|c x (a & A & E & H)]; [exists []; repeat split; constructor|]. cbn [skip_blank].
  destruct ((c =? 32) || (c =? 9))%N eqn:C.
  - exists (c :: a). split; [|split; [cbn; congruence|exact H]]. constructor; [|exact A]. apply orb_prop in C. destruct C as [C|C]; apply N.eqb_eq in C; auto.
  - exists []. split; [constructor|]. split; [reflexivity|exact C].
Qed.
(** ** Heredocs and nowdocs: the beginning *)
Definition quote_of (ty : doc_type) : str := match ty with DHereDoc => [] | DHereDocEncapsed => [34%N] | DNowDoc => [39%N] end.
(** from behind the newline *)
Definition doc_tail (code : str) (nt : T tokspan) (lf : nat) (bak : tst) (tag : str) (ty : doc_type) : T tokspan :=
    let now := match ty with DNowDoc => true | _ => false end in
    r <- doc_loop code nt lf lf bak tag now [] [] ;;
    p <- input_pos ;;
    if now then
      match snd r with
      | [] => tret (frag_token (fst r), mk_span (src_pos bak) p)
      | _ => tpanic PAssert
      end
    else
      q <- tsub p 1 ;;
      return_tokens_from_parts (Kw KHereDocStart, mk_span (src_pos bak) (src_pos bak + 1))
                               (Kw KHereDocEnd, mk_span q p) (fst r) (snd r).
Lemma newline_at code s nl inp : at_ code s (nl ++ inp) -> new_line nl inp ->
  exists s', newline code s = TOk true s' /\ at_ code s' inp /\ ctl s' = ctl s.
Proof.
  intros H [-> |[-> |[-> N]]]; unfold newline; rewrite (tbind_input _ _ _ _ H).
  - change (starts_with [13%N; 10%N] ([10%N] ++ inp)) with false. change (starts_with_c 10 ([10%N] ++ inp)) with true. cbn [orb].
    unfold tbind at 1. rewrite (adv_bytes_n code s [10%N] inp 1 H eq_refl). eexists. split; [reflexivity|].
    split; [|reflexivity]. eapply at_same; [|apply (at_move_eq code s [10%N] inp (src_pos s + 1) H eq_refl)]. reflexivity.
  - rewrite starts_with_app.
    unfold tbind at 1. rewrite (adv_bytes_n code s [13%N; 10%N] inp 2 H eq_refl). eexists. split; [reflexivity|].
    split; [|reflexivity]. eapply at_same; [|apply (at_move_eq code s [13%N; 10%N] inp (src_pos s + 2) H eq_refl)]. reflexivity.
  - replace (starts_with [13%N; 10%N] ([13%N] ++ inp)) with false.
    2: { symmetry. apply not_true_iff_false. intros X. apply starts_with_iff in X. destruct X as (q & X). injection X as X. exact (N q X). }
    change (starts_with_c 13 ([13%N] ++ inp)) with true. rewrite orb_true_r.
    unfold tbind at 1. rewrite (adv_bytes_n code s [13%N] inp 1 H eq_refl). eexists. split; [reflexivity|].
    split; [|reflexivity]. eapply at_same; [|apply (at_move_eq code s [13%N] inp (src_pos s + 1) H eq_refl)]. reflexivity.
Qed.
Lemma newline_no code s inp : at_ code s inp -> (forall nl q, new_line nl q -> inp <> nl ++ q) -> newline code s = TOk false s.
Proof.
  intros H N. unfold newline. rewrite (tbind_input _ _ _ _ H).
  destruct (starts_with [13%N; 10%N] inp) eqn:A.
  { exfalso. apply starts_with_iff in A. destruct A as (q & A). apply (N [13; 10]%N q); [right; left; reflexivity|exact A]. }
  destruct inp as [|c q]; [reflexivity|]. cbn [starts_with_c]. destruct (N.eqb_spec c 10) as [->|_].
  { exfalso. apply (N [10%N] q); [left; reflexivity|reflexivity]. }
  destruct (N.eqb_spec c 13) as [->|_]; [|reflexivity].
  exfalso. apply (N [13%N] q); [|reflexivity]. right. right. split; [reflexivity|]. intros z ->. discriminate A.
Qed.
Lemma new_line_fun nl inp nl' inp' : new_line nl inp -> new_line nl' inp' -> nl ++ inp = nl' ++ inp' -> inp = inp'.
Proof.
  intros [-> |[-> |[-> A]]] [-> |[-> |[-> B]]] E; cbn in E; try discriminate; injection E as E; try assumption.
  - exfalso. eapply B. symmetry. exact E.
  - exfalso. eapply A. exact E.
Qed.
(** the shape of a heredoc or nowdoc *)
Definition doc_shape (whole : str) (bin : bool) (a : str) (ty : doc_type) (tag nl inp : str) : Prop :=
  whole = s2l (if bin then "b<<<" else "<<<") ++ a ++ quote_of ty ++ tag ++ quote_of ty ++ nl ++ inp /\ blanks a /\ name_ok tag = true /\ new_line nl inp /\ 8 <= blen whole.
Lemma opened_shape q whole inp : Opened q whole inp -> q <> Quotes -> q <> Back -> exists bin a ty tag nl, doc_shape whole bin a ty tag nl inp /\ q = match ty with DNowDoc => Now tag | _ => Doc tag end.
Proof.
  intros [bin i I|i I|bin quoted a tag nl i w BA NT NL E L|bin a tag nl i w BA NT NL E L] N1 N2; try congruence.
  - exists bin, a, (if quoted then DHereDocEncapsed else DHereDoc), tag, nl. split; [|destruct quoted; reflexivity]. split; [|auto].
    rewrite E. destruct quoted; cbn [quote_of]; rewrite <- ?app_assoc; reflexivity.
  - exists bin, a, DNowDoc, tag, nl. split; [|reflexivity]. split; [|auto]. rewrite E. cbn [quote_of]. rewrite <- ?app_assoc. reflexivity.
Qed.
Lemma shape_opened whole bin a ty tag nl inp : doc_shape whole bin a ty tag nl inp -> Opened (match ty with DNowDoc => Now tag | _ => Doc tag end) whole inp.
Proof.
  intros (E & BA & NT & NL & L). destruct ty.
  - apply (opened_doc bin false a tag nl); auto.
  - apply (opened_doc bin true a tag nl); auto. rewrite E. cbn [quote_of]. rewrite <- ?app_assoc. reflexivity.
  - apply (opened_now bin a tag nl); auto. rewrite E. cbn [quote_of]. rewrite <- ?app_assoc. reflexivity.
Qed.
(** what the scanner does up to the newline *)
Lemma doc_parse code nt lf s whole : at_ code s whole ->
  (~ opens_doc whole /\ match_here_now_doc code nt lf s = TErr SENone s) \/
  (exists bin a ty tag nl inp s1, doc_shape whole bin a ty tag nl inp /\ at_ code s1 inp /\ ctl s1 = ctl s /\
     (forall bin' a' ty' tag' nl' inp', doc_shape whole bin' a' ty' tag' nl' inp' -> ty' = ty /\ tag' = tag /\ inp' = inp) /\
     match_here_now_doc code nt lf s = doc_tail code nt lf s tag ty s1).
Proof.
  intros H.
  enough (G : forall X, match_here_now_doc code nt lf s = X -> (~ opens_doc whole /\ X = TErr SENone s) \/
    (exists bin a ty tag nl inp s1, doc_shape whole bin a ty tag nl inp /\ at_ code s1 inp /\ ctl s1 = ctl s /\
     (forall bin' a' ty' tag' nl' inp', doc_shape whole bin' a' ty' tag' nl' inp' -> ty' = ty /\ tag' = tag /\ inp' = inp) /\ X = doc_tail code nt lf s tag ty s1)) by (exact (G _ eq_refl)).
  intros XX. unfold match_here_now_doc. rewrite (tbind_input _ _ _ _ H).
  destruct (Nat.ltb_spec (blen whole) 8) as [L|L].
  { intros <-. left. split; [|reflexivity]. intros (q & inp & O & N1 & N2). destruct (opened_shape q whole inp O N1 N2) as (bin & a & ty & tag & nl & (_ & _ & _ & _ & X) & _). lia. }
  unfold tbind at 1, tget.
  assert (P : (exists bin x, whole = s2l (if bin : bool then "b<<<" else "<<<") ++ x) \/ (starts_with (s2l "b<<<") whole = false /\ starts_with (s2l "<<<") whole = false)).
  { destruct (starts_with (s2l "b<<<") whole) eqn:A; [left; exists true; apply starts_with_iff; exact A|].
    destruct (starts_with (s2l "<<<") whole) eqn:B; [left; exists false; apply starts_with_iff; exact B|]. right. auto. }
  destruct P as [(bin & x & E)|[A B]].
  2: { rewrite A, B. intros <-. left. split; [|reflexivity]. intros (q & inp & O & N1 & N2). destruct (opened_shape q whole inp O N1 N2) as (bin & a & ty & tag & nl & (E & _) & _).
    rewrite E in A, B. destruct bin; [rewrite starts_with_app in A|rewrite starts_with_app in B]; discriminate. }
  set (pre := s2l (if bin then "b<<<" else "<<<")) in *. set (np := if bin then 4 else 3).
  assert (BP : np = blen pre) by (destruct bin; reflexivity). rewrite E in H.
  pose proof (at_move_eq code s pre x (src_pos s + np) H ltac:(lia)) as H1.
  match goal with |- context [tbind (if starts_with _ whole then ?m else ?k) ?z s] => assert (OK : (if starts_with (s2l "b<<<") whole then m else k) s = TOk true (set_pos (src_pos s + np) s)) end.
  { rewrite E. destruct bin; unfold pre in *.
    - rewrite starts_with_app. unfold tbind. rewrite (adv_bytes_n code s (s2l "b<<<") _ 4 H eq_refl). reflexivity.
    - change (starts_with (s2l "b<<<") (s2l "<<<" ++ x)) with false. rewrite starts_with_app.
      unfold tbind. rewrite (adv_bytes_n code s (s2l "<<<") _ 3 H eq_refl). reflexivity. }
  unfold tbind at 1. rewrite OK. cbn [negb]. clear OK.
  destruct (ws_only code _ _ H1) as (n1 & WS & H2). rewrite set_pos2 in WS, H2.
  unfold tbind at 1, whitespace_only. rewrite (tbind_input _ _ _ _ H1), WS. rewrite (tbind_input _ _ _ _ H2).
  destruct (blank_split x) as (a & BA & EX & HX). set (y := skip_blank x) in *.
  (* the quote *)
  assert (TY : exists ty z, y = quote_of ty ++ z /\ (ty = DHereDoc -> starts_with_c 39 z = false /\ starts_with_c 34 z = false) /\
     (if starts_with_c 39 y then advance_bytes code 1 ;;; tret DNowDoc else if starts_with_c 34 y then advance_bytes code 1 ;;; tret DHereDocEncapsed else tret DHereDoc) (set_pos n1 s)
       = TOk ty (set_pos (n1 + List.length (quote_of ty)) s)).
  { destruct y as [|c z].
    - exists DHereDoc, []. split; [reflexivity|]. split; [auto|]. cbn [quote_of List.length starts_with_c]. rewrite Nat.add_0_r. reflexivity.
    - cbn [starts_with_c]. destruct (N.eqb_spec c 39) as [->|N39].
      + exists DNowDoc, z. split; [reflexivity|]. split; [discriminate|]. unfold tbind. rewrite (adv_bytes_n code _ [39%N] z 1 H2 eq_refl), set_pos2. reflexivity.
      + destruct (N.eqb_spec c 34) as [->|N34].
        * exists DHereDocEncapsed, z. split; [reflexivity|]. split; [discriminate|]. unfold tbind. rewrite (adv_bytes_n code _ [34%N] z 1 H2 eq_refl), set_pos2. reflexivity.
        * exists DHereDoc, (c :: z). split; [reflexivity|]. split; [intros _; cbn; split; apply N.eqb_neq; assumption|]. cbn [quote_of List.length]. rewrite Nat.add_0_r. reflexivity. }
  destruct TY as (ty & z & EY & TQ & TY). unfold tbind at 1. rewrite TY. clear TY.
  set (n2 := n1 + List.length (quote_of ty)). rewrite EY in H2.
  assert (H3 : at_ code (set_pos n2 s) z).
  { pose proof (at_move_eq code _ (quote_of ty) z n2 H2 ltac:(unfold n2; cbn; f_equal; destruct ty; reflexivity)) as X. rewrite set_pos2 in X. exact X. }
  (* what any reading of [whole] as a heredoc must look like *)
  assert (U : forall bin' a' ty' tag' nl' inp', doc_shape whole bin' a' ty' tag' nl' inp' -> ty' = ty /\ z = tag' ++ quote_of ty ++ nl' ++ inp' /\ name_ok tag' = true /\ new_line nl' inp').
  { intros bin' a' ty' tag' nl' inp' (E' & BA' & NT' & NL' & _).
    assert (EB : bin' = bin /\ x = a' ++ quote_of ty' ++ tag' ++ quote_of ty' ++ nl' ++ inp').
    { rewrite E in E'. unfold pre in E'. destruct bin, bin'; cbn in E'; try discriminate; (split; [reflexivity|]); injection E' as E'; exact E'. }
    destruct EB as [_ EB].
    assert (EZ : y = quote_of ty' ++ tag' ++ quote_of ty' ++ nl' ++ inp').
    { unfold y. rewrite EB, skip_blank_app by exact BA'. destruct ty'; cbn [quote_of app skip_blank]; try reflexivity.
      destruct tag' as [|c t]; [discriminate|]. cbn [app skip_blank]. destruct ((c =? 32) || (c =? 9))%N eqn:X; [|reflexivity]. exfalso.
      apply orb_prop in X. destruct X as [X|X]; apply N.eqb_eq in X; subst c; discriminate NT'. }
    assert (ET : ty' = ty).
    { rewrite EY in EZ. destruct ty, ty'; try reflexivity; exfalso; cbn [quote_of app] in EZ; try discriminate EZ.
      - destruct (TQ eq_refl) as [_ X]. rewrite EZ in X. discriminate.
      - destruct (TQ eq_refl) as [X _]. rewrite EZ in X. discriminate.
      - destruct tag' as [|c t]; [discriminate|]. injection EZ as EZ _. subst c. discriminate.
      - destruct tag' as [|c t]; [discriminate|]. injection EZ as EZ _. subst c. discriminate. }
    subst ty'. split; [reflexivity|]. split; [|auto]. rewrite EY in EZ. apply app_inv_head in EZ. exact EZ. }
  assert (NONE : forall P X, X = @TErr tokspan SENone s -> (forall tag' nl' inp', z = tag' ++ quote_of ty ++ nl' ++ inp' -> name_ok tag' = true -> new_line nl' inp' -> False) -> (~ opens_doc whole /\ X = @TErr tokspan SENone s) \/ P).
  { intros P X EX' NO. left. split; [|exact EX']. intros (q & inp & O & N1 & N2). destruct (opened_shape q whole inp O N1 N2) as (bin' & a' & ty' & tag' & nl' & D & _).
    destruct (U _ _ _ _ _ _ D) as (_ & U1 & U2 & U3). exact (NO _ _ _ U1 U2 U3). }
  destruct (head_is (fun c => is_label_char c && negb (is_digit c)) z) eqn:HZ.
  2: { unfold tbind at 1. rewrite (label_none code _ z H3 HZ). unfold tbind at 1, trestore. unfold terr. intros EX0. apply NONE; [rewrite <- EX0; destruct s; reflexivity|].
    intros tag' nl' inp' EZ NT' _. destruct (name_facts tag' NT') as (N1 & N2 & N3). destruct tag' as [|c t]; [congruence|]. rewrite EZ in HZ. cbn [app head_is] in HZ, N3.
    pose proof (Forall_inv N2) as N2'. cbv beta in N2'. rewrite N2', N3 in HZ. discriminate. }
  destruct (split_name z HZ) as (tag & v & EV & NT & EW). destruct (name_facts tag NT) as (N1 & N2 & N3).
  rewrite EV in H3. pose proof EW as EW'. rewrite ends_label in EW'. apply negb_true_iff in EW'.
  unfold tbind at 1. rewrite (label_at code _ tag v H3 N1 N2 N3 EW').
  pose proof (at_move code _ tag v H3) as H4. rewrite set_pos2 in H4. cbn [src_pos set_pos] in H4 |- *. rewrite set_pos2. rewrite (tbind_input _ _ _ _ H4).
  (* any reading has this tag *)
  assert (UT : forall tag' w', z = tag' ++ w' -> name_ok tag' = true -> ends_word w' = true -> tag' = tag /\ w' = v).
  { intros tag' w' EZ NT' EW2. destruct (name_facts tag' NT') as (M1 & M2 & M3). rewrite EV in EZ. rewrite ends_label in EW2. apply negb_true_iff in EW2.
    clear - N2 M2 EW' EW2 EZ. revert tag' M2 EZ. induction tag as [|c t IH]; intros tag' M2 EZ.
    - destruct tag' as [|d t']; [auto|]. cbn in EZ. subst v. inversion M2; subst. cbn in EW'. congruence.
    - destruct tag' as [|d t'].
      + cbn in EZ. subst w'. inversion N2; subst. cbn in EW2. congruence.
      + injection EZ as -> EZ. inversion N2; inversion M2; subst. destruct (IH ltac:(assumption) t' ltac:(assumption) EZ) as [-> ->]. auto. }
  assert (EN : forall nl' inp', new_line nl' inp' -> ends_word (quote_of ty ++ nl' ++ inp') = true).
  { intros nl' inp' [-> |[-> |[-> _]]]; destruct ty; reflexivity. }
  match goal with |- context [tbind ?m ?k (set_pos (n2 + blen tag) s)] => set (M := m) end.
  assert (QU : (exists v', v = quote_of ty ++ v' /\ M (set_pos (n2 + blen tag) s) = TOk true (set_pos (n2 + blen tag + List.length (quote_of ty)) s)) \/
    ((forall v', v <> quote_of ty ++ v') /\ M (set_pos (n2 + blen tag) s) = TOk false (set_pos (n2 + blen tag) s))).
  { unfold M. destruct ty; cbn [quote_of List.length].
    - left. exists v. rewrite Nat.add_0_r. split; reflexivity.
    - destruct v as [|c v']; [right; split; [discriminate|reflexivity]|]. cbn [starts_with_c]. destruct (N.eqb_spec c 34) as [->|X].
      + left. exists v'. split; [reflexivity|]. unfold tbind. rewrite (adv_bytes_n code _ [34%N] _ 1 H4 eq_refl), set_pos2. reflexivity.
      + right. split; [intros u EU; injection EU as EU _; congruence|reflexivity].
    - destruct v as [|c v']; [right; split; [discriminate|reflexivity]|]. cbn [starts_with_c]. destruct (N.eqb_spec c 39) as [->|X].
      + left. exists v'. split; [reflexivity|]. unfold tbind. rewrite (adv_bytes_n code _ [39%N] _ 1 H4 eq_refl), set_pos2. reflexivity.
      + right. split; [intros u EU; injection EU as EU _; congruence|reflexivity]. }
  destruct QU as [(v' & EV' & QU)|[NV QU]].
  2: { unfold tbind at 1. rewrite QU. cbn [negb]. unfold tbind at 1, trestore. unfold terr. intros EX0. apply NONE; [rewrite <- EX0; destruct s; reflexivity|].
    intros tag' nl' inp' EZ NT' NL'. destruct (UT _ _ EZ NT' (EN _ _ NL')) as [_ X]. symmetry in X. exact (NV _ X). }
  unfold tbind at 1. rewrite QU. cbn [negb]. clear QU M. rewrite EV' in H4.
  set (n3 := n2 + blen tag + List.length (quote_of ty)).
  assert (H5 : at_ code (set_pos n3 s) v').
  { pose proof (at_move_eq code _ (quote_of ty) v' n3 H4 ltac:(unfold n3; cbn; f_equal; destruct ty; reflexivity)) as X. rewrite set_pos2 in X. exact X. }
  assert (NL : (exists nl inp, v' = nl ++ inp /\ new_line nl inp) \/ (forall nl q, new_line nl q -> v' <> nl ++ q)).
  { destruct v' as [|c u]; [right; intros nl q [-> |[-> |[-> _]]]; discriminate|].
    destruct (N.eq_dec c 10) as [->|N10]; [left; exists [10%N], u; split; [reflexivity|left; reflexivity]|].
    destruct (N.eq_dec c 13) as [->|N13]; [|right; intros nl q [-> |[-> |[-> _]]] X; injection X; intros; congruence].
    left. destruct u as [|d u]; [exists [13%N], []; split; [reflexivity|right; right; split; [reflexivity|discriminate]]|].
    destruct (N.eq_dec d 10) as [->|N10']; [exists [13%N; 10%N], u; split; [reflexivity|right; left; reflexivity]|].
    exists [13%N], (d :: u). split; [reflexivity|right; right; split; [reflexivity|congruence]]. }
  destruct NL as [(nl & inp & EN' & NL)|NL].
  2: { unfold tbind at 1. rewrite (newline_no code _ v' H5 NL). cbn [negb]. unfold tbind at 1, trestore. unfold terr. intros EX0. apply NONE; [rewrite <- EX0; destruct s; reflexivity|].
    intros tag' nl' inp' EZ NT' NL'. destruct (UT _ _ EZ NT' (EN _ _ NL')) as [_ X]. rewrite EV' in X. apply app_inv_head in X. symmetry in X. exact (NL _ _ NL' X). }
  rewrite EN' in H5. destruct (newline_at code _ nl inp H5 NL) as (s1 & NW & H6 & C6).
  intros EX0. right. exists bin, a, ty, tag, nl, inp, s1. split; [|split; [exact H6|split; [rewrite C6; reflexivity|split]]].
  - split; [|auto]. rewrite E, EX, EY, EV, EV', EN', <- ?app_assoc. reflexivity.
  - intros bin' a' ty' tag' nl' inp' D. destruct (U _ _ _ _ _ _ D) as (U0 & U1 & U2 & U3). destruct (UT _ _ U1 U2 (EN _ _ U3)) as [UA UB].
    split; [exact U0|]. split; [exact UA|]. rewrite EV' in UB. apply app_inv_head in UB. rewrite EN' in UB. exact (new_line_fun _ _ _ _ U3 NL UB).
  - rewrite <- EX0. unfold tbind at 1. rewrite NW. cbn [negb]. reflexivity.
Qed.
Lemma doc_closed code nt lf s whole : at_ code s whole -> ~ opens_doc whole -> match_here_now_doc code nt lf s = TErr SENone s.
Proof.
  intros H N. destruct (doc_parse code nt lf s whole H) as [[_ X]|(bin & a & ty & tag & nl & inp & s1 & D & _)]; [exact X|].
  exfalso. apply N. eexists. exists inp. split; [eapply shape_opened; exact D|]. destruct ty; split; discriminate.
Qed.
(** ** Numbers *)
Lemma digit_head c : is_digit c = true -> is_ws c = false /\ (c =? 98)%N = false /\ (c =? 60)%N = false.
Proof.
  unfold is_ws, is_digit. intros D. apply andb_prop in D. destruct D as [D1 D2]. apply N.leb_le in D1, D2.
  repeat split; repeat (apply orb_false_intro); apply N.eqb_neq; lia.
Qed.
Definition no_radix (inp : str) : Prop := forall x q, In x [120; 98]%N -> q <> [] -> inp <> 48%N :: x :: q.
Lemma radix_none code s inp ok base x : at_ code s inp -> no_radix inp -> In x [120; 98]%N -> prefixed_num code [48%N; x] ok base s = TErr SENone s.
Proof.
  intros H N I. unfold prefixed_num. rewrite (tbind_input _ _ _ _ H). destruct (starts_with [48%N; x] inp) eqn:E; [|rewrite orb_true_r; reflexivity].
  apply starts_with_iff in E. destruct E as (q & E). destruct q as [|c q].
  - subst inp. replace (blen ([48%N; x] ++ [])) with 2; [reflexivity|]. cbn in I. destruct I as [<-|[<-|[]]]; reflexivity.
  - exfalso. apply (N x (c :: q) I); [discriminate|exact E].
Qed.
Lemma digit_chain code nt lf s c r : at_ code s (c :: r) -> is_digit c = true \/ c = 46%N -> no_radix (c :: r) ->
  in_scripting_token code nt lf s = tail code nt lf (src_pos s) s.
Proof.
  intros H D N. assert (W : is_ws c = false /\ (c =? 98)%N = false /\ (c =? 60)%N = false) by (destruct D as [D| ->]; [apply digit_head, D|auto]).
  destruct W as (W1 & W2 & W3). rewrite (chain code nt lf s c r H W1).
  rewrite (ret_none _ _ _ _ (doc_none code nt lf s _ H (head_ne 98 (s2l "<<<") c r W2) (head_ne 60 (s2l "<<") c r W3))).
  rewrite (ret_none (bnum code) _ s s (radix_none code s _ _ _ 98%N H N ltac:(cbn; tauto))).
  rewrite (ret_none (hnum code) _ s s (radix_none code s _ _ _ 120%N H N ltac:(cbn; tauto))). reflexivity.
Qed.
Lemma num_any code nt lf s w r z : at_ code s (w ++ r) -> w <> [] -> Forall (fun c => is_digit c = true) w -> no_point r -> no_digit r -> no_radix (w ++ r) ->
  (if head_is (fun c => (c =? 48)%N) w && (1 <? List.length w) then i64_from_str_radix 8 (tl w) else i64_from_str_radix 10 w) = z ->
  in_scripting_token code nt lf s =
  match z with
  | Some z => TOk (TInt z, mk_span (src_pos s) (src_pos s + List.length w)) (set_pos (src_pos s + List.length w) s)
  | None => TPanic PUnwrap
  end.
Proof.
  intros H NE F P D N V. destruct w as [|c w]; [congruence|]. pose proof (Forall_inv F) as C. cbv beta in C.
  rewrite (digit_chain code nt lf s c (w ++ r) H (or_introl C) N).
  assert (R : head_is (fun c => is_digit c || (c =? 46)%N) r = false).
  { destruct r as [|x r]; [reflexivity|]. cbn. apply orb_false_intro.
    - apply not_true_iff_false. intros X. apply (D x r eq_refl). unfold is_digit in X. apply andb_prop in X. destruct X as [X1 X2]. apply N.leb_le in X1, X2. lia.
    - apply N.eqb_neq. intros ->. exact (P r eq_refl). }
  unfold tail, ret_token at 1. rewrite (onum_int code s (c :: w) r z H NE F R V). destruct z; reflexivity.
Qed.
Lemma dec_value ds : decimal ds ->
  (if head_is (fun c => (c =? 48)%N) (map (digit_char false) ds) && (1 <? List.length (map (digit_char false) ds)) then i64_from_str_radix 8 (tl (map (digit_char false) ds))
   else i64_from_str_radix 10 (map (digit_char false) ds)) = if (number 10 ds <=? i64_max)%N then Some (Z.of_N (number 10 ds)) else None.
Proof.
  intros (NE & F & H). replace (head_is (fun c => (c =? 48)%N) (map (digit_char false) ds) && (1 <? List.length (map (digit_char false) ds))) with false.
  - apply radix_number; [exact F|lia|exact NE].
  - destruct ds as [|d ds]; [congruence|]. cbn [hd] in H. cbn [map head_is]. destruct (N.eqb_spec (digit_char false d) 48) as [E|E]; [|reflexivity].
    assert (D : d = 0%N). { inversion F; subst. unfold digit_char in E. destruct (N.ltb_spec d 10); lia. }
    specialize (H D). injection H as _ H. rewrite H. reflexivity.
Qed.
Lemma digits_forall ds : Forall (fun d => (d < 10)%N) ds -> Forall (fun c => is_digit c = true) (map (digit_char false) ds).
Proof. apply digits_10. Qed.
Lemma dec_radix ds r : decimal ds -> (ds = [0%N] -> forall q, q <> [] -> r <> s2l "x" ++ q /\ r <> s2l "b" ++ q) -> no_radix (map (digit_char false) ds ++ r).
Proof.
  intros (NE & F & H) N x q I Q E. destruct ds as [|d ds]; [congruence|]. cbn [map app hd] in E, H. injection E as E1 E2.
  assert (D : d = 0%N). { inversion F; subst. unfold digit_char in E1. destruct (N.ltb_spec d 10); lia. }
  specialize (H D). injection H as _ H. subst d ds. cbn in E2. destruct (N eq_refl q Q) as [N1 N2].
  cbn in I. destruct I as [<-|[<-|[]]]; [apply N1|apply N2]; exact E2.
Qed.
Lemma dec_tok code nt lf s ds r : at_ code s (map (digit_char false) ds ++ r) -> decimal ds -> no_point r -> no_digit r ->
  (ds = [0%N] -> forall q, q <> [] -> r <> s2l "x" ++ q /\ r <> s2l "b" ++ q) ->
  in_scripting_token code nt lf s = if (number 10 ds <=? i64_max)%N then
    TOk (TInt (Z.of_N (number 10 ds)), mk_span (src_pos s) (src_pos s + List.length ds)) (set_pos (src_pos s + List.length ds) s) else TPanic PUnwrap.
Proof.
  intros H D P ND N. pose proof D as (NE & F & _).
  rewrite (num_any code nt lf s _ r _ H ltac:(destruct ds; [congruence|discriminate]) (digits_forall ds F) P ND (dec_radix ds r D N) (dec_value ds D)).
  rewrite map_length. destruct (number 10 ds <=? i64_max)%N; reflexivity.
Qed.
Lemma oct_radix ds r : ds <> [] -> Forall (fun d => (d < 10)%N) ds -> no_radix (48%N :: map (digit_char false) ds ++ r).
Proof.
  intros NE F x q I _ E. destruct ds as [|d ds]; [congruence|]. cbn in E. injection E as E _. pose proof (Forall_inv F) as D. cbv beta in D.
  pose proof (digit_10 false d D) as X. rewrite E in X. cbn in I. destruct I as [<-|[<-|[]]]; discriminate X.
Qed.
Lemma oct_value ds : ds <> [] -> Forall (fun d => (d < 8)%N) ds ->
  (if head_is (fun c => (c =? 48)%N) (48%N :: map (digit_char false) ds) && (1 <? List.length (48%N :: map (digit_char false) ds))
   then i64_from_str_radix 8 (tl (48%N :: map (digit_char false) ds)) else i64_from_str_radix 10 (48%N :: map (digit_char false) ds)) =
  if (number 8 ds <=? i64_max)%N then Some (Z.of_N (number 8 ds)) else None.
Proof.
  intros NE F. destruct ds as [|d ds]; [congruence|]. cbn [head_is]. rewrite N.eqb_refl. cbn [List.length map Nat.ltb Nat.leb andb tl].
  change (digit_char false d :: map (digit_char false) ds) with (map (digit_char false) (d :: ds)). apply radix_number; [exact F|lia|discriminate].
Qed.
Lemma oct_bad ds : Forall (fun d => (d < 10)%N) ds -> Exists (fun d => (8 <= d)%N) ds ->
  (if head_is (fun c => (c =? 48)%N) (48%N :: map (digit_char false) ds) && (1 <? List.length (48%N :: map (digit_char false) ds))
   then i64_from_str_radix 8 (tl (48%N :: map (digit_char false) ds)) else i64_from_str_radix 10 (48%N :: map (digit_char false) ds)) = None.
Proof.
  intros F X.
  assert (D8 : forall acc, digits_val 8 acc (map (digit_char false) ds) = None).
  { clear - F X. induction F as [|d ds D F IH]; intros acc; [inversion X|]. cbn [map digits_val]. destruct (N.ltb_spec d 8) as [L|L].
    - rewrite (digit_val_char 8 false d L ltac:(lia)). apply IH. inversion X; subst; [lia|assumption].
    - replace (digit_val 8 (digit_char false d)) with (@None N); [reflexivity|]. assert (Y : (d = 8 \/ d = 9)%N) by lia. destruct Y; subst; reflexivity. }
  destruct ds as [|d ds]; [inversion X|]. cbn [head_is]. rewrite N.eqb_refl. cbn [List.length map Nat.ltb Nat.leb andb tl].
  unfold i64_from_str_radix, from_str_radix. specialize (D8 0%N). cbn [map] in D8. rewrite D8. reflexivity.
Qed.
Lemma oct_tok_any code nt lf s ds r z : at_ code s (s2l "0" ++ map (digit_char false) ds ++ r) -> ds <> [] -> Forall (fun d => (d < 10)%N) ds -> no_point r -> no_digit r ->
  (if head_is (fun c => (c =? 48)%N) (48%N :: map (digit_char false) ds) && (1 <? List.length (48%N :: map (digit_char false) ds))
   then i64_from_str_radix 8 (tl (48%N :: map (digit_char false) ds)) else i64_from_str_radix 10 (48%N :: map (digit_char false) ds)) = z ->
  in_scripting_token code nt lf s =
  match z with
  | Some z => TOk (TInt z, mk_span (src_pos s) (src_pos s + S (List.length ds))) (set_pos (src_pos s + S (List.length ds)) s)
  | None => TPanic PUnwrap
  end.
Proof.
  intros H NE F P ND V. rewrite (num_any code nt lf s (48%N :: map (digit_char false) ds) r z H ltac:(discriminate) ltac:(constructor; [reflexivity|apply digits_forall, F]) P ND (oct_radix ds r NE F) V).
  cbn [List.length]. rewrite map_length. reflexivity.
Qed.
(** hexadecimal and binary numbers *)
Definition is_base (base : N) : N -> bool := if (base =? 16)%N then is_hex else (fun c => (c =? 48) || (c =? 49))%N.
Lemma base_digit p base up d : In (p, base) radixes -> (d < base)%N -> is_base base (digit_char up d) = true.
Proof. intros I D. cbn in I. destruct I as [I|[I|[]]]; injection I as <- <-; unfold is_base; cbn [N.eqb Pos.eqb]; [apply hex_char|apply (bin_char up d)]; exact D. Qed.
Lemma hex_is c : is_hex c = true -> exists up d, (d < 16)%N /\ c = digit_char up d.
Proof.
  unfold is_hex, is_digit. intros H. apply orb_prop in H. destruct H as [H|H]; [apply orb_prop in H; destruct H as [H|H]|]; apply andb_prop in H; destruct H as [H1 H2]; apply N.leb_le in H1, H2;
  first [exists false, (c - 48)%N; unfold digit_char; destruct (N.ltb_spec (c - 48) 10); split; lia
        |exists false, (c - 87)%N; unfold digit_char; destruct (N.ltb_spec (c - 87) 10); split; lia
        |exists true, (c - 55)%N; unfold digit_char; destruct (N.ltb_spec (c - 55) 10); split; lia].
Qed.
Lemma is_digit_of base c : In base [16; 2]%N -> is_base base c = true -> exists up d, (d < base)%N /\ c = digit_char up d.
Proof.
  intros I. cbn in I. destruct I as [<-|[<-|[]]]; unfold is_base; cbn [N.eqb Pos.eqb]; [apply hex_is|].
  intros H. apply orb_prop in H. destruct H as [H|H]; apply N.eqb_eq in H; subst c; [exists false, 0%N|exists false, 1%N]; split; reflexivity.
Qed.
Lemma radix_base p base : In (p, base) radixes -> In base [16; 2]%N /\ (base <= 16)%N /\ blen (s2l p) = 2.
Proof. intros I. cbn in I. destruct I as [I|[I|[]]]; injection I as <- <-; (split; [cbn; tauto|split; [lia|reflexivity]]). Qed.
Lemma no_base_head p base r : In (p, base) radixes -> no_base base r -> head_is (is_base base) r = false.
Proof.
  intros I N. destruct r as [|c r]; [reflexivity|]. cbn. apply not_true_iff_false. intros X. destruct (radix_base p base I) as (B & _).
  destruct (is_digit_of base c B X) as (up & d & D & E). exact (N c r up d eq_refl D E).
Qed.
Lemma in_base_facts p base w ds : In (p, base) radixes -> in_base base w ds -> Forall (fun c => is_base base c = true) w /\ (forall acc, digits_val base acc w = Some (fold_left (fun a d => a * base + d)%N ds acc)) /\
  ascii w /\ List.length w = List.length ds.
Proof.
  intros I F. destruct (radix_base p base I) as (B & B16 & _). induction F as [|c d w ds (D & up & E) F (IH1 & IH2 & IH3 & IH4)]; [repeat split; auto; constructor|].
  subst c. split; [constructor; [eapply base_digit; eassumption|exact IH1]|]. split; [|split; [constructor; [apply (hex_char up d); lia|exact IH3]|cbn; congruence]].
  intros acc. cbn [digits_val fold_left]. rewrite digit_val_char by assumption. apply IH2.
Qed.
Lemma pnum_any code s p base w ds r : In (p, base) radixes -> at_ code s (s2l p ++ w ++ r) -> in_base base w ds -> no_base base r -> w ++ r <> [] ->
  prefixed_num code (s2l p) (is_base base) base s =
  match ds with
  | [] => TErr SENone (set_pos (src_pos s + 2) s)
  | _ => if (number base ds <=? i64_max)%N then TOk (TInt (Z.of_N (number base ds)), mk_span (src_pos s) (List.length ds)) (set_pos (src_pos s + 2 + List.length ds) s) else TPanic PUnwrap
  end.
Proof.
  intros I H F N NE. destruct (radix_base p base I) as (_ & B16 & BP). destruct (in_base_facts p base w ds I F) as (OK & V & A & L).
  unfold prefixed_num. rewrite (tbind_input _ _ _ _ H), starts_with_app.
  assert (BL : (blen (s2l p ++ w ++ r) <? 3) = false).
  { apply Nat.ltb_ge. rewrite blen_app, BP. destruct (w ++ r) as [|c x]; [congruence|]. cbn. pose proof (clen_pos c). lia. }
  rewrite BL. cbn [negb orb]. unfold tbind at 1. rewrite (adv_bytes_n code s (s2l p) _ 2 H (eq_sym BP)).
  pose proof (at_move_eq code s (s2l p) _ (src_pos s + 2) H ltac:(rewrite BP; reflexivity)) as H1.
  rewrite (tbind_input _ _ _ _ H1).
  assert (PO : position (fun c => negb (is_base base c)) (w ++ r) = match r with [] => None | _ => Some (List.length ds) end).
  { rewrite position_app, L; [reflexivity| |].
    - eapply Forall_impl; [|exact OK]. cbn. intros c ->. reflexivity.
    - pose proof (no_base_head p base r I N) as X. destruct r; [exact X|]. cbn in X |- *. rewrite X. reflexivity. }
  rewrite PO. rewrite app_assoc in H. 
  assert (K : ds <> [] -> forall n, n = List.length ds ->
    (p0 <- input_pos;; q <- tsub p0 2;; r0 <- advance_chars code n;; z <- unwrap (i64_from_str_radix base r0);; tret (TInt z, mk_span q n)) (set_pos (src_pos s + 2) s)
    = if (number base ds <=? i64_max)%N then TOk (TInt (Z.of_N (number base ds)), mk_span (src_pos s) n) (set_pos (src_pos s + 2 + List.length ds) s) else TPanic PUnwrap).
  { intros ND n ->. unfold tbind at 1, input_pos. unfold tbind at 1, tsub. cbn [src_pos set_pos].
    destruct (Nat.leb_spec 2 (src_pos s + 2)); [|lia]. unfold tret at 1. replace (src_pos s + 2 - 2) with (src_pos s) by lia.
    unfold tbind at 1. rewrite (adv_chars code _ w r _ H1) by (symmetry; exact L).
    assert (X : i64_from_str_radix base w = if (number base ds <=? i64_max)%N then Some (Z.of_N (number base ds)) else None).
    { unfold i64_from_str_radix, from_str_radix. rewrite V. destruct w; [destruct ds; [congruence|discriminate]|]. reflexivity. }
    rewrite X. rewrite (blen_ascii w A), L. destruct (number base ds <=? i64_max)%N; reflexivity. }
  destruct ds as [|d ds].
  - destruct w; [|discriminate L]. destruct r as [|c r]; [exfalso; apply NE; reflexivity|]. reflexivity.
  - destruct r as [|c r].
    + rewrite app_nil_r, L. apply K; [discriminate|reflexivity].
    + cbn [List.length]. apply (K ltac:(discriminate) (S (List.length ds)) eq_refl).
Qed.
Lemma radix_scan code nt lf s p base w ds r : In (p, base) radixes -> at_ code s (s2l p ++ w ++ r) -> in_base base w ds -> no_base base r -> w ++ r <> [] ->
  in_scripting_token code nt lf s =
  match ds with
  | [] => tail code nt lf (src_pos s) (set_pos (src_pos s + 2) s)
  | _ => if (number base ds <=? i64_max)%N then TOk (TInt (Z.of_N (number base ds)), mk_span (src_pos s) (List.length ds)) (set_pos (src_pos s + 2 + List.length ds) s) else TPanic PUnwrap
  end.
Proof.
  intros I H F N NE. pose proof (pnum_any code s p base w ds r I H F N NE) as P. destruct (radix_base p base I) as (_ & _ & BP).
  pose proof (at_move_eq code s (s2l p) _ (src_pos s + 2) H ltac:(rewrite BP; reflexivity)) as H1.
  assert (CH : in_scripting_token code nt lf s = ret_token (bnum code) (ret_token (hnum code) (tail code nt lf (src_pos s))) s).
  { assert (W : exists x, s2l p ++ w ++ r = 48%N :: x) by (cbn in I; destruct I as [I|[I|[]]]; injection I as <- <-; eexists; reflexivity).
    destruct W as (x & W). rewrite W in H. rewrite (chain code nt lf s 48%N x H eq_refl).
    rewrite (ret_none _ _ _ _ (doc_none code nt lf s _ H eq_refl eq_refl)). reflexivity. }
  rewrite CH. cbn in I. destruct I as [I|[I|[]]]; injection I as <- <-.
  - rewrite (ret_none (bnum code) _ s s (pnum_none code s _ (s2l "0b") _ _ H eq_refl)).
    change (prefixed_num code (s2l "0x") (is_base 16) 16 s) with (hnum code s) in P. unfold ret_token at 1. rewrite P.
    destruct ds; [reflexivity|]. destruct (number 16 (n :: ds) <=? i64_max)%N; reflexivity.
  - change (prefixed_num code (s2l "0b") (is_base 2) 2 s) with (bnum code s) in P. unfold ret_token at 1. rewrite P.
    destruct ds as [|d ds]; [|destruct (number 2 (d :: ds) <=? i64_max)%N; reflexivity].
    assert (WN : w = []) by (inversion F; reflexivity). subst w. cbn [app] in *. 
    apply ret_none. apply (pnum_none code _ _ (s2l "0x") _ _ H1). destruct r as [|c r]; [reflexivity|]. 
    cbn. destruct c as [|q]; [reflexivity|]. destruct (Pos.eqb_spec 48 q) as [<-|]; [|reflexivity]. exfalso. exact (N _ r false 0%N eq_refl ltac:(lia) eq_refl).
Qed.

(** floating point numbers *)
Lemma onum_dbl code s w v r : at_ code s (w ++ 46%N :: v ++ r) -> Forall (fun c => is_digit c = true) w -> Forall (fun c => is_digit c = true) v ->
  w ++ v <> [] -> head_is is_digit r = false -> exists t s', onum_dnum_lnum code s = TOk t s'.
Proof.
  intros H F G N0 R.
  assert (A1 := blen_ascii w (digits_ascii w F)). assert (A2 := blen_ascii v (digits_ascii v G)).
  set (x := 46%N :: v ++ r) in *.
  unfold onum_dnum_lnum. rewrite (tbind_input _ _ _ _ H).
  rewrite (not_digit_pos w x F eq_refl). unfold x at 2 4.
  assert (E : exists c y, w ++ x = c :: y) by (destruct w; cbn; [unfold x|]; eauto).
  destruct E as (c & y & E). rewrite E. unfold tbind at 1, input_pos at 1. unfold tbind at 1.
  rewrite (adv_chars code s w x _ H eq_refl), A1.
  pose proof (at_move_eq code s w x (src_pos s + List.length w) H ltac:(rewrite A1; reflexivity)) as H1.
  rewrite (tbind_input _ _ _ _ H1). cbn [starts_with_c x]. unfold x in H1 |- *. rewrite N.eqb_refl. cbn [negb].
  unfold tbind at 1. rewrite (adv_chars code _ [46%N] (v ++ r) 1 H1 eq_refl).
  change (blen [46%N]) with 1. cbn [src_pos set_pos].
  pose proof (at_move_eq code _ [46%N] (v ++ r) (src_pos s + List.length w + 1) H1 eq_refl) as H2.
  change (set_pos _ (set_pos (src_pos s + List.length w) s)) with (set_pos (src_pos s + List.length w + 1) s) in *.
  rewrite (tbind_input _ _ _ _ H2). rewrite (not_digit_pos v r G R).
  assert (FS : f64_from_str ((w ++ [46%N]) ++ v) = Some (w ++ 46%N :: v)).
  { unfold f64_from_str. rewrite <- app_assoc. cbn [app].
    replace (existsb is_digit (w ++ 46%N :: v)) with true; auto. symmetry. apply existsb_exists.
    destruct w as [|d w]; [destruct v as [|d v]; [exfalso; apply N0; reflexivity|]|].
    - exists d. split; [right; left; auto|]. inversion G; auto.
    - exists d. split; [left; auto|]. inversion F; auto. }
  assert (K : forall n, n = List.length v -> exists t s',
    (p <- input_pos;; r0 <- advance_chars code n;; d <- unwrap (f64_from_str ((w ++ [46%N]) ++ r0));; tret (TDouble d, mk_span p (List.length w))) (set_pos (src_pos s + List.length w + 1) s)
    = TOk t s').
  { intros n ->. unfold tbind at 1, input_pos. unfold tbind at 1. rewrite (adv_chars code _ v r _ H2 eq_refl), A2, FS. eexists. eexists. reflexivity. }
  destruct r as [|d r].
  - rewrite app_nil_r in *. apply K; auto.
  - destruct v as [|d' v].
    + cbn [List.length]. destruct (Nat.eqb_spec (blen (w ++ [46%N])) 1) as [L|_].
      { rewrite blen_app in L. destruct w as [|c' w']; [exfalso; apply N0; reflexivity|]. cbn in L. pose proof (clen_pos c'). lia. }
      unfold tbind at 1, input_pos. rewrite app_nil_r in FS. rewrite FS. eexists. eexists. reflexivity.
    + apply K. auto.
Qed.
Lemma onum_dot code s : at_ code s [46%N] -> onum_dnum_lnum code s = TPanic PUnwrap.
Proof.
  intros H. unfold onum_dnum_lnum. rewrite (tbind_input _ _ _ _ H).
  cbv iota. change (position not_digit [46%N]) with (Some 0). cbv iota zeta. unfold tbind at 1, input_pos at 1. unfold tbind at 1.
  rewrite (adv_chars code s [] [46%N] 0 H eq_refl). pose proof (at_move_eq code s [] [46%N] (src_pos s + blen []) H ltac:(reflexivity)) as H1.
  rewrite (tbind_input _ _ _ _ H1). change (starts_with_c 46 [46%N]) with true. cbn [negb]. unfold tbind at 1. rewrite (adv_chars code _ [46%N] [] 1 H1 eq_refl).
  pose proof (at_move_eq code _ [46%N] [] _ H1 eq_refl) as H2. rewrite (tbind_input _ _ _ _ H2).
  cbn [position app]. unfold tbind at 1, input_pos at 1. unfold tbind at 1. rewrite (adv_chars code _ [] [] _ H2 eq_refl). reflexivity.
Qed.
(** ** Scanners that decide *)
Definition settled {A} (m : T A) (s : tst) : Prop := forall s', m s <> TErr SENone s'.
Definition never {A} (m : T A) : Prop := forall s, settled m s.
Lemma ret_settled {A} (m k k' : T A) s : settled m s -> ret_token m k s = ret_token m k' s.
Proof. intros N. unfold ret_token. destruct (m s) as [|e s'| |] eqn:E; try reflexivity. destruct e; try reflexivity. exfalso. exact (N s' E). Qed.
Lemma never_bind {A B} (m : T A) (k : A -> T B) : never m -> (forall a, never (k a)) -> never (tbind m k).
Proof. intros N K s s'. unfold tbind. pose proof (N s) as N'. destruct (m s) as [a t|e t| |] eqn:E; try discriminate; [apply K|]. intros X. injection X as -> ->. exact (N' s' E). Qed.
Lemma never_ret {A} (a : A) : never (tret a). Proof. discriminate. Qed.
Lemma never_ok {A} (f : tst -> A) (g : tst -> tst) : never (fun s => TOk (f s) (g s)). Proof. discriminate. Qed.
Lemma never_input code : never (input code).
Proof. intros s s'. unfold input. destruct (drop_bytes _ _); discriminate. Qed.
Lemma never_unit {A} (f : tst -> tout A) : (forall s, exists a s', f s = TOk a s' \/ exists p, f s = TPanic p) -> never f.
Proof. intros H s s'. destruct (H s) as (a & s2 & [-> |(p & ->)]); discriminate. Qed.
Lemma never_sub a b : never (tsub a b). Proof. unfold tsub. destruct (b <=? a); discriminate. Qed.
Lemma never_unwrap {A} (o : option A) : never (unwrap o). Proof. destruct o; discriminate. Qed.
Ltac nv := repeat first
  [ apply never_bind; [|intro] | apply never_ret | apply never_input | apply never_sub | apply never_unwrap
  | progress cbv zeta
  | match goal with |- never (if ?b then _ else _) => destruct b end
  | match goal with |- never (match ?b with _ => _ end) => destruct b end
  | (intros ? ?; discriminate) ].
Lemma never_bytes code n : never (advance_bytes code n).
Proof. unfold advance_bytes. nv; intros s s'; unfold put_pos; discriminate. Qed.
Lemma never_chars code n : never (advance_chars code n).
Proof. unfold advance_chars. nv; apply never_bytes. Qed.
Lemma never_label code : never (label code).
Proof. unfold label. nv; try apply never_bytes; try apply never_chars. Qed.
Lemma never_escape code bs sq : never (str_escape code bs sq).
Proof. unfold str_escape. nv; try apply never_chars. Qed.
Lemma never_flush bs parts n : never (flush bs parts n).
Proof. unfold flush. nv. Qed.
Lemma never_block nt n : forall toks, never (block_loop nt n toks).
Proof. induction n as [|n IH]; intros toks s s'; [discriminate|]. cbn [block_loop]. destruct (nt s); try discriminate. apply IH. Qed.
Lemma never_str_block code nt lf bs parts req : never (str_block code nt lf bs parts req).
Proof. unfold str_block. nv; first [apply never_bytes|apply never_block|apply never_flush]. Qed.
Lemma never_variable code nt lf bs parts : never (str_variable code nt lf bs parts).
Proof. unfold str_variable. nv; first [apply never_bytes|apply never_flush|apply never_block|apply never_label]. Qed.
Lemma never_end_pos inp : never (dq_end_pos inp).
Proof. unfold dq_end_pos. nv. Qed.
Lemma never_sq code n bak : forall bs, never (sq_loop code n bak bs).
Proof. induction n as [|n IH]; intros bs; cbn [sq_loop]; nv; first [apply never_bytes|apply never_chars|apply never_escape|apply IH]. Qed.
Lemma never_dq code nt lf n bak : forall bs parts, never (dq_loop code nt lf n bak bs parts).
Proof. induction n as [|n IH]; intros bs parts; cbn [dq_loop]; nv; first [apply never_end_pos|apply never_flush|apply never_block|apply never_label|apply never_bytes|apply never_chars|apply never_escape|apply never_variable|apply never_str_block|apply IH]. Qed.
Lemma never_bq code nt lf n bak : forall bs parts, never (bq_loop code nt lf n bak bs parts).
Proof. induction n as [|n IH]; intros bs parts; cbn [bq_loop]; nv; first [apply never_end_pos|apply never_flush|apply never_block|apply never_label|apply never_bytes|apply never_chars|apply never_variable|apply never_str_block|apply IH]. Qed.
Lemma never_parts a b bs parts : never (return_tokens_from_parts a b bs parts).
Proof. unfold return_tokens_from_parts. nv. Qed.
(** ** A number prefix without digits *)
Lemma settled_dq code nt lf s inp : at_ code s inp -> 2 <= blen inp -> (exists q, inp = s2l "b""" ++ q) \/ (exists q, inp = 34%N :: q) -> settled (match_dq_string code nt lf) s.
Proof.
  intros H L C s' E. unfold match_dq_string in E. rewrite (tbind_input _ _ _ _ H) in E. destruct (Nat.ltb_spec (blen inp) 2) as [|_]; [lia|]. unfold tbind at 1, tget in E.
  match type of E with tbind ?m ?k s = _ => set (M := m) in E; set (K := k) in E end.
  assert (G : exists s1, M s = TOk true s1).
  { unfold M. destruct C as [(q & ->)|(q & ->)].
    - rewrite starts_with_app. unfold tbind. rewrite (adv_bytes_n code s (s2l "b""") q 2 H eq_refl). eauto.
    - change (starts_with (s2l "b""") (34%N :: q)) with false. cbn [starts_with_c]. rewrite N.eqb_refl. unfold tbind. rewrite (adv_bytes_n code s [34%N] q 1 H eq_refl). eauto. }
  destruct G as (s1 & G). unfold tbind in E. rewrite G in E. revert E. unfold K.
  match goal with |- ?m s1 = _ -> _ => assert (N : never m); [|apply N] end.
  apply never_bind; [apply never_dq|]. intros. nv.
Qed.
Lemma settled_sq code lf s inp : at_ code s inp -> 2 <= blen inp -> (exists q, inp = s2l "b'" ++ q) \/ (exists q, inp = 39%N :: q) -> settled (match_sq_string code lf) s.
Proof.
  intros H L C s' E. unfold match_sq_string in E. rewrite (tbind_input _ _ _ _ H) in E. destruct (Nat.ltb_spec (blen inp) 2) as [|_]; [lia|]. unfold tbind at 1, tget in E.
  match type of E with tbind ?m ?k s = _ => set (M := m) in E; set (K := k) in E end.
  assert (G : exists s1, M s = TOk true s1).
  { unfold M. destruct C as [(q & ->)|(q & ->)].
    - rewrite starts_with_app. unfold tbind. rewrite (adv_bytes_n code s (s2l "b'") q 2 H eq_refl). eauto.
    - change (starts_with (s2l "b'") (39%N :: q)) with false. cbn [starts_with_c]. rewrite N.eqb_refl. unfold tbind. rewrite (adv_bytes_n code s [39%N] q 1 H eq_refl). eauto. }
  destruct G as (s1 & G). unfold tbind in E. rewrite G in E. revert E. unfold K.
  match goal with |- ?m s1 = _ -> _ => assert (N : never m); [|apply N] end.
  apply never_bind; [apply never_sq|]. intros. nv.
Qed.
Lemma settled_bq code nt lf s q : at_ code s (96%N :: q) -> q <> [] -> settled (match_backquote code nt lf) s.
Proof.
  intros H L s' E. unfold match_backquote in E. rewrite (tbind_input _ _ _ _ H) in E.
  assert (B : 2 <= blen (96%N :: q)). { destruct q as [|c q]; [congruence|]. cbn [blen]. pose proof (clen_pos 96). pose proof (clen_pos c). lia. }
  destruct (Nat.ltb_spec (blen (96%N :: q)) 2) as [|_]; [lia|]. cbn [starts_with_c] in E. rewrite N.eqb_refl in E. revert E.
  match goal with |- ?m s = _ -> _ => assert (N : never m); [|apply N] end.
  apply never_bind; [intros ? ?; discriminate|]. intros. apply never_bind; [apply never_bytes|]. intros. apply never_bind; [apply never_bq|]. intros. nv.
Qed.
Lemma settled_var code s v r : at_ code s (36%N :: v ++ r) -> name_ok v = true -> settled (match_variable code) s.
Proof.
  intros H N.
  assert (HL : head_is (fun c => is_label_char c && negb (is_digit c)) (v ++ r) = true).
  { destruct (name_facts v N) as (N1 & N2 & N3). destruct v as [|c v]; [congruence|]. cbn in N3 |- *. rewrite (Forall_inv N2), N3. reflexivity. }
  destruct (split_name _ HL) as (w & z & E & NW & EW). rewrite E in H. destruct (name_facts w NW) as (N1 & N2 & N3). rewrite ends_label in EW. apply negb_true_iff in EW.
  intros s' X. unfold match_variable in X. rewrite (tbind_input _ _ _ _ H) in X.
  assert (B : (blen (36%N :: w ++ z) <? 2) = false). { apply Nat.ltb_ge. destruct w as [|c w]; [congruence|]. cbn [blen app]. pose proof (clen_pos 36). pose proof (clen_pos c). lia. }
  rewrite B in X. cbn [starts_with_c orb] in X. rewrite N.eqb_refl in X. cbn [negb] in X. unfold tbind at 1, input_pos at 1 in X. unfold tbind at 1 in X.
  rewrite (adv_bytes_n code s [36%N] (w ++ z) 1 H eq_refl) in X.
  pose proof (at_move_eq code s [36%N] (w ++ z) (src_pos s + 1) H eq_refl) as H1.
  unfold tbind at 1 in X. rewrite (label_at code _ w z H1 N1 N2 N3 EW) in X. discriminate X.
Qed.
Lemma settled_comment code s w q : at_ code s (s2l w ++ q) -> In w ["#"; "//"; "/*"]%string -> settled (match_comments code) s.
Proof.
  intros H I s' E. unfold match_comments in E. rewrite (tbind_input _ _ _ _ H) in E. unfold tbind at 1, input_pos at 1 in E. cbv zeta in E.
  assert (X : exists n, 0 < n /\ ((if starts_with_c 35 (s2l w ++ q) then 1 else if starts_with (s2l "//") (s2l w ++ q) then 2 else 0) = n \/
     (if starts_with_c 35 (s2l w ++ q) then 1 else if starts_with (s2l "//") (s2l w ++ q) then 2 else 0) = 0 /\
     (if starts_with (s2l "/**") (s2l w ++ q) then 3 else if starts_with (s2l "/*") (s2l w ++ q) then 2 else 0) = n)).
  { cbn in I. destruct I as [<-|[<-|[<-|[]]]].
    - exists 1. split; [lia|left; reflexivity].
    - exists 2. split; [lia|left; reflexivity].
    - change (starts_with_c 35 (s2l "/*" ++ q)) with false. change (starts_with (s2l "//") (s2l "/*" ++ q)) with false. rewrite (starts_with_app (s2l "/*")).
      destruct (starts_with (s2l "/**") (s2l "/*" ++ q)); [exists 3|exists 2]; (split; [lia|right; auto]). }
  destruct X as (n & L & X).
  assert (Z : (0 <? n) = true) by (apply Nat.ltb_lt; exact L).
  revert E. destruct X as [->|[-> ->]]; rewrite Z; try change (0 <? 0) with false; cbv iota;
  match goal with |- ?m s = _ -> _ => assert (N : never m); [|apply N] end; nv; first [apply never_bytes|apply never_chars|intros ? ?; discriminate].
Qed.
Lemma split_digits s : exists w r, s = w ++ r /\ Forall (fun c => is_digit c = true) w /\ head_is is_digit r = false.
Proof.
  destruct (split_run (fun c => negb (is_digit c)) s) as (w & r & E & F & R). exists w, r. split; [exact E|split].
  - eapply Forall_impl; [|exact F]. cbn. intros c Y. apply negb_false_iff in Y. exact Y.
  - destruct r as [|c r]; [reflexivity|]. cbn in R |- *. rewrite negb_involutive in R. exact R.
Qed.
Lemma digit_range c : (48 <= c <= 57)%N -> is_digit c = true.
Proof. intros D. unfold is_digit. apply andb_true_intro; split; apply N.leb_le; lia. Qed.
Lemma again_same code nt lf s r old : at_ code s r -> again r -> (forall q, r <> 48%N :: q) -> tail code nt lf old s = in_scripting_token code nt lf s.
Proof.
  intros H A N0.
  assert (CH : exists c x, r = c :: x /\ is_ws c = false /\ starts_with (s2l "b<<<") r = false /\ starts_with (s2l "<<<") r = false).
  { destruct A as [c q D|q D|v q N|c q I NE|c q I|w q I].
    - exists c, q. split; [reflexivity|]. destruct (digit_head c) as (W1 & W2 & W3); [unfold is_digit; apply andb_true_intro; split; apply N.leb_le; lia|].
      split; [exact W1|split; [apply (head_ne 98 (s2l "<<<") c q W2)|apply (head_ne 60 (s2l "<<") c q W3)]].
    - exists 46%N, q. repeat split; reflexivity.
    - exists 36%N, (v ++ q). repeat split; reflexivity.
    - exists c, q. cbn in I. destruct I as [<-|[<-|[<-|[]]]]; repeat split; reflexivity.
    - exists 98%N, (c :: q). cbn in I. destruct I as [<-|[<-|[]]]; repeat split; reflexivity.
    - cbn in I. destruct I as [<-|[<-|[<-|[]]]]; (eexists; eexists; split; [reflexivity|]; repeat split; reflexivity). }
  destruct CH as (c & x & E & W & D1 & D2). rewrite E in H. rewrite (chain code nt lf s c x H W). rewrite <- E in H.
  rewrite (ret_none _ _ _ _ (doc_none code nt lf s _ H D1 D2)).
  assert (NR : no_radix r) by (intros y q _ _ X; exact (N0 _ X)).
  rewrite (ret_none (bnum code) _ s s (radix_none code s _ _ _ 98%N H NR ltac:(cbn; tauto))).
  rewrite (ret_none (hnum code) _ s s (radix_none code s _ _ _ 120%N H NR ltac:(cbn; tauto))).
  clear E c x W D1 D2 NR N0. unfold tail. destruct A as [c q D|q D|v q N|c q I NE|c q I|w q I].
  - apply ret_settled. destruct (split_digits (c :: q)) as (w & z & E & FW & RD).
    assert (NW : w <> []). { intros ->. cbn in E. subst z. cbn in RD. rewrite (digit_range c D) in RD. discriminate RD. }
    rewrite E in H. destruct z as [|y z].
    + intros s' X. rewrite (onum_int code s w [] _ H NW FW eq_refl eq_refl) in X. repeat match type of X with context [match ?m with _ => _ end] => destruct m; try discriminate X end.
    + destruct (N.eq_dec y 46) as [->|NY].
      * destruct (split_digits z) as (v & u & EV & FV & RV). rewrite EV in H.
        destruct (onum_dbl code s w v u H FW FV) as (t & s1 & O); [destruct w; [congruence|discriminate]|exact RV|intros s' X; congruence].
      * intros s' X. assert (RR : head_is (fun c => is_digit c || (c =? 46)%N) (y :: z) = false) by (cbn in RD |- *; rewrite RD; apply N.eqb_neq; exact NY).
        rewrite (onum_int code s w (y :: z) _ H NW FW RR eq_refl) in X. repeat match type of X with context [match ?m with _ => _ end] => destruct m; try discriminate X end.
  - apply ret_settled. destruct q as [|y q]; [intros s' X; change (s2l "." ++ []) with [46%N] in H; rewrite (onum_dot code s H) in X; discriminate X|].
    destruct (split_digits (y :: q)) as (v & u & EV & FV & RV). change (s2l "." ++ y :: q) with ([] ++ 46%N :: (y :: q)) in H. rewrite EV in H.
    destruct (onum_dbl code s [] v u H (Forall_nil _) FV) as (t & s1 & O); [|exact RV|intros s' X; congruence].
    cbn. intros ->. cbn in EV. subst u. cbn in RV. rewrite (digit_range y (D y q eq_refl)) in RV. discriminate RV.
  - rewrite !(ret_none (onum_dnum_lnum code) _ s s (onum_none code s _ H eq_refl)).
    rewrite !(ret_none (match_dq_string code nt lf) _ s s (dq_none code nt lf s _ H eq_refl eq_refl)). apply ret_settled. exact (settled_var code s v q H N).
  - assert (L : 2 <= blen (c :: q)). { destruct q as [|d q]; [congruence|]. cbn [blen]. pose proof (clen_pos c). pose proof (clen_pos d). lia. }
    assert (ON : onum_dnum_lnum code s = TErr SENone s) by (apply (onum_none code s _ H); cbn in I; destruct I as [<-|[<-|[<-|[]]]]; reflexivity).
    rewrite !(ret_none _ _ _ _ ON). clear ON.
    cbn in I. destruct I as [<-|[<-|[<-|[]]]].
    + apply ret_settled. apply (settled_dq code nt lf s _ H L). right. eauto.
    + rewrite !(ret_none (match_dq_string code nt lf) _ s s (dq_none code nt lf s _ H eq_refl eq_refl)).
      rewrite !(ret_none (match_variable code) _ s s (var_none code s _ H eq_refl)). apply ret_settled. apply (settled_sq code lf s _ H L). right. eauto.
    + rewrite !(ret_none (match_dq_string code nt lf) _ s s (dq_none code nt lf s _ H eq_refl eq_refl)).
      rewrite !(ret_none (match_variable code) _ s s (var_none code s _ H eq_refl)).
      rewrite !(ret_none (match_sq_string code lf) _ s s (sq_none code lf s _ H eq_refl eq_refl)).
      rewrite !(ret_none (match_comments code) _ s s (comm_none code s _ H eq_refl eq_refl eq_refl)). apply ret_settled. exact (settled_bq code nt lf s q H NE).
  - assert (L : 2 <= blen (98%N :: c :: q)). { cbn [blen]. pose proof (clen_pos 98). pose proof (clen_pos c). lia. }
    assert (ON : onum_dnum_lnum code s = TErr SENone s) by (apply (onum_none code s _ H); cbn in I; destruct I as [<-|[<-|[]]]; reflexivity).
    rewrite !(ret_none _ _ _ _ ON). clear ON.
    cbn in I. destruct I as [<-|[<-|[]]].
    + apply ret_settled. apply (settled_dq code nt lf s _ H L). left. exists q. reflexivity.
    + rewrite !(ret_none (match_dq_string code nt lf) _ s s (dq_none code nt lf s _ H eq_refl eq_refl)).
      rewrite !(ret_none (match_variable code) _ s s (var_none code s _ H eq_refl)). apply ret_settled. apply (settled_sq code lf s _ H L). left. exists q. reflexivity.
  - assert (ON : onum_dnum_lnum code s = TErr SENone s) by (apply (onum_none code s _ H); cbn in I; destruct I as [<-|[<-|[<-|[]]]]; reflexivity).
    assert (DQ : match_dq_string code nt lf s = TErr SENone s) by (apply (dq_none code nt lf s _ H); cbn in I; destruct I as [<-|[<-|[<-|[]]]]; reflexivity).
    assert (VN : match_variable code s = TErr SENone s) by (apply (var_none code s _ H); cbn in I; destruct I as [<-|[<-|[<-|[]]]]; reflexivity).
    assert (SN : match_sq_string code lf s = TErr SENone s) by (apply (sq_none code lf s _ H); cbn in I; destruct I as [<-|[<-|[<-|[]]]]; reflexivity).
    rewrite !(ret_none _ _ _ _ ON), !(ret_none _ _ _ _ DQ), !(ret_none _ _ _ _ VN), !(ret_none _ _ _ _ SN). apply ret_settled. exact (settled_comment code s w q H I).
Qed.
Lemma no_base_zero p base r : In (p, base) radixes -> no_base base r -> forall q, r <> 48%N :: q.
Proof. intros I N q ->. cbn in I. destruct I as [I|[I|[]]]; injection I as <- <-; exact (N _ q false 0%N eq_refl ltac:(lia) eq_refl). Qed.
Lemma g_prefix E st p base r toks : In (p, base) radixes -> no_base base r -> again r -> lexg E LInScripting st r toks -> lexg E LInScripting st (s2l p ++ r) toks.
Proof.
  intros I N A (F & R). exists (S F). intros code f s LF H M ST Q.
  destruct (radix_base p base I) as (_ & _ & BP).
  pose proof (at_move_eq code s (s2l p) r (src_pos s + 2) H ltac:(rewrite BP; reflexivity)) as H1. set (s2 := set_pos (src_pos s + 2) s) in *.
  destruct (R code f s2 ltac:(lia) H1 M ST Q) as (ts & RR & MM & LL). exists ts. split; [|split; [exact MM|eapply late_weak; [|exact LL]; cbn; lia]].
  eapply runz_same; [|exact RR]. intros k. rewrite !nt_scan by (cbn; congruence).
  assert (X : scan code (next_token code f) f s = scan code (next_token code f) f s2); [|rewrite X; reflexivity].
  unfold scan. replace (lmode s2) with (lmode s) by reflexivity. rewrite M.
  assert (NE : [] ++ r <> []) by (intros X; cbn in X; subst r; inversion A as [| | | | |w q IW EW]; cbn in IW; destruct IW as [<-|[<-|[<-|[]]]]; discriminate EW).
  rewrite (radix_scan code _ f s p base [] [] r I H (Forall2_nil _) N NE). fold s2.
  apply again_same with (r := r); [exact H1|exact A|eapply no_base_zero; eassumption].
Qed.
(** ** Texts that no special scanner takes *)
Lemma quote_short code (P : str -> bool) s inp : at_ code s inp -> ~ again inp -> P inp = true -> (forall i, P i = true -> exists c r, In c [34; 39; 96]%N /\ (i = c :: r \/ i = 98%N :: c :: r /\ c <> 96%N)) -> (blen inp <? 2) = true.
Proof.
  intros H A B C. destruct (C _ B) as (c & r & I & [->|[-> N]]).
  - destruct r as [|d r]; [|exfalso; apply A, again_quote; [exact I|discriminate]]. cbn in I. repeat (destruct I as [<-|I]; [reflexivity|]). contradiction.
  - exfalso. apply A, again_prefix. cbn in I |- *. intuition congruence.
Qed.
Lemma tail_other code nt lf s r old : at_ code s r -> ~ again r -> r <> [] -> tail code nt lf old s = label_or_other code old (set_pos old s).
Proof.
  intros H A NE. unfold tail.
  assert (NN : no_num r = true).
  { destruct r as [|c r]; [congruence|]. cbn. apply andb_true_intro. split.
    - apply negb_true_iff, not_true_iff_false. intros D. apply A, again_number. unfold is_digit in D. apply andb_prop in D. destruct D as [D1 D2]. apply N.leb_le in D1, D2. lia.
    - destruct (N.eqb_spec c 46) as [->|]; [|reflexivity]. cbn [negb orb]. destruct r as [|d r]; [exfalso; apply A, (again_point []); discriminate|].
      apply negb_true_iff, not_true_iff_false. intros D. apply A, (again_point (d :: r)). intros y q E. injection E as <- _. unfold is_digit in D. apply andb_prop in D. destruct D as [D1 D2]. apply N.leb_le in D1, D2. lia. }
  assert (NV : no_var r = true).
  { destruct r as [|c r]; [congruence|]. cbn. destruct (N.eqb_spec c 36) as [->|]; [|reflexivity]. cbn [negb orb]. apply negb_true_iff, not_true_iff_false. intros D.
    destruct (split_name r D) as (w & z & E & NW & _). apply A. rewrite E. apply (again_variable w z NW). }
  rewrite (ret_none _ _ _ _ (onum_none code s _ H NN)).
  assert (DQ : match_dq_string code nt lf s = TErr SENone s).
  { destruct (starts_with (s2l "b""") r || starts_with_c 34 r) eqn:E.
    - unfold match_dq_string. rewrite (tbind_input _ _ _ _ H), (quote_short code (fun r => starts_with (s2l "b""") r || starts_with_c 34 r) s r H A E); [reflexivity|].
      intros i X. apply orb_prop in X. destruct X as [X|X].
      + apply starts_with_iff in X. destruct X as (z & ->). exists 34%N, z. split; [cbn; tauto|right; split; [reflexivity|discriminate]].
      + destruct i as [|c i]; [discriminate|]. cbn in X. apply N.eqb_eq in X. subst c. exists 34%N, i. split; [cbn; tauto|auto].
    - apply orb_false_elim in E. destruct E as [E1 E2]. apply (dq_none code nt lf s r H E1 E2). }
  assert (SQ : match_sq_string code lf s = TErr SENone s).
  { destruct (starts_with (s2l "b'") r || starts_with_c 39 r) eqn:E.
    - unfold match_sq_string. rewrite (tbind_input _ _ _ _ H), (quote_short code (fun r => starts_with (s2l "b'") r || starts_with_c 39 r) s r H A E); [reflexivity|].
      intros i X. apply orb_prop in X. destruct X as [X|X].
      + apply starts_with_iff in X. destruct X as (z & ->). exists 39%N, z. split; [cbn; tauto|right; split; [reflexivity|discriminate]].
      + destruct i as [|c i]; [discriminate|]. cbn in X. apply N.eqb_eq in X. subst c. exists 39%N, i. split; [cbn; tauto|auto].
    - apply orb_false_elim in E. destruct E as [E1 E2]. apply (sq_none code lf s r H E1 E2). }
  assert (BQ : match_backquote code nt lf s = TErr SENone s).
  { destruct (starts_with_c 96 r) eqn:E; [|exact (bq_none code nt lf s r H E)].
    unfold match_backquote. rewrite (tbind_input _ _ _ _ H), (quote_short code (starts_with_c 96) s r H A E); [reflexivity|].
    intros i X. destruct i as [|c i]; [discriminate|]. cbn in X. apply N.eqb_eq in X. subst c. exists 96%N, i. split; [cbn; tauto|auto]. }
  assert (NC : forall w, In w ["#"; "//"; "/*"]%string -> starts_with (s2l w) r = false).
  { intros w I. apply not_true_iff_false. intros X. apply starts_with_iff in X. destruct X as (z & ->). exact (A (again_comment w z I)). }
  assert (C0 : starts_with_c 35 r = false). { pose proof (NC "#"%string ltac:(cbn; tauto)) as X. destruct r as [|c r]; [reflexivity|]. cbn in X |- *. rewrite andb_true_r in X. rewrite N.eqb_sym. exact X. }
  rewrite (ret_none _ _ _ _ DQ), (ret_none _ _ _ _ (var_none code s _ H NV)), (ret_none _ _ _ _ SQ).
  rewrite (ret_none _ _ _ _ (comm_none code s _ H C0 (NC "//"%string ltac:(cbn; tauto)) (NC "/*"%string ltac:(cbn; tauto)))), (ret_none _ _ _ _ BQ). reflexivity.
Qed.
Lemma scripting_other code nt lf s c r : at_ code s (c :: r) -> is_ws c = false -> ~ opens_doc (c :: r) -> no_radix (c :: r) -> ~ again (c :: r) ->
  in_scripting_token code nt lf s = label_or_other code (src_pos s) s.
Proof.
  intros H W D N A. rewrite (chain code nt lf s c r H W), (ret_none _ _ _ _ (doc_closed code nt lf s _ H D)).
  rewrite (ret_none (bnum code) _ s s (radix_none code s _ _ _ 98%N H N ltac:(cbn; tauto))).
  rewrite (ret_none (hnum code) _ s s (radix_none code s _ _ _ 120%N H N ltac:(cbn; tauto))).
  rewrite (tail_other code nt lf s _ _ H A) by discriminate. rewrite set_pos_id by reflexivity. reflexivity.
Qed.
(** ** The letter [b] and the operator [<<] in front of what is no heredoc *)
Lemma no_again_head c r : is_digit c = false -> ~ In c [46; 36; 34; 39; 96; 98; 35; 47]%N -> ~ again (c :: r).
Proof.
  intros D N A. inversion A as [x z DX E|z DZ E|v z NV E|x z I NE E|x z I E|w z I E]; subst.
  - rewrite (digit_range c DX) in D. discriminate.
  - apply N. cbn. tauto.
  - apply N. cbn. tauto.
  - apply N. cbn in I |- *. tauto.
  - apply N. cbn. tauto.
  - cbn in I. destruct I as [<-|[<-|[<-|[]]]]; injection E as <- _; apply N; cbn; tauto.
Qed.
Lemma step_b st r : ~ opens_doc (s2l "b<<<" ++ r) -> step1 LInScripting st (s2l "b<<<" ++ r) (TString (s2l "b")) LInScripting st (s2l "<<<" ++ r).
Proof.
  intros D. exists 0. intros code nt lf s LF H M ST Q. unfold scan. rewrite M.
  change (s2l "b<<<" ++ r) with (98%N :: s2l "<<<" ++ r) in *.
  rewrite (scripting_other code nt lf s _ _ H eq_refl D).
  - unfold label_or_other. unfold tbind at 1. rewrite (label_at code s [98%N] (s2l "<<<" ++ r) H ltac:(discriminate) ltac:(repeat constructor) eq_refl eq_refl).
    unfold tbind at 1, put_pos at 1. rewrite set_pos2, set_pos_id by reflexivity.
    rewrite (other_at code s _ H eq_refl (cast_none0 code s _ H eq_refl)).
    change (other_entry (98%N :: s2l "<<<" ++ r)) with (@None entry). cbv iota.
    rewrite (ret_none _ _ s s) by (unfold m_token; rewrite (tbind_input _ _ _ _ H); reflexivity).
    eexists. eexists. split; [reflexivity|]. split; [|cbn; repeat split; auto; lia]. apply (at_move_eq code s [98%N] (s2l "<<<" ++ r)); [exact H|reflexivity].
  - intros x q _ _ X. discriminate X.
  - intros A. inversion A as [x z DX E|z DZ E|v z NV E|x z I NE E|x z I E|w z I E]; subst; try lia.
    + cbn in I. intuition discriminate.
    + cbn in I. intuition discriminate.
    + cbn in I. destruct I as [<-|[<-|[<-|[]]]]; discriminate E.
Qed.
Lemma step_shift st r : ~ opens_doc (s2l "<<<" ++ r) -> step1 LInScripting st (s2l "<<" ++ s2l "<" ++ r) (Kw KSl) LInScripting st (s2l "<" ++ r).
Proof.
  intros D. exists 0. intros code nt lf s LF H M ST Q. unfold scan. rewrite M.
  change (s2l "<<<" ++ r) with (60%N :: s2l "<<" ++ r) in *. change (s2l "<<" ++ s2l "<" ++ r) with (60%N :: s2l "<<" ++ r) in H.
  rewrite (scripting_other code nt lf s _ _ H eq_refl D).
  - unfold label_or_other. unfold tbind at 1. rewrite (label_none code s _ H eq_refl). unfold tbind at 1, put_pos at 1. rewrite set_pos_id by reflexivity.
    rewrite (other_at code s _ H eq_refl (cast_none0 code s _ H eq_refl)).
    eexists. eexists. split; [reflexivity|]. split; [|cbn; repeat split; auto; lia]. apply (at_move_eq code s (s2l "<<") (s2l "<" ++ r)); [exact H|reflexivity].
  - intros x q _ _ X. discriminate X.
  - apply no_again_head; [reflexivity|]. cbn. intuition discriminate.
Qed.
(** ** One token *)
Lemma no_digit_head r : no_digit r -> head_is is_digit r = false.
Proof. intros N. destruct r as [|c r]; [reflexivity|]. cbn. apply not_true_iff_false. intros X. apply (N c r eq_refl). unfold is_digit in X. apply andb_prop in X. destruct X as [X1 X2]. apply N.leb_le in X1, X2. lia. Qed.
Lemma step_name st w r : Spec.identifier w = true -> ends_word r = true -> (forall x k, In (x, k) keywords -> s2l x <> w) -> w <> s2l "yield" -> w <> s2l "yieldfrom" -> no_prefix w r ->
  step1 LInScripting st (w ++ r) (TString w) LInScripting st r.
Proof.
  intros I E N Y1 Y2 P. destruct (quote_b w r) eqn:Q.
  - unfold quote_b in Q. apply andb_prop in Q. destruct Q as [QB QC]. apply str_eqb_eq in QB. subst w. destruct (P eq_refl) as [P1 P2].
    assert (X : starts_with (s2l "<<<") r = true).
    { apply orb_prop in QC. destruct QC as [QC|QC]; [|exact QC]. exfalso. destruct r as [|c r]; [discriminate|]. apply orb_prop in QC. cbn in QC.
      destruct (P1 r) as [A B]. destruct QC as [X|X]; apply N.eqb_eq in X; subst c; [apply B|apply A]; reflexivity. }
    apply starts_with_iff in X. destruct X as (q & ->). exact (step_b st q P2).
  - rewrite <- (word_other w N). apply step_word; assumption.
Qed.
Lemma step_decimal st ds r : decimal ds -> (number 10 ds <= i64_max)%N -> no_point r -> no_digit r -> (ds = [0%N] -> forall q, q <> [] -> r <> s2l "x" ++ q /\ r <> s2l "b" ++ q) ->
  step1 LInScripting st (map (digit_char false) ds ++ r) (TInt (Z.of_N (number 10 ds))) LInScripting st r.
Proof.
  intros D L P ND N. exists 0. intros code nt lf s LF H M ST Q. unfold scan. rewrite M. rewrite (dec_tok code nt lf s ds r H D P ND N), (proj2 (N.leb_le _ _) L).
  eexists. eexists. split; [reflexivity|]. split; [|cbn; repeat split; auto; lia]. eapply at_move_eq; [exact H|].
  rewrite (blen_ascii _ (digits_ascii _ (digits_forall ds (proj1 (proj2 D))))), map_length. reflexivity.
Qed.
Lemma step_octal st ds r : ds <> [] -> Forall (fun d => (d < 8)%N) ds -> (number 8 ds <= i64_max)%N -> no_point r -> no_digit r ->
  step1 LInScripting st (s2l "0" ++ map (digit_char false) ds ++ r) (TInt (Z.of_N (number 8 ds))) LInScripting st r.
Proof.
  intros NE F L P ND. exists 0. intros code nt lf s LF H M ST Q. unfold scan. rewrite M.
  assert (F10 : Forall (fun d => (d < 10)%N) ds) by (eapply Forall_impl; [|exact F]; cbn; intros; lia).
  rewrite (oct_tok_any code nt lf s ds r _ H NE F10 P ND (oct_value ds NE F)). rewrite (proj2 (N.leb_le _ _) L).
  eexists. eexists. split; [reflexivity|]. split; [|cbn; repeat split; auto; lia].
  rewrite app_assoc in H. eapply at_move_eq; [exact H|]. rewrite blen_app, (blen_ascii _ (digits_ascii _ (digits_forall ds F10))), map_length. reflexivity.
Qed.
Lemma step_radix st p base w ds r : In (p, base) radixes -> in_base base w ds -> ds <> [] -> (number base ds <= i64_max)%N -> no_base base r ->
  step1 LInScripting st (s2l p ++ w ++ r) (TInt (Z.of_N (number base ds))) LInScripting st r.
Proof.
  intros I B NE L N. exists 0. intros code nt lf s LF H M ST Q. unfold scan. rewrite M.
  destruct (radix_base p base I) as (_ & _ & BP).
  assert (LW : List.length w = List.length ds) by (clear - B; induction B; cbn; congruence).
  assert (BW : blen w = List.length ds).
  { rewrite <- LW. apply blen_ascii. destruct (radix_base p base I) as (_ & B16 & _). clear - B B16. induction B as [|c d w ds [L (up & ->)] B IH]; constructor; [|exact IH].
    unfold digit_char. destruct (d <? 10)%N, up; lia. }
  rewrite (radix_scan code nt lf s p base w ds r I H B N). 2:{ destruct w; [destruct ds; [congruence|discriminate LW]|discriminate]. }
  destruct ds as [|d ds]; [congruence|]. rewrite (proj2 (N.leb_le _ _) L).
  eexists. eexists. split; [reflexivity|]. split; [|cbn; repeat split; auto; lia].
  rewrite app_assoc in H. eapply at_move_eq; [exact H|]. rewrite blen_app, BP, BW. lia.
Qed.
Lemma step_lexeme st w t r : Lexeme w t r -> step1 LInScripting st (w ++ r) t LInScripting st r /\ t <> Kw KEnd.
Proof.
  intros [w' k r' I E|w' r' I E N Y1 Y2 P|v r' N E|ds r' D L P E X|ds r' D F L P E|p base w' ds r' I B NE L E|a b r' A B NE N|bin c r' C S
    |a x b k r' I A B|op k r' I N L NO C|r' N]; (split; [|try discriminate]); rewrite <- ?app_assoc.
  - rewrite <- (word_keyword w' k I). destruct (keyword_word w' k r' I) as (K1 & K2 & K3 & K4). apply step_word; assumption.
  - revert I. unfold keywords. cbn [In]. intros I. repeat (destruct I as [I|I]; [injection I as <- <-; discriminate|]). contradiction.
  - apply step_name; assumption.
  - apply (step_var st v r' N E).
  - apply step_decimal; assumption.
  - apply step_octal; assumption.
  - apply (step_radix st p base); assumption.
  - apply (step_dbl st a b r'); [apply digits_is, A|apply digits_is, B|exact NE|apply no_digit_head, N].
  - apply (step_sq_any st bin c r' C). apply sq_scalar; assumption.
  - destruct (cast_text_tail a x b k r' I A B) as (z & X & Y). rewrite X. apply (step_cast st z k r' Y).
  - revert I. unfold cast_words. cbn [In]. intros I. repeat (destruct I as [I|I]; [injection I as <- <-; discriminate|]). contradiction.
  - assert (M : mode_after k LInScripting st = Some (LInScripting, st)).
    { revert I N. unfold operators. cbn [In]. intros I N. repeat (destruct I as [I|I]; [injection I as <- <-; try reflexivity; exfalso; apply N; tauto|]). contradiction. }
    apply (step_op st op k r' _ _ I); [|exact M]. split; [apply longest_iff, L|]. split; [eapply op_plain; eassumption|].
    intros ->. apply cast_tail_none. intros a x b k2 r2 I2 A B X. apply (C a x b k2 r2 I2 A B).
    rewrite <- X. f_equal. revert I. unfold operators. cbn [In]. intros I. repeat (destruct I as [I|I]; [try discriminate I; injection I as <-; reflexivity|]). contradiction.
  - revert I. unfold operators. cbn [In]. intros I. repeat (destruct I as [I|I]; [injection I as <- <-; discriminate|]). contradiction.
  - exact (step_shift st r' N).
Qed.
(** ** Comments *)
Lemma doc_comment code nt lf s w r : at_ code s (s2l "/**" ++ w ++ s2l "*/" ++ r) -> no_close w ->
  exists sp s', in_scripting_token code nt lf s = TOk (TComment w, sp) s' /\ at_ code s' r /\ ctl s' = ctl s /\ src_pos s <= sp_start sp /\ src_pos s <= src_pos s'.
Proof.
  intros H N.
  pose proof (at_move_eq code s (s2l "/**") _ (src_pos s + 3) H eq_refl) as H1. pose proof (at_move code _ w _ H1) as H2. pose proof (at_move code _ (s2l "*/") r H2) as H3.
  cbn [src_pos set_pos] in H2, H3. rewrite !set_pos2 in H2, H3.
  eexists. eexists. split.
  - eapply (comm_chain code nt lf s 47%N (s2l "**" ++ w ++ s2l "*/" ++ r)); [exact H|right; reflexivity|].
    unfold match_comments. rewrite (tbind_input _ _ _ _ H). unfold tbind at 1, input_pos at 1. rewrite (starts_with_app (s2l "/**")).
    change (starts_with_c 35 (s2l "/**" ++ w ++ s2l "*/" ++ r)) with false. change (starts_with (s2l "//") (s2l "/**" ++ w ++ s2l "*/" ++ r)) with false.
    cbv zeta iota. change (0 <? 0) with false. change (0 <? 3) with true. cbv iota.
    unfold tbind at 1. rewrite (adv_bytes_n code s (s2l "/**") _ 3 H eq_refl). rewrite (tbind_input _ _ _ _ H1), find_close by auto.
    unfold tbind at 1. rewrite (adv_bytes code _ w _ H1). unfold tbind at 1. cbn [src_pos set_pos]. rewrite !set_pos2.
    rewrite (adv_bytes_n code _ (s2l "*/") r 2 H2 eq_refl). unfold tbind at 1. unfold tbind, input_pos, tret. reflexivity.
  - cbn [src_pos set_pos]. rewrite !set_pos2.
    destruct (next_lines_facts (lines_count w - 1) (set_pos (src_pos s + 3 + blen w + 2) s)) as [Q1 Q2].
    split; [|split; [rewrite Q2; reflexivity|split; [cbn; lia|rewrite Q1; cbn; lia]]].
    eapply at_same; [symmetry; exact Q1|]. exact H3.
Qed.
Lemma g_doc_comment E st w r toks : no_close w -> lexg E LInScripting st r toks -> lexg E LInScripting st (s2l "/**" ++ w ++ s2l "*/" ++ r) (TComment w :: toks).
Proof.
  intros C R. eapply g_step with (m' := LInScripting) (st' := st) (r := r); [discriminate| |discriminate|exact R].
  exists 0. intros code nt lf s LF H M ST Q. unfold scan. rewrite M.
  destruct (doc_comment code nt lf s w r H C) as (sp & s' & X & A & B & D & G).
  injection B as B1 B2 B3 B4. exists sp, s'. repeat (split; [congruence || lia || auto|]). auto.
Qed.
Lemma g_block_comment E st w r toks : w <> [] -> starts_with (s2l "*") w = false -> no_close w -> lexg E LInScripting st r toks ->
  lexg E LInScripting st (s2l "/*" ++ w ++ s2l "*/" ++ r) (TComment w :: toks).
Proof.
  intros NE S C R. replace (TComment w) with (TComment (block_body w)); [apply g_block; assumption|]. f_equal.
  destruct w as [|c w]; [congruence|]. change (s2l "*") with [42%N] in S. rewrite starts1 in S. cbn [starts_with_c] in S. unfold block_body. cbn. rewrite S. reflexivity.
Qed.
(** ** Tags *)
Lemma g_tag E st p k r toks : Tag p k r -> lexg E LInScripting st r toks -> lexg E LInitial st (p ++ r) (Kw k :: toks).
Proof.
  intros [z|z|z N1 N2] R; [apply g_open, R|apply g_open_echo, R|].
  eapply g_step with (m' := LInScripting) (st' := st) (r := z); [discriminate| |discriminate|exact R].
  exists 0. intros code nt lf s LF H M ST Q. unfold scan. rewrite M.
  assert (X : initial_token code s = TOk (Kw KOpenTag, mk_span (src_pos s) (src_pos s + 2)) (set_mode LInScripting (set_pos (src_pos s + 2) s))).
  { unfold initial_token. rewrite (tbind_input _ _ _ _ H). change (match s2l "<?" ++ z with [] => _ | _ :: _ => ?b end) with b.
    rewrite (ret_none _ _ _ _ (alias_no code s _ "<?=" _ _ H eq_refl eq_refl N2)).
    rewrite (ret_none _ _ _ _ (alias_no code s _ "<?php" _ _ H eq_refl eq_refl N1)).
    apply ret_ok. rewrite (match_alias code s _ "<?" _ _ H (proj1 (asciib_iff _) (eq_refl : asciib (s2l "<?") = true))).
    change (to_lower (s2l "<?")) with (s2l "<?"). rewrite starts_with_app. reflexivity. }
  rewrite X. eexists. eexists. split; [reflexivity|]. split; [|cbn; repeat split; auto; lia].
  eapply at_same; [|apply (at_move_eq code s (s2l "<?") z (src_pos s + 2)); auto]. reflexivity.
Qed.
Lemma tag_head p k r : Tag p k r -> exists q, p ++ r = s2l "<?" ++ q.
Proof. intros [z|z|z N1 N2]; eexists; reflexivity. Qed.
Lemma g_html_any E st w r toks : no_tag w -> tag_or_end r -> lexg E LInitial st r toks -> lexg E LInitial st (w ++ r) (html w ++ toks).
Proof. intros N T R. destruct w as [|c w]; [exact R|]. apply g_html; [discriminate|exact N|exact T|exact R]. Qed.
Lemma html_no_end w : ~ In (Kw KEnd) (html w).
Proof. destruct w; cbn; intuition discriminate. Qed.
(** ** The text of strings *)
Lemma fragment_token b t : Fragment b t <-> frag_token b = t.
Proof.
  split.
  - intros [s SC|b' N]; [apply frag_ces, SC|]. unfold frag_token. destruct (from_utf8 b') as [s|] eqn:E; [|reflexivity].
    apply from_utf8_sound in E. destruct E as [E1 E2]. exfalso. exact (N s E1 E2).
  - unfold frag_token. destruct (from_utf8 b) as [s|] eqn:E; intros <-.
    + apply from_utf8_sound in E. destruct E as [E1 <-]. apply fragment_text, E1.
    + apply fragment_bytes. intros s SC X. rewrite <- X, (from_utf8_encode s SC) in E. discriminate E.
Qed.
Lemma literal_pend b l : Literal b l <-> LexStr.pend b = l.
Proof.
  split.
  - intros [|b' t NE F]; [reflexivity|]. apply fragment_token in F. unfold LexStr.pend. destruct b'; [congruence|]. rewrite F. reflexivity.
  - intros <-. destruct b as [|c b]; [constructor|]. cbn. apply literal_some; [discriminate|]. apply fragment_token. reflexivity.
Qed.
Lemma pend_no_end b : ~ In (Kw KEnd) (LexStr.pend b).
Proof. destruct b as [|c b]; cbn; [tauto|]. intros [X|[]]. exact (frag_not_kw _ _ X). Qed.
