(** * Doc: nowdocs and heredocs without code (C27) *)
From Verif Require Import SpecGrammar SpecErr.
From Verif Require Import Base Tokens Ast AstMap Lexer Parser Driver Spec SpecInterp SpecText SpecUnread SpecDoc LexBase LexStr LexMono Grammar GrammarTop GrammarEx TextMain2 TextEx UnreadInside UnreadEx Wide.
From Coq Require Import String Lia.
Local Open Scope list_scope.

(** ** Reading the body *)
Lemma name_stops w r c z : forallb name_char w = true -> name_char c = false -> starts_with w (r ++ c :: z) = starts_with w r.
Proof.
  intros N C. revert r. induction w as [|d w IH]; intros r; [reflexivity|]. cbn [forallb] in N. apply andb_prop in N. destruct N as [N1 N2].
  destruct r as [|x r]; cbn [app starts_with]; [|rewrite IH; auto]. destruct (N.eqb_spec d c) as [->|]; [congruence|reflexivity].
Qed.
Lemma name_chars w : name_ok w = true -> forallb name_char w = true.
Proof. destruct w as [|c w]; [discriminate|]. cbn. intros H. apply andb_prop in H. destruct H as [H1 H2]. apply andb_prop in H1. destruct H1 as [-> _]. exact H2. Qed.
Lemma encode_one c s : encode (c :: s) = enc1 c ++ encode s.
Proof. reflexivity. Qed.
Lemma decode_other c r : c <> 92%N -> sq_decode (c :: r) = c :: sq_decode r.
Proof. intros N. cbn [sq_decode]. destruct r as [|d r]; [reflexivity|]. apply N.eqb_neq in N. rewrite N. reflexivity. Qed.
Lemma decode_pair d s : sq_decode (92%N :: d :: s) = if ((d =? 92) || (d =? 39))%N then d :: sq_decode s else 92%N :: sq_decode (d :: s).
Proof. reflexivity. Qed.
Lemma plain_verbatim (q : quoting) tag c : is_doc q tag -> c <> 92%N -> c <> 10%N -> negb ((c =? 36) || (c =? 123))%N = true -> verbatim q c.
Proof.
  intros D A B C. apply negb_true_iff, orb_false_iff in C. destruct C as [C1 C2]. apply N.eqb_neq in C1, C2.
  assert (X : ~ In c [92; 36; 10; 123]%N) by (cbn; intuition congruence). destruct D as [->| ->]; exact X.
Qed.
Lemma now_pieces tag e z : name_ok tag = true -> name_char e = false -> forall k s b, List.length s <= k -> body tag s = true ->
  Pieces (Now tag) b (s ++ e :: z) [] (b ++ encode (sq_decode s)) (e :: z).
Proof.
  intros T NE. induction k as [|k IH]; intros s b L B; (destruct s as [|c s]; [cbn; rewrite app_nil_r; apply ps_none|]); [cbn in L; lia|].
  cbn [body] in B. cbn [List.length] in L. destruct (N.eqb_spec c 92) as [->|N92].
  - destruct s as [|d s]; [discriminate|]. cbn [List.length] in L. rewrite decode_pair.
    destruct ((d =? 92) || (d =? 39))%N eqn:E.
    + assert (I : In d [39; 92]%N) by (apply orb_prop in E; destruct E as [E|E]; apply N.eqb_eq in E; subst; cbn; tauto).
      apply (ps_more (Now tag) b _ [] (b ++ [d]) (s ++ e :: z)); [apply (pc_raw_quote tag d b (s ++ e :: z)), I|].
      rewrite encode_one. replace (enc1 d) with [d] by (cbn in I; destruct I as [<-|[<-|[]]]; reflexivity).
      rewrite app_assoc. apply IH; [lia|exact B].
    + apply orb_false_iff in E. destruct E as [E1 E2]. apply N.eqb_neq in E1, E2.
      rewrite decode_other by exact E1. rewrite !encode_one. change (enc1 92) with [92%N]. cbn [app].
      apply (ps_more (Now tag) b _ [] (b ++ 92%N :: enc1 d) (s ++ e :: z)); [apply (pc_raw tag d b (s ++ e :: z)); cbn; intuition congruence|].
      replace (b ++ 92%N :: enc1 d ++ encode (sq_decode s)) with ((b ++ 92%N :: enc1 d) ++ encode (sq_decode s)) by (rewrite <- app_assoc; reflexivity).
      apply IH; [lia|exact B].
  - rewrite decode_other by exact N92. rewrite encode_one, app_assoc. destruct (N.eqb_spec c 10) as [->|N10].
    + apply andb_prop in B. destruct B as [B1 B2]. apply negb_true_iff in B1.
      apply (ps_more (Now tag) b _ [] (b ++ [10%N]) (s ++ e :: z)); [|apply IH; [lia|exact B2]].
      apply (pc_newline (Now tag) tag b (s ++ e :: z)); [right; reflexivity|]. rewrite (name_stops _ _ _ _ (name_chars _ T) NE). exact B1.
    + apply andb_prop in B. destruct B as [B1 B2].
      apply (ps_more (Now tag) b _ [] (b ++ enc1 c) (s ++ e :: z)); [|apply IH; [lia|exact B2]].
      apply (pc_char (Now tag) c b (s ++ e :: z)). eapply plain_verbatim; eauto. right; reflexivity.
Qed.
Lemma dq_chars_bytes d : dq_escape d = encode (dq_chars (DqEsc d)).
Proof.
  unfold dq_escape. cbn [dq_chars]. repeat match goal with |- context [(d =? ?x)%N] => destruct (N.eqb_spec d x); [subst; reflexivity|] end.
  cbn [orb]. change (encode [92%N; d]) with (92%N :: (enc1 d ++ [])). rewrite app_nil_r. reflexivity.
Qed.
Lemma heredoc_other c r : c <> 92%N -> heredoc_text (c :: r) = c :: heredoc_text r.
Proof. intros N. cbn [heredoc_text]. destruct r as [|d r]; [reflexivity|]. apply N.eqb_neq in N. rewrite N. reflexivity. Qed.
Lemma escapes_other c r : c <> 92%N -> plain_escapes (c :: r) = plain_escapes r.
Proof. intros N. cbn [plain_escapes]. destruct r as [|d r]; [reflexivity|]. apply N.eqb_neq in N. rewrite N. reflexivity. Qed.
Lemma here_pieces tag e z : name_ok tag = true -> name_char e = false -> forall k s b, List.length s <= k -> body tag s = true -> plain_escapes s = true ->
  Pieces (Doc tag) b (s ++ e :: z) [] (b ++ encode (heredoc_text s)) (e :: z).
Proof.
  intros T NE. induction k as [|k IH]; intros s b L B P; (destruct s as [|c s]; [cbn; rewrite app_nil_r; apply ps_none|]); [cbn in L; lia|].
  cbn [body] in B. cbn [List.length] in L. destruct (N.eqb_spec c 92) as [->|N92].
  - destruct s as [|d s]; [discriminate|]. cbn [List.length] in L. cbn [plain_escapes] in P. change ((92 =? 92)%N) with true in P. apply andb_prop in P. destruct P as [P1 P2].
    cbn [heredoc_text]. change ((92 =? 92)%N) with true. cbv iota. rewrite encode_app, <- dq_chars_bytes, app_assoc.
    apply (ps_more (Doc tag) b _ [] (b ++ dq_escape d) (s ++ e :: z)); [|apply IH; [lia|exact B|exact P2]].
    apply (pc_escape (Doc tag) d b (s ++ e :: z)); [exact I|]. intros X. cbn in X. destruct X as [<-|[<-|[<-|[<-|[]]]]]; discriminate P1.
  - rewrite heredoc_other by exact N92. rewrite escapes_other in P by exact N92. rewrite encode_one, app_assoc. destruct (N.eqb_spec c 10) as [->|N10].
    + apply andb_prop in B. destruct B as [B1 B2]. apply negb_true_iff in B1.
      apply (ps_more (Doc tag) b _ [] (b ++ [10%N]) (s ++ e :: z)); [|apply IH; [lia|exact B2|exact P]].
      apply (pc_newline (Doc tag) tag b (s ++ e :: z)); [left; reflexivity|]. rewrite (name_stops _ _ _ _ (name_chars _ T) NE). exact B1.
    + apply andb_prop in B. destruct B as [B1 B2].
      apply (ps_more (Doc tag) b _ [] (b ++ enc1 c) (s ++ e :: z)); [|apply IH; [lia|exact B2|exact P]].
      apply (pc_char (Doc tag) c b (s ++ e :: z)). eapply plain_verbatim; eauto. left; reflexivity.
Qed.

(** ** Whole sources *)
Lemma name_bytes tag : name_ok tag = true -> 1 <= blen tag.
Proof. destruct tag as [|c tag]; [discriminate|]. intros _. pose proof (clen_pos c). change (blen (c :: tag)) with (clen c + blen tag). lia. Qed.
Lemma now_opened tag inp : name_ok tag = true -> inp <> [] -> Opened (Now tag) (s2l "<<<'" ++ tag ++ s2l "'" ++ [10%N] ++ inp) inp.
Proof.
  intros T N. apply (opened_now false [] tag [10%N] inp); [apply Forall_nil|exact T|left; reflexivity|cbn [app]; rewrite <- !app_assoc; reflexivity|].
  pose proof (name_bytes tag T). destruct inp as [|c inp]; [congruence|]. pose proof (clen_pos c). rewrite !blen_app. change (blen (s2l "<<<'")) with 4. change (blen (s2l "'")) with 1. change (blen [10%N]) with 1.
  change (blen (c :: inp)) with (clen c + blen inp). lia.
Qed.
Lemma echo_text r ts d q : Text 0 r ts d q -> Text 0 (s2l " echo " ++ r) (Kw KEcho :: ts) d q.
Proof.
  intros H. change (s2l " echo " ++ r) with (s2l " " ++ s2l "echo" ++ s2l " " ++ r). sp.
  apply (tx_lexeme (s2l "echo") (Kw KEcho)); [apply (lx_keyword "echo"); [cbn; tauto|reflexivity]|]. sp. exact H.
Qed.
Lemma closing_semi : Text 0 (s2l ";" ++ [10%N]) [Kw KSemiColon] 0 [].
Proof. op ";"%string KSemiColon. apply (tx_white [10%N]); [reflexivity|apply tx_stop]. Qed.
Lemma nowdoc_echoes tag s : name_ok tag = true -> body tag s = true -> Forall scalar s -> echoes (nowdoc tag (s ++ closed tag)) (sq_decode s).
Proof.
  intros T B S. apply (source_program _ [Kw KOpenTag; Kw KEcho; TCes (sq_decode s); Kw KSemiColon]).
  - unfold nowdoc. change (s2l "<?php echo <<<'") with ([] ++ s2l "<?php" ++ s2l " echo " ++ s2l "<<<'"). rewrite <- !app_assoc.
    apply (source_script [] (s2l "<?php") KOpenTag _ [Kw KEcho; TCes (sq_decode s); Kw KSemiColon] 0); [clear; none_inside|constructor|]. apply echo_text.
    apply (tx_nowdoc tag 0 _ (s ++ closed tag) (encode (sq_decode s)) (TCes (sq_decode s)) (s2l ";" ++ [10%N]) [Kw KSemiColon] 0 []).
    + apply now_opened; [exact T|destruct s; discriminate].
    + apply (now_pieces tag 10%N (tag ++ s2l ";" ++ [10%N]) T eq_refl (List.length s) s []); [lia|exact B].
    + apply fragment_text, LexProg.sq_scalar, S.
    + exists 10%N, []. split; [cbn; tauto|right; reflexivity].
    + exact closing_semi.
  - cbn [flat_map visible app]. apply program_one, top_stmt, s_weak. change [Kw KEcho; TCes (sq_decode s); Kw KSemiColon] with (Kw KEcho :: [TCes (sq_decode s)] ++ [Kw KSemiColon]).
    apply s_echo, wholes_one, w_expr. eapply up_to; [apply e_access, a_string|lia].
Qed.
Lemma heredoc_scalar s : Forall scalar s -> Forall scalar (heredoc_text s).
Proof.
  assert (G : forall k s, List.length s <= k -> Forall scalar s -> Forall scalar (heredoc_text s)); [|eauto].
  induction k as [|k IH]; intros [|c [|d r]] L F; cbn [List.length] in L; try lia; try (exact F); try constructor.
  inversion F as [|? ? F1 F2]; subst. inversion F2 as [|? ? F3 F4]; subst. cbn [heredoc_text]. destruct (c =? 92)%N.
  - apply Forall_app. split; [|apply IH; [lia|exact F4]].
    assert (SM : forall x, (x < 55296)%N -> scalar x) by (intros x X; left; exact X).
    cbn [dq_chars]. repeat match goal with |- context [(d =? ?x)%N] => destruct (d =? x)%N; [constructor; [apply SM; reflexivity|constructor]|] end.
    constructor; [apply SM; reflexivity|constructor; [exact F3|constructor]].
  - constructor; [exact F1|]. apply (IH (d :: r)); [cbn; lia|exact F2].
Qed.
Lemma heredoc_some s : s <> [] -> heredoc_text s <> [].
Proof.
  destruct s as [|c [|d r]]; try congruence; try discriminate. intros _. cbn [heredoc_text]. destruct (c =? 92)%N; [|discriminate].
  cbn [dq_chars]. repeat match goal with |- context [(d =? ?x)%N] => destruct (d =? x)%N; [discriminate|] end. discriminate.
Qed.
Lemma encode_some s : s <> [] -> encode s <> [].
Proof. destruct s as [|c s]; [congruence|]. intros _. rewrite encode_one. unfold enc1. repeat match goal with |- context [if ?b then _ else _] => destruct b; [discriminate|] end. discriminate. Qed.
Lemma heredoc_echoes tag s : name_ok tag = true -> body tag s = true -> plain_escapes s = true -> s <> [] -> Forall scalar s -> echoes (heredoc tag (s ++ closed tag)) (heredoc_text s).
Proof.
  intros T B P N S. unfold echoes, heredoc, closed.
  apply (heredocs_parse tag s [] (encode (heredoc_text s)) [TCes (heredoc_text s)] (the_string (heredoc_text s)) []); [exact T| | |].
  - apply (here_pieces tag 10%N (tag ++ s2l ";" ++ [10%N]) T eq_refl (List.length s) s []); [lia|exact B|exact P].
  - apply literal_some; [apply encode_some, heredoc_some, N|apply fragment_text, heredoc_scalar, S].
  - apply parts_text; [apply heredoc_some, N|reflexivity|constructor].
Qed.
Lemma nowdoc_rejects tag s c r : name_ok tag = true -> body tag s = true -> In c [36; 123]%N -> rejects (nowdoc tag (s ++ c :: r)) 11 (blen (nowdoc tag s)).
Proof.
  intros T B C. pose (whole := s2l "<<<'" ++ tag ++ s2l "'" ++ [10%N] ++ s ++ c :: r).
  assert (U : Unread (nowdoc tag (s ++ c :: r)) (Reports (Unterminated "Here/Nowdoc") whole (blen whole - blen (c :: r)))).
  { apply (unread [] (s2l "<?php") KOpenTag (s2l " echo " ++ whole) [Kw KEcho] 0 whole); [clear; none_inside|constructor|apply echo_text, tx_stop|].
    apply (st_now_stop true 0 tag whole (s ++ c :: r) [] (encode (sq_decode s)) c r); [apply now_opened; [exact T|destruct s; discriminate]| |exact C].
    apply (now_pieces tag c r T) with (k := List.length s) (b := []); [cbn in C; destruct C as [<-|[<-|[]]]; reflexivity|lia|exact B]. }
  apply unread_meets in U. cbn [meets] in U. destruct U as (F & U). exists F. intros f L. destruct (U f L) as (e & E1 & E2 & E3 & _). exists e. split; [exact E1|].
  assert (X : blen (nowdoc tag (s ++ c :: r)) = 11 + blen whole) by (unfold nowdoc, whole; rewrite !blen_app; reflexivity).
  assert (Y : blen whole = blen (s2l "<<<'") + blen tag + 2 + blen s + blen (c :: r)) by (unfold whole; rewrite !blen_app; change (blen (s2l "'")) with 1; change (blen [10%N]) with 1; lia).
  split; [lia|]. unfold nowdoc. rewrite !blen_app. change (blen (s2l "<?php echo <<<'")) with (11 + blen (s2l "<<<'")). change (blen (s2l "'")) with 1; change (blen [10%N]) with 1. lia.
Qed.
Lemma empty_heredoc : rejects (heredoc (s2l "T") (closed (s2l "T"))) 17 18.
Proof.
  assert (E : exists e, parse_str 60 (heredoc (s2l "T") (closed (s2l "T"))) = DErr e /\ se_start e = 17 /\ se_end e = 18) by (vm_compute; eexists; split; [reflexivity|split; reflexivity]).
  destruct E as (e & E & X). exists 60. intros f L. exists e. rewrite (parse_str_mono 60 f _ L), E; [split; [reflexivity|exact X]|congruence].
Qed.
Lemma no_empty_heredoc tag : name_ok tag = true -> exists F, forall f, F <= f -> exists e, parse_str f (heredoc tag (closed tag)) = DErr e.
Proof.
  intros T. pose proof (heredoc_source tag [] [] [] [] T (ps_none (Doc tag) [] _) literal_none) as S.
  destruct (source_rejected _ _ [] [Kw KEcho; Kw KHereDocStart] [Kw KHereDocEnd; Kw KSemiColon] S) as (F & R).
  - split; [reflexivity|]. split; [left; reflexivity|]. apply (bt_stmt _ true); [|left; discriminate]. apply b_echo, bw_last, uc_unfinished, uf_some, be_heredoc. reflexivity.
  - exists F. intros f L. destruct (R f L) as (toks & s & e & _ & E & _). exists e. exact E.
Qed.
Lemma not_raw : exists tag s, name_ok tag = true /\ body tag s = true /\ Forall scalar s /\ ~ echoes (nowdoc tag (s ++ closed tag)) s.
Proof.
  assert (S : Forall scalar (s2l "C:\\a")) by (repeat constructor; reflexivity).
  exists (s2l "T"), (s2l "C:\\a"). split; [reflexivity|]. split; [reflexivity|]. split; [exact S|]. intros (F & H).
  destruct (nowdoc_echoes (s2l "T") (s2l "C:\\a") eq_refl eq_refl S) as (F' & H'). destruct (H (max F F') ltac:(lia)) as (l & E & X). destruct (H' (max F F') ltac:(lia)) as (l' & E' & X').
  rewrite E in E'. injection E' as <-. rewrite X in X'. discriminate X'.
Qed.
