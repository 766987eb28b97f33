(** * TextProof: the loops over the characters of strings (proofs for C41) *)
From Verif Require Import Base Tokens Ast AstMap Lexer Parser Printer Driver Spec SpecMixed SpecText SpecGrammar SmallFacts ParserTermination ParserFacts LexBase LexSteps LexWords LexTok LexNum LexStr LexMore LexRun LexParse LexFacts LexCrash LexProg LexText TextTok.
From Coq Require Import String.
Local Open Scope list_scope.

(** ** The loop over the characters of a string *)
Definition special (q : quoting) (c : N) : bool := match q with Quotes | Back => dq_special c | Doc _ | Now _ => doc_special c end.
Definition is_now (q : quoting) : bool := match q with Now _ => true | _ => false end.
Definition qloop (q : quoting) (code : str) (f n : nat) (bak : tst) (bs : bytes) (parts : list tokspan) : T (bytes * list tokspan) :=
  match q with
  | Quotes => dq_loop code (next_token code f) f n bak bs parts
  | Back => bq_loop code (next_token code f) f n bak bs parts
  | Doc tag => doc_loop code (next_token code f) f n bak tag false bs parts
  | Now tag => doc_loop code (next_token code f) f n bak tag true bs parts
  end.
(** the loop stops at a special character; in a heredoc or nowdoc also at the end *)
Definition has_special (q : quoting) (inp : str) : Prop := exists m, position (special q) inp = Some m.
Definition runs_on (q : quoting) (inp : str) : Prop := match q with Quotes | Back => has_special q inp | _ => True end.
Lemma pos_head f c inp : f c = true -> position f (c :: inp) = Some 0.
Proof. intros H. cbn. rewrite H. reflexivity. Qed.
Lemma adv_all code s x n : at_ code s x -> List.length x <= n -> advance_chars code n s = TOk x (set_pos (src_pos s + blen x) s).
Proof. intros H L. unfold advance_chars. rewrite (tbind_input _ _ _ _ H), firstn_all2 by exact L. apply (adv_bytes code s x []). rewrite app_nil_r. exact H. Qed.
(** [x] is what the loop takes in one go *)
Definition taken (q : quoting) (x y : str) : Prop :=
  position (special q) (x ++ y) = Some (List.length x) \/ (match q with Quotes | Back => False | _ => True end /\ y = [] /\ position (special q) x = None).
Lemma taken_some q inp : runs_on q inp -> exists x y, inp = x ++ y /\ taken q x y.
Proof.
  intros R. destruct (position (special q) inp) as [m|] eqn:P.
  - exists (firstn m inp), (skipn m inp). rewrite firstn_skipn. split; [reflexivity|]. left. rewrite firstn_skipn, P. f_equal. symmetry. apply firstn_length_le. apply position_lt in P. lia.
  - exists inp, []. rewrite app_nil_r. split; [reflexivity|]. right. split; [|auto]. destruct q; cbn in R; auto; destruct R as (m & R); congruence.
Qed.
Lemma taken_more q c x y : special q c = false -> taken q x y -> taken q (c :: x) y.
Proof.
  intros C [P|(A & B & P)]; [left|right; split; [exact A|split; [exact B|]]]; cbn [app position List.length]; rewrite C, P; reflexivity.
Qed.

Section Loop.
Variables (code : str) (f n : nat) (bak : tst).
Notation at_ := (at_ code).
Definition bq_rest (bs : bytes) (parts : list tokspan) : T (bytes * list tokspan) :=
    inp2 <- input code ;;
    let unterminated : T (bytes * list tokspan) :=
      old_pos <- input_pos ;; trestore bak ;;; p <- input_pos ;;
      terr (SEUnterminated (s2l "Backquote") (mk_span p old_pos)) in
    match inp2 with
    | [] => unterminated
    | c :: _ =>
      if (c =? 10)%N then advance_bytes code 1 ;;; next_line ;;; bq_loop code (next_token code f) f n bak (bs ++ [10]%N) parts
      else if (c =? 96)%N then advance_bytes code 1 ;;; tret (bs, parts)
      else if (c =? 36)%N then r <- str_variable code (next_token code f) f bs parts ;; bq_loop code (next_token code f) f n bak (fst r) (snd r)
      else if (c =? 123)%N then r <- str_block code (next_token code f) f bs parts true ;; bq_loop code (next_token code f) f n bak (fst r) (snd r)
      else unterminated
    end.
Definition doc_rest tag (now : bool) (bs : bytes) (parts : list tokspan) : T (bytes * list tokspan) :=
    inp2 <- input code ;;
    let unterminated (msg : str) : T (bytes * list tokspan) :=
      old_pos <- input_pos ;; trestore bak ;;; p <- input_pos ;;
      terr (SEUnterminated msg (mk_span p old_pos)) in
    match inp2 with
    | [] => unterminated (s2l "Here/Nowdoc")
    | c :: _ =>
      if (c =? 10)%N then
        advance_bytes code 1 ;;; next_line ;;;
        inp3 <- input code ;;
        if starts_with tag inp3 then
          advance_bytes code (blen tag) ;;;
          old_pos <- input_pos ;;
          inp4 <- input code ;;
          (if starts_with_c 59 inp4 then advance_bytes code 1 ;;; tret tt else tret tt) ;;;
          nl <- newline code ;;
          if (nl : bool) then put_pos old_pos ;;; tret (bs, parts)
          else unterminated (s2l "Here/Nowdoc: end-tag requires to be followed by a newline")
        else doc_loop code (next_token code f) f n bak tag now (bs ++ [10]%N) parts
      else if (c =? 92)%N then bs' <- str_escape code bs now ;; doc_loop code (next_token code f) f n bak tag now bs' parts
      else if (c =? 36)%N && negb now then
        r <- str_variable code (next_token code f) f bs parts ;; doc_loop code (next_token code f) f n bak tag now (fst r) (snd r)
      else if (c =? 123)%N && negb now then
        r <- str_block code (next_token code f) f bs parts true ;; doc_loop code (next_token code f) f n bak tag now (fst r) (snd r)
      else unterminated (s2l "Here/Nowdoc")
    end.
Definition qrest (q : quoting) bs parts : T (bytes * list tokspan) :=
  match q with
  | Quotes => dq_rest code (next_token code f) f n bak bs parts
  | Back => bq_rest bs parts
  | Doc tag => doc_rest tag false bs parts
  | Now tag => doc_rest tag true bs parts
  end.
Lemma q_run q s x y bs parts : at_ s (x ++ y) -> taken q x y ->
  qloop q code f (S n) bak bs parts s = qrest q (bs ++ encode x) parts (set_pos (src_pos s + blen x) s).
Proof.
  intros H T. destruct T as [P|(D & -> & P)].
  - destruct q as [| |tag|tag].
    + apply dq_run with (y := y); assumption.
    + cbn [qloop bq_loop]. rewrite (tbind_input _ _ _ _ H). unfold dq_end_pos. change (special Back) with dq_special in P. rewrite P.
      unfold tbind at 1, tret at 1. unfold tbind at 1. rewrite (adv_chars code s x y _ H eq_refl). reflexivity.
    + cbn [qloop doc_loop]. rewrite (tbind_input _ _ _ _ H). change (special (Doc tag)) with doc_special in P. rewrite P.
      unfold tbind at 1. rewrite (adv_chars code s x y _ H eq_refl). reflexivity.
    + cbn [qloop doc_loop]. rewrite (tbind_input _ _ _ _ H). change (special (Now tag)) with doc_special in P. rewrite P.
      unfold tbind at 1. rewrite (adv_chars code s x y _ H eq_refl). reflexivity.
  - rewrite app_nil_r in H. destruct q as [| |tag|tag]; try contradiction.
    + cbn [qloop doc_loop]. rewrite (tbind_input _ _ _ _ H). change (special (Doc tag)) with doc_special in P. rewrite P.
      unfold tbind at 1. rewrite (adv_all code s x _ H (blen_ge x)). reflexivity.
    + cbn [qloop doc_loop]. rewrite (tbind_input _ _ _ _ H). change (special (Now tag)) with doc_special in P. rewrite P.
      unfold tbind at 1. rewrite (adv_all code s x _ H (blen_ge x)). reflexivity.
Qed.
Lemma q_char q s c inp bs parts : at_ s (c :: inp) -> special q c = false -> runs_on q inp ->
  qloop q code f (S n) bak bs parts s = qloop q code f (S n) bak (bs ++ enc1 c) parts (set_pos (src_pos s + clen c) s).
Proof.
  intros H C P.
  pose proof (at_move_eq code s [c] inp (src_pos s + clen c) H ltac:(cbn; lia)) as H1.
  destruct (taken_some q inp P) as (x & y & E & T). rewrite E in *.
  rewrite (q_run q s (c :: x) y bs parts H (taken_more q c x y C T)).
  rewrite (q_run q _ x y _ parts H1 T). cbn [src_pos set_pos]. rewrite set_pos2.
  replace (src_pos s + clen c + blen x) with (src_pos s + blen (c :: x)) by (cbn; lia).
  replace ((bs ++ enc1 c) ++ encode x) with (bs ++ encode (c :: x)) by (cbn; rewrite app_assoc; reflexivity).
  reflexivity.
Qed.
Lemma q_here q s c inp bs parts : at_ s (c :: inp) -> special q c = true -> qloop q code f (S n) bak bs parts s = qrest q bs parts s.
Proof.
  intros H C. rewrite (q_run q s [] (c :: inp) bs parts H) by (left; apply pos_head, C). cbn [blen]. rewrite Nat.add_0_r, set_pos_id by reflexivity.
  change (encode []) with (@nil N). rewrite app_nil_r. reflexivity.
Qed.
Lemma q_end q s bs parts : at_ s [] -> match q with Quotes | Back => False | _ => True end -> qloop q code f (S n) bak bs parts s = qrest q bs parts s.
Proof.
  intros H C. rewrite (q_run q s [] [] bs parts H) by (right; auto). cbn [blen]. rewrite Nat.add_0_r, set_pos_id by reflexivity.
  change (encode []) with (@nil N). rewrite app_nil_r. reflexivity.
Qed.
(** double quotes and backquotes without a special character: all but the last *)
Lemma q_last q s x c bs parts : at_ s (x ++ [c]) -> In q [Quotes; Back] -> position (special q) (x ++ [c]) = None ->
  qloop q code f (S n) bak bs parts s = qrest q (bs ++ encode x) parts (set_pos (src_pos s + blen x) s).
Proof.
  intros H I P.
  assert (L : dq_end_pos (x ++ [c]) s = TOk (List.length x) s).
  { unfold dq_end_pos. replace (position dq_special (x ++ [c])) with (@None nat) by (cbn in I; destruct I as [<-|[<-|[]]]; symmetry; exact P). unfold tsub.
    rewrite app_length. cbn [List.length]. destruct (Nat.leb_spec 1 (List.length x + 1)); [|lia]. unfold tret. f_equal. lia. }
  cbn in I. destruct I as [<-|[<-|[]]].
  - cbn [qloop dq_loop]. rewrite (tbind_input _ _ _ _ H). unfold tbind at 1. rewrite L. unfold tbind at 1. rewrite (adv_chars code s x [c] _ H eq_refl). reflexivity.
  - cbn [qloop bq_loop]. rewrite (tbind_input _ _ _ _ H). unfold tbind at 1. rewrite L. unfold tbind at 1. rewrite (adv_chars code s x [c] _ H eq_refl). reflexivity.
Qed.
Lemma q_escape q s inp bs parts : at_ s (92%N :: inp) -> q <> Back -> qrest q bs parts s = (bs' <- str_escape code bs (is_now q) ;; qloop q code f n bak bs' parts) s.
Proof. intros H NB. unfold qrest, dq_rest, doc_rest, bq_rest, qloop. destruct q; [| congruence| |]; rewrite (tbind_input _ _ _ _ H); reflexivity. Qed.
Lemma q_variable q s inp bs parts : at_ s (36%N :: inp) -> splices q ->
  qrest q bs parts s = (r <- str_variable code (next_token code f) f bs parts ;; qloop q code f n bak (fst r) (snd r)) s.
Proof. intros H S. unfold qrest, dq_rest, doc_rest, bq_rest, qloop. destruct q; try contradiction; rewrite (tbind_input _ _ _ _ H); reflexivity. Qed.
Lemma q_block q s inp bs parts : at_ s (123%N :: inp) -> splices q ->
  qrest q bs parts s = (r <- str_block code (next_token code f) f bs parts true ;; qloop q code f n bak (fst r) (snd r)) s.
Proof. intros H S. unfold qrest, dq_rest, doc_rest, bq_rest, qloop. destruct q; try contradiction; rewrite (tbind_input _ _ _ _ H); reflexivity. Qed.
Lemma q_newline q s inp bs parts : at_ s (10%N :: inp) -> In q [Quotes; Back] ->
  qrest q bs parts s = (advance_bytes code 1 ;;; next_line ;;; qloop q code f n bak (bs ++ [10]%N) parts) s.
Proof. intros H I. cbn in I. unfold qrest, dq_rest, bq_rest, qloop. destruct I as [<-|[<-|[]]]; rewrite (tbind_input _ _ _ _ H); reflexivity. Qed.
Lemma q_doc_newline q tag s inp bs parts : at_ s (10%N :: inp) -> is_doc q tag -> starts_with tag inp = false ->
  qrest q bs parts s = qloop q code f n bak (bs ++ [10]%N) parts (next_line_st (set_pos (src_pos s + 1) s)).
Proof.
  intros H I T. pose proof (at_move_eq code s [10%N] inp (src_pos s + 1) H eq_refl) as H1.
  assert (H2 : at_ (next_line_st (set_pos (src_pos s + 1) s)) inp) by (eapply at_same; [|exact H1]; reflexivity).
  destruct I as [->| ->]; cbn [qrest qloop]; unfold doc_rest; rewrite (tbind_input _ _ _ _ H); cbn [N.eqb Pos.eqb]; unfold tbind at 1; rewrite (adv_bytes_n code s [10%N] inp 1 H eq_refl);
    unfold tbind at 1, next_line; rewrite (tbind_input _ _ _ _ H2), T; reflexivity.
Qed.
End Loop.

(** a dollar sign or brace that stands for itself *)
Lemma label_first inp : (forall c z, inp = c :: z -> name_ok [c] = false /\ c <> 123%N) ->
  head_is (fun c => is_label_char c && negb (is_digit c)) inp = false /\ starts_with_c 123 inp = false.
Proof.
  intros H. destruct inp as [|c z]; [auto|]. destruct (H c z eq_refl) as [A B]. cbn [head_is starts_with_c]. split.
  - cbn in A. rewrite andb_true_r in A. rewrite name_label in A. exact A.
  - apply N.eqb_neq. congruence.
Qed.
Lemma str_dollar code nt lf s inp bs parts : at_ code s (36%N :: inp) -> (forall c z, inp = c :: z -> name_ok [c] = false /\ c <> 123%N) ->
  str_variable code nt lf bs parts s = TOk (bs ++ [36%N], parts) (set_pos (src_pos s + 1) s).
Proof.
  intros H N. destruct (label_first inp N) as [A B]. unfold str_variable. unfold tbind at 1. rewrite (adv_bytes_n code s [36%N] inp 1 H eq_refl).
  pose proof (at_move_eq code s [36%N] inp (src_pos s + 1) H eq_refl) as H1. rewrite (tbind_input _ _ _ _ H1), B.
  unfold tbind at 1. rewrite (label_none code _ inp H1 A). reflexivity.
Qed.
Lemma str_brace code nt lf s inp bs parts : at_ code s (123%N :: inp) -> starts_with (s2l "$") inp = false ->
  str_block code nt lf bs parts true s = TOk (bs ++ [123%N], parts) (set_pos (src_pos s + 1) s).
Proof.
  intros H N. unfold str_block. unfold tbind at 1. rewrite (adv_bytes_n code s [123%N] inp 1 H eq_refl).
  pose proof (at_move_eq code s [123%N] inp (src_pos s + 1) H eq_refl) as H1. rewrite (tbind_input _ _ _ _ H1).
  change (s2l "$") with [36%N] in N. rewrite starts1 in N. rewrite N. reflexivity.
Qed.
Lemma str_dollar_block inp raw r : lexg (at_brace r) LInScripting [LDoNothing] inp (raw ++ [Kw KCurlyBracesClose]) ->
  exists F, forall code f s bs parts p0, F <= f -> at_ code s (36%N :: 123%N :: inp) -> 
  queue s = [] -> p0 + List.length bs <= src_pos s -> late p0 parts ->
  exists parts' s', str_variable code (next_token code f) f bs parts s = TOk ([], parts') s' /\ at_ code s' r /\ lmode s' = lmode s /\
    lstack s' = lstack s /\ queue s' = [] /\
    map fst parts' = map fst parts ++ pend bs ++ Kw KDollarCurlyBracesOpen :: raw ++ [Kw KCurlyBracesClose] /\ late p0 parts'.
Proof.
  intros L. destruct (block_ok inp raw r L) as (F & B). exists F. intros code f s bs parts p0 LF H Q PB LP.
  pose proof (at_move_eq code s [36%N] (123%N :: inp) (src_pos s + 1) H eq_refl) as H1.
  destruct (flush_ok bs parts (src_pos s) (set_pos (src_pos s + 1) s) p0 PB LP) as (pb & F1 & F2 & F3).
  destruct (B code f (set_pos (src_pos s + 1) s) [] pb p0 false LF H1 ltac:(discriminate) Q ltac:(cbn; lia) F3)
    as (parts' & s' & pb' & ts & X1 & X2 & X3 & X4 & X5 & X6 & X7 & X8 & X9).
  cbn in X6. injection X6 as <-.
  exists (pb ++ (Kw KDollarCurlyBracesOpen, set_start (src_pos s) (mk_span (src_pos s + 1) (src_pos s + 1 + 1))) :: ts), s'.
  split; [|split; [exact X2|split; [exact X3|split; [exact X4|split; [exact X5|split]]]]].
  - unfold str_variable. unfold tbind at 1. rewrite (adv_bytes_n code s [36%N] _ 1 H eq_refl). rewrite (tbind_input _ _ _ _ H1).
    change (starts_with_c 123 (123%N :: inp)) with true. unfold tbind at 1, input_pos at 1. unfold tbind at 1, tsub at 1. cbn [src_pos set_pos].
    destruct (Nat.leb_spec 1 (src_pos s + 1)) as [_|]; [|lia]. unfold tret at 1. replace (src_pos s + 1 - 1) with (src_pos s) by lia.
    unfold tbind at 1. rewrite F1. unfold tbind at 1. rewrite X1. rewrite X7. cbn [src_pos set_pos].
    rewrite nth_error_app2, Nat.sub_diag by lia. cbn [nth_error]. unfold tbind at 1, tsub at 1. cbn [sp_start mk_span].
    destruct (Nat.leb_spec 1 (src_pos s + 1)) as [_|]; [|lia]. unfold tret. replace (src_pos s + 1 - 1) with (src_pos s) by lia.
    f_equal. f_equal. rewrite firstn_app, firstn_all, Nat.sub_diag. cbn [firstn]. rewrite app_nil_r. f_equal. f_equal.
    replace (S (List.length pb)) with (List.length (pb ++ [(Kw KCurlyBracesOpen, mk_span (src_pos s + 1) (src_pos s + 1 + 1))])) by (rewrite app_length; cbn; lia).
    change (pb ++ (?a, ?b) :: ts) with (pb ++ [(a, b)] ++ ts). rewrite app_assoc, skipn_app, skipn_all, Nat.sub_diag. reflexivity.
  - unfold tokspan in *. rewrite map_app. cbn [map fst]. rewrite F2, X8, <- app_assoc. reflexivity.
  - apply Forall_app. split; [exact F3|]. constructor; [cbn; lia|exact X9].
Qed.


(** ** What the rules come to *)
Lemma verbatim_special q c : verbatim q c -> special q c = true -> In q [Quotes; Back] /\ c = 10%N.
Proof.
  destruct q; cbn [verbatim special]; unfold dq_special, doc_special; intros V S.
  1-2: split; [cbn; tauto|]; destruct (N.eqb_spec c 10); [assumption|]; exfalso; apply V; cbn;
    repeat (apply orb_prop in S; destruct S as [S|S]); try discriminate; apply N.eqb_eq in S; subst; tauto.
  1-2: exfalso; apply V; cbn; repeat (apply orb_prop in S; destruct S as [S|S]); apply N.eqb_eq in S; subst; tauto.
Qed.
Lemma plain_special q c : plain_char q c <-> special q c = false.
Proof.
  split.
  - intros [V N]. apply not_true_iff_false. intros S. destruct (verbatim_special q c V S) as [_ X]. contradiction.
  - intros S. assert (H : forall x, In x [92; 36; 10; 123]%N -> c <> x).
    { intros x I ->. destruct q; cbn [special] in S; cbn in I; repeat (destruct I as [<-|I]; [discriminate S|]); contradiction. }
    split; [|apply H; cbn; tauto].
    destruct q; cbn [verbatim]; intros I; cbn in I; (repeat destruct I as [<-|I]); try contradiction; try (apply (H 92%N); [cbn; tauto|reflexivity]); try (apply (H 36%N); [cbn; tauto|reflexivity]);
      try (apply (H 123%N); [cbn; tauto|reflexivity]); try (apply (H 10%N); [cbn; tauto|reflexivity]); discriminate S.
Qed.
Lemma plain_all q x : Forall (plain_char q) x <-> position (special q) x = None.
Proof.
  induction x as [|c x IH]; [split; [reflexivity|constructor]|]. cbn [position]. split.
  - intros F. rewrite (proj1 (plain_special q c) (Forall_inv F)), (proj1 IH (Forall_inv_tail F)). reflexivity.
  - destruct (special q c) eqn:S; [discriminate|]. intros P. constructor; [apply plain_special, S|]. apply IH. destruct (position (special q) x); [discriminate|reflexivity].
Qed.
Lemma has_head q c inp : special q c = true -> has_special q (c :: inp).
Proof. intros S. exists 0. apply pos_head, S. Qed.
Lemma runs_head q c inp : special q c = true -> runs_on q (c :: inp).
Proof. intros S. destruct q; cbn; auto; apply (has_head _ c inp S). Qed.
Lemma has_more q c inp : has_special q inp -> has_special q (c :: inp).
Proof. intros (m & P). destruct (special q c) eqn:SP; [exists 0; apply pos_head, SP|]. exists (S m). cbn [position]. rewrite SP, P. reflexivity. Qed.
Lemma runs_more q c inp : runs_on q inp -> runs_on q (c :: inp).
Proof. destruct q; cbn; auto; apply has_more. Qed.
Definition stk (d : nat) (base : list lstate) : list lstate := repeat LInScripting d ++ base.
Definition reads_text (d : nat) (inp : str) (ts : list token) (d' : nat) (r : str) : Prop :=
  ~ In (Kw KEnd) ts /\ (exists w, inp = w ++ r) /\
  forall E base toks, lexg E LInScripting (stk d' base) r toks -> lexg E LInScripting (stk d base) inp (ts ++ toks).
(** the loop goes on from [inp] with the bytes [b] to [r] with the bytes [b'], and appends the tokens [us]; [k] is the fuel used *)
Definition pieces_run (us : list token) (q : quoting) (b : bytes) (inp : str) (b' : bytes) (r : str) : Prop :=
  exists F k, forall code f n s bak parts p0, F <= f -> F <= n -> at_ code s inp -> queue s = [] -> p0 + List.length b <= src_pos s -> late p0 parts ->
  exists n' parts' s', n <= n' + k /\ qloop q code f n bak b parts s = qloop q code f n' bak b' parts' s' /\ at_ code s' r /\ lmode s' = lmode s /\ lstack s' = lstack s /\
    queue s' = [] /\ map fst parts' = map fst parts ++ us /\ late p0 parts' /\ p0 + List.length b' <= src_pos s'.
Definition reads_piece (q : quoting) (b : bytes) (inp : str) (us : list token) (b' : bytes) (r : str) : Prop :=
  ~ In (Kw KEnd) us /\ (exists w, w <> [] /\ inp = w ++ r) /\
  (runs_on q r \/ head_is (special q) inp = true -> runs_on q inp /\ pieces_run us q b inp b' r).
Definition reads_pieces (q : quoting) (b : bytes) (inp : str) (us : list token) (b' : bytes) (r : str) : Prop :=
  ~ In (Kw KEnd) us /\ (exists w, inp = w ++ r) /\ (runs_on q r -> runs_on q inp /\ pieces_run us q b inp b' r).
(** behind a piece that is more than one plain character *)
Definition reads_behind (q : quoting) (inp : str) (us : list token) (b : bytes) (r : str) : Prop :=
  ~ In (Kw KEnd) us /\ (exists w, inp = w ++ r) /\ pieces_run us q [] inp b r.
Lemma text_step d inp t d' r ts d2 q : (exists w, inp = w ++ r) ->
  t <> Kw KEnd -> (forall base, step1 LInScripting (stk d base) inp t LInScripting (stk d' base) r) ->
  reads_text d' r ts d2 q -> reads_text d inp (t :: ts) d2 q.
Proof.
  intros (w & W) NE S (N2 & (w2 & W2) & G).
  split; [intros [X|X]; [congruence|contradiction]|]. split; [exists (w ++ w2); rewrite W, W2, app_assoc; reflexivity|].
  intros E base toks L. cbn [app]. eapply g_step; [discriminate|apply S|exact NE|apply G, L].
Qed.
