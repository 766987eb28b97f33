(** * LexRun: whole token lists *)
From Verif Require Import Base Tokens Ast AstMap Lexer Parser Printer Driver Spec SmallFacts ParserFacts LexBase LexSteps LexWords LexTok LexNum LexStr LexMore.
From Coq Require Import String.

(** With at least [F] rounds for the loop of [next_token] the tokenizer goes from [s]
    through the tokens [ts] to the end token. *)
Inductive runs (code : str) (nt : T tokspan) (lf F : nat) : tst -> list tokspan -> tst -> Prop :=
| runs_end s sp s' : (forall k, F <= k -> nt_loop code nt lf k s = TOk (Kw KEnd, sp) s') -> runs code nt lf F s [] s'
| runs_tok s t s' ts sf : (forall k, F <= k -> nt_loop code nt lf k s = TOk t s') -> fst t <> Kw KEnd ->
    runs code nt lf F s' ts sf -> runs code nt lf F s (t :: ts) sf.

Lemma runs_mono code nt lf F F' s ts sf : F <= F' -> runs code nt lf F s ts sf -> runs code nt lf F' s ts sf.
Proof.
  intros L R. induction R.
  - eapply runs_end. intros. apply H; lia.
  - eapply runs_tok; eauto. intros. apply H; lia.
Qed.
Lemma runs_skip code nt lf F s s2 ts sf : (forall k, nt_loop code nt lf (S k) s = nt_loop code nt lf k s2) ->
  runs code nt lf F s2 ts sf -> runs code nt lf (S F) s ts sf.
Proof.
  intros E R. inversion R; subst.
  - eapply runs_end. intros k K. destruct k; [lia|]. rewrite E. apply H; lia.
  - eapply runs_tok; [|eassumption|eapply runs_mono; [|eassumption]; lia].
    intros k K. destruct k; [lia|]. rewrite E by lia. apply H; lia.
Qed.
Lemma runs_same code nt lf F s s2 ts sf : (forall k, nt_loop code nt lf (S k) s = nt_loop code nt lf (S k) s2) ->
  runs code nt lf F s2 ts sf -> runs code nt lf (S F) s ts sf.
Proof.
  intros E R. inversion R; subst.
  - eapply runs_end. intros k K. destruct k; [lia|]. rewrite E. apply H; lia.
  - eapply runs_tok; [|eassumption|eapply runs_mono; [|eassumption]; lia].
    intros k K. destruct k; [lia|]. rewrite E. apply H; lia.
Qed.
Lemma runs_loop code f F s ts sf : runs code (next_token code f) f F s ts sf -> F <= f -> forall n acc, List.length ts < n ->
  tokenize_loop code n (S f) acc s = DOk (acc ++ ts, sf).
Proof.
  induction 1 as [s sp s' E|s t s' ts sf E NE R IH]; intros LF n acc LN; (destruct n as [|n]; [lia|]);
    cbn [tokenize_loop]; change (next_token code (S f) s) with (nt_loop code (next_token code f) f f s).
  - rewrite E by lia. rewrite app_nil_r. reflexivity.
  - rewrite E by lia. destruct t as [t sp]. cbn in NE.
    rewrite IH; auto; [|cbn in LN; lia]. rewrite <- app_assoc.
    destruct t as [| | | | | | | |k]; try reflexivity. destruct k; try reflexivity. congruence.
Qed.

(** ** The judgement *)
Definition lexes (m : lstate) (st : list lstate) (inp : str) (toks : list token) : Prop :=
  exists F, forall code nt lf s, F <= lf -> at_ code s inp -> lmode s = m -> lstack s = st -> queue s = [] ->
  exists ts sf, runs code nt lf F s ts sf /\ map fst ts = toks /\ late (src_pos s) ts.

(** one token of a scan *)
Definition step1 (m : lstate) (st : list lstate) (inp : str) (t : token) (m' : lstate) (st' : list lstate) (r : str) : Prop :=
  exists L, forall code nt lf s, L <= lf -> at_ code s inp -> lmode s = m -> lstack s = st -> queue s = [] ->
  exists sp s', scan code nt lf s = TOk (t, sp) s' /\ at_ code s' r /\ lmode s' = m' /\ lstack s' = st' /\ queue s' = [] /\
    src_pos s <= sp_start sp /\ src_pos s <= src_pos s'.

Lemma nt_scan code nt lf k s : lmode s <> LEmitQueue ->
  nt_loop code nt lf (S k) s =
  match scan code nt lf s with
  | TErr SENone s' => if restart s' then nt_loop code nt lf k (set_restart false s') else TErr SENone s'
  | r => r
  end.
Proof. intros H. cbn [nt_loop]. destruct (lmode s); try congruence; reflexivity. Qed.
Lemma late_weak p q ts : q <= p -> late p ts -> late q ts.
Proof. intros L H. eapply Forall_impl; [|exact H]. cbn. intros; lia. Qed.

Lemma lex_end_script st : lexes LInScripting st [] [].
Proof.
  exists 1. intros code nt lf s L H M ST Q. exists [], s. split; [|split; [reflexivity|constructor]].
  eapply runs_end. intros k K. destruct k as [|k]; [lia|].
  rewrite nt_scan by congruence. unfold scan. rewrite M. rewrite (script_end code nt lf s H). reflexivity.
Qed.
Lemma lex_end_html st : lexes LInitial st [] [].
Proof.
  exists 1. intros code nt lf s L H M ST Q. exists [], (set_mode LDone s). split; [|split; [reflexivity|constructor]].
  eapply runs_end. intros k K. destruct k as [|k]; [lia|].
  rewrite nt_scan by congruence. unfold scan. rewrite M. rewrite (html_end code s H). reflexivity.
Qed.
Lemma lex_step m st inp t m' st' r toks : m <> LEmitQueue -> step1 m st inp t m' st' r -> t <> Kw KEnd ->
  lexes m' st' r toks -> lexes m st inp (t :: toks).
Proof.
  intros NM (L & S1) NE (F & R). exists (S (L + F)). intros code nt lf s LF H M ST Q.
  destruct (S1 code nt lf s ltac:(lia) H M ST Q) as (sp & s' & E & H' & M' & ST' & Q' & P1 & P2).
  destruct (R code nt lf s' ltac:(lia) H' M' ST' Q') as (ts & sf & RR & MM & LL).
  exists ((t, sp) :: ts), sf. split; [|split].
  - eapply runs_tok; [|exact NE|eapply runs_mono; [|exact RR]; lia].
    intros k K. destruct k as [|k]; [lia|]. rewrite nt_scan by congruence. rewrite E. reflexivity.
  - cbn. congruence.
  - constructor; [exact P1|]. eapply late_weak; [|exact LL]. lia.
Qed.

(** ** White space *)
Definition blank (w : str) : bool := forallb is_ws w.
Lemma blank_forall w : blank w = true -> Forall (fun c => is_ws c = true) w.
Proof. unfold blank. rewrite forallb_forall, Forall_forall. auto. Qed.
Lemma lex_ws m st w r toks : m = LInScripting \/ m = LLookingForProperty -> blank w = true -> lexes m st r toks -> lexes m st (w ++ r) toks.
Proof.
  intros MM B (F & R). exists (S F). intros code nt lf s LF H M ST Q.
  destruct (ws_skip code w r s (blank_forall w B) H) as (A1 & A2 & A3 & A4).
  set (s2 := whitespace_loop w s) in *. injection A2 as B1 B2 B3 B4.
  destruct (R code nt lf s2 ltac:(lia) A1 ltac:(congruence) ltac:(congruence) ltac:(congruence)) as (ts & sf & RR & M2 & LL).
  exists ts, sf. split; [|split; [exact M2|eapply late_weak; [|exact LL]; lia]].
  eapply runs_same; [|exact RR]. intros k.
  rewrite !nt_scan by (destruct MM; congruence).
  assert (E : scan code nt lf s = scan code nt lf s2); [|rewrite E; reflexivity].
  unfold scan. rewrite B1, M. destruct MM as [-> | ->].
  - unfold in_scripting_token, tbind at 1. rewrite A4. reflexivity.
  - unfold looking_for_property_token, tbind at 1. rewrite A4. reflexivity.
Qed.
Definition comment_body (c : comment) : str := match c with CLine _ w => w | CBlock w => block_body w end.
Lemma lex_comment st c r toks : comment_ok c -> lexes LInScripting st r toks ->
  lexes LInScripting st (comment_text c ++ r) (TComment (comment_body c) :: toks).
Proof.
  intros C R. destruct c as [hash w|w]; cbn [comment_text comment_body]; rewrite <- !app_assoc.
  - eapply lex_step with (m' := LInScripting) (st' := st) (r := [10%N] ++ r); [discriminate| |discriminate|apply lex_ws; auto; reflexivity].
    exists 0. intros code nt lf s LF H M ST Q. unfold scan. rewrite M.
    destruct (line_comment code nt lf s hash w ([10%N] ++ r) H C ltac:(reflexivity)) as (sp & s' & E & A & B & D & G).
    injection B as B1 B2 B3 B4. exists sp, s'. repeat (split; [congruence || lia || auto|]). auto.
  - destruct C as [C1 C2].
    eapply lex_step with (m' := LInScripting) (st' := st) (r := r); [discriminate| |discriminate|exact R].
    exists 0. intros code nt lf s LF H M ST Q. unfold scan. rewrite M.
    destruct (block_comment code nt lf s w r H C1 C2) as (sp & s' & E & A & B & D & G).
    injection B as B1 B2 B3 B4. exists sp, s'. repeat (split; [congruence || lia || auto|]). auto.
Qed.

(** ** Script tokens *)
(** a script token that leaves the mode alone *)
Lemma step_word st w r : identifier w = true -> ends_word r = true -> quote_b w r = false -> w <> s2l "yield" -> w <> s2l "yieldfrom" ->
  step1 LInScripting st (w ++ r) (word_token w) LInScripting st r.
Proof.
  intros I E Q Y1 Y2. exists 0. intros code nt lf s LF H M ST QQ. unfold scan. rewrite M.
  rewrite (word_tok code nt lf s w r H I E Q Y1 Y2). eexists. eexists. split; [reflexivity|].
  split; [|cbn; repeat split; auto; lia]. apply at_move_eq with w; auto.
  destruct (ident_facts w I) as (_ & _ & _ & A). rewrite (blen_ascii w); auto.
Qed.
Lemma step_var st w r : name_ok w = true -> ends_word r = true ->
  step1 LInScripting st (36%N :: w ++ r) (TVariable w) LInScripting st r.
Proof.
  intros N E. destruct (name_facts w N) as (N1 & N2 & N3). exists 0. intros code nt lf s LF H M ST QQ. unfold scan. rewrite M.
  rewrite (var_tok code nt lf s w r H N1 N2 N3 E). eexists. eexists. split; [reflexivity|].
  split; [|cbn; repeat split; auto; lia]. apply (at_move_eq code s (36%N :: w) r); auto. cbn [blen]. change (clen 36) with 1. lia.
Qed.
(** ** Operators followed by a character that continues no operator *)
Definition soft (c : N) : bool :=
  is_label_char c || is_ws c ||
  existsb (N.eqb c) [36; 39; 34; 40; 41; 91; 93; 123; 125; 59; 44; 92; 126; 64; 33; 96; 35]%N.
Definition soft_op (op : string) (r : str) : bool :=
  head_is soft r && (negb (str_eqb (s2l op) (s2l ".")) || negb (head_is is_digit r)) && negb (str_eqb (s2l op) (s2l "$")).
Lemma starts_cut (p w r : str) : starts_with p (w ++ r) = true -> List.length w <= List.length p -> exists z, p = w ++ z /\ starts_with z r = true.
Proof.
  revert p. induction w as [|c w IH]; intros p S L; [exists p; auto|].
  destruct p as [|d p]; [cbn in L; lia|]. cbn in S. apply andb_prop in S. destruct S as [S1 S2]. apply N.eqb_eq in S1. subst d.
  destruct (IH p S2) as (z & -> & Z); [cbn in L; lia|]. exists z. auto.
Qed.
Lemma soft_longest op k r : In (op, k) operators -> head_is soft r = true -> longest_op op (s2l op ++ r).
Proof.
  intros I S. split; [apply starts_with_app|]. intros op' k' I' S'.
  destruct (Nat.le_gt_cases (List.length (s2l op')) (List.length (s2l op))) as [L|L]; auto. exfalso.
  destruct (starts_cut _ _ _ S' (Nat.lt_le_incl _ _ L)) as (z & E & Z).
  assert (B : forallb (fun p : string * kind => forallb (fun p' : string * kind =>
     negb (starts_with (s2l (fst p)) (s2l (fst p')) && head_is soft (skipn (List.length (s2l (fst p))) (s2l (fst p'))))) operators) operators = true) by (vm_compute; reflexivity).
  rewrite forallb_forall in B. specialize (B _ I). rewrite forallb_forall in B. specialize (B _ I'). cbn [fst] in B.
  rewrite E, starts_with_app in B. rewrite skipn_app, skipn_all, Nat.sub_diag in B. cbn [app skipn andb] in B.
  destruct z as [|c z]; [rewrite app_nil_r in E; rewrite E in L; lia|]. destruct r as [|d r]; [discriminate|].
  cbn in Z. apply andb_prop in Z. destruct Z as [Z _]. apply N.eqb_eq in Z. subst d. cbn in S, B. rewrite S in B. discriminate.
Qed.
Lemma soft_plain op k r : In (op, k) operators -> soft_op op r = true -> plain (s2l op ++ r) = true.
Proof.
  intros I S. unfold soft_op in S. apply andb_prop in S. destruct S as [S S3]. apply andb_prop in S. destruct S as [S1 S2].
  destruct r as [|c r]; [discriminate|]. cbn [head_is] in S1, S2.
  assert (NE : forall x, soft x = false -> (c =? x)%N = false).
  { intros x X. apply N.eqb_neq. intros ->. congruence. }
  assert (NE' : forall x, soft x = false -> (x =? c)%N = false) by (intros; rewrite N.eqb_sym; auto).
  unfold operators in I. cbn [In] in I.
  repeat (destruct I as [I|I]; [injection I as <- <-; clear k || idtac; try reflexivity|]); try contradiction.
  - (* $ *) discriminate.
  - (* . *) change (s2l "." ++ c :: r) with (46%N :: c :: r).
    assert (NN : no_num (46%N :: c :: r) = true) by exact S2. unfold plain. rewrite NN. reflexivity.
  - change (s2l "/" ++ c :: r) with (47%N :: c :: r). unfold plain.
    replace (starts_with (s2l "//") (47%N :: c :: r)) with false.
    2: { symmetry. change (s2l "//") with [47; 47]%N. cbn [starts_with]. rewrite (NE' 47%N eq_refl). reflexivity. }
    replace (starts_with (s2l "/*") (47%N :: c :: r)) with false; [reflexivity|].
    symmetry. change (s2l "/*") with [47; 42]%N. cbn [starts_with]. rewrite (NE' 42%N eq_refl). reflexivity.
  - change (s2l "<" ++ c :: r) with (60%N :: c :: r). unfold plain.
    replace (starts_with (s2l "<<<") (60%N :: c :: r)) with false; [reflexivity|].
    symmetry. change (s2l "<<<") with [60; 60; 60]%N. cbn [starts_with]. rewrite (NE' 60%N eq_refl). reflexivity.
  - change (s2l "<<" ++ c :: r) with (60%N :: 60%N :: c :: r). unfold plain.
    replace (starts_with (s2l "<<<") (60%N :: 60%N :: c :: r)) with false; [reflexivity|].
    symmetry. change (s2l "<<<") with [60; 60; 60]%N. cbn [starts_with]. rewrite (NE' 60%N eq_refl). reflexivity.
Qed.

(** ** Operators *)
Definition plain_op (op : string) (k : kind) (r : str) : Prop :=
  longest_op op (s2l op ++ r) /\ plain (s2l op ++ r) = true /\ (k = KParenthesesOpen -> cast_tail r = None).
Lemma soft_op_ok op k r : In (op, k) operators -> soft_op op r = true -> k <> KParenthesesOpen -> plain_op op k r.
Proof.
  intros I S N. split; [|split; [eapply soft_plain; eauto|congruence]]. eapply soft_longest; eauto.
  unfold soft_op in S. apply andb_prop in S. destruct S as [S _]. apply andb_prop in S. tauto.
Qed.
Lemma soft_paren r : head_is soft r = true -> cast_tail r = None -> plain_op "(" KParenthesesOpen r.
Proof.
  intros S C. assert (I : In ("("%string, KParenthesesOpen) operators) by (cbn; tauto).
  split; [|split; [eapply soft_plain; [exact I|]|auto]].
  - eapply soft_longest; eauto.
  - unfold soft_op. rewrite S. reflexivity.
Qed.
Lemma op_paren op k r' inp : In (op, k) operators -> s2l op ++ r' = 40%N :: inp -> op = "("%string /\ k = KParenthesesOpen.
Proof.
  intros I E. unfold operators in I. cbn [In] in I.
  repeat (destruct I as [I|I]; [injection I as <- <-; try discriminate; auto|]). contradiction.
Qed.
Definition mode_after (k : kind) (m : lstate) (st : list lstate) : option (lstate * list lstate) :=
  match act_of k with
  | ANone => Some (m, st)
  | ASet m' => Some (m', st)
  | APush m' => Some (m', m :: st)
  | APop => match st with m' :: st' => Some (m', st') | [] => None end
  end.
Lemma step_op st op k r m' st' : In (op, k) operators -> plain_op op k r -> mode_after k LInScripting st = Some (m', st') ->
  step1 LInScripting st (s2l op ++ r) (Kw k) m' st' r.
Proof.
  intros I (P1 & P2 & P3) MA. exists 0. intros code nt lf s LF H M ST Q.
  assert (C : match_cast code s = TErr SENone s).
  { apply (cast_no code s _ H). intros q E. destruct (op_paren _ _ _ _ I E) as [-> ->]. cbn in E. injection E as <-. auto. }
  set (s1 := set_pos (src_pos s + List.length (s2l op)) s).
  assert (AS : exists s', in_st (act_of k) s1 = Some s' /\ lmode s' = m' /\ lstack s' = st' /\ queue s' = [] /\ src_pos s' = src_pos s1).
  { unfold mode_after in MA. unfold in_st. subst s1. destruct (act_of k); cbn.
    - injection MA as <- <-. eexists. split; [reflexivity|]. cbn. auto.
    - injection MA as <- <-. eexists. split; [reflexivity|]. cbn. auto.
    - injection MA as <- <-. eexists. split; [reflexivity|]. cbn. rewrite M, ST. auto.
    - rewrite ST. destruct st as [|m0 st0]; [discriminate|]. injection MA as <- <-. eexists. split; [reflexivity|]. cbn. auto. }
  destruct AS as (s' & A1 & A2 & A3 & A4 & A5).
  unfold scan. rewrite M. rewrite (op_tok code nt lf s op k r s' H I P1 P2 C A1).
  assert (B : blen (s2l op) = List.length (s2l op)).
  { assert (X : forallb (fun p : string * kind => blen (s2l (fst p)) =? List.length (s2l (fst p))) operators = true) by (vm_compute; reflexivity).
    rewrite forallb_forall in X. specialize (X _ I). apply Nat.eqb_eq in X. exact X. }
  eexists. exists s'. split; [reflexivity|]. split; [|repeat split; auto].
  - eapply at_same; [symmetry; exact A5|]. apply at_move_eq with (s2l op); auto.
  - rewrite A5. cbn. lia.
Qed.
Lemma step_cast st r k r2 : cast_tail r = Some (k, r2) -> step1 LInScripting st (40%N :: r) (Kw k) LInScripting st r2.
Proof.
  intros C. exists 0. intros code nt lf s LF H M ST Q. unfold scan. rewrite M.
  destruct (cast_tok code nt lf s r k r2 H C) as (n & E & A). rewrite E.
  eexists. eexists. split; [reflexivity|]. split; [exact A|]. cbn. repeat split; auto.
  pose proof (at_pos _ _ _ H) as P1. pose proof (at_pos _ _ _ A) as P2. cbn in P1, P2. 
  assert (L : blen r2 <= blen r).
  { clear - C. unfold cast_tail in C. destruct (find_entry _ _) as [e|]; [|discriminate].
    assert (SB : forall x, blen (skip_blank x) <= blen x).
    { induction x as [|c x IH]; cbn; auto. destruct (_ || _); cbn; lia. }
    assert (SK : forall n x, blen (skipn n x) <= blen x).
    { induction n; intros [|c x]; cbn; auto. specialize (IHn x). lia. }
    pose proof (SB r). pose proof (SK (List.length (spelling e)) (skip_blank r)).
    pose proof (SB (skipn (List.length (spelling e)) (skip_blank r))).
    destruct (skip_blank (skipn _ _)) as [|c x]; [discriminate|]. destruct (c =? 41)%N; [|discriminate]. injection C as _ <-. cbn in *. lia. }
  lia.
Qed.
Lemma step_int st n r : (n <= i64_max)%N -> head_is (fun c => (c =? 46)%N) r = false -> ends_word r = true ->
  step1 LInScripting st (show_N n ++ r) (TInt (Z.of_N n)) LInScripting st r.
Proof.
  intros N D E. exists 0. intros code nt lf s LF H M ST Q. unfold scan. rewrite M.
  rewrite (int_tok code nt lf s n r H D E). rewrite (proj2 (N.leb_le _ _) N).
  eexists. eexists. split; [reflexivity|]. split; [|cbn; repeat split; auto; lia].
  apply at_move_eq with (show_N n); auto. rewrite (blen_ascii _ (digits_ascii _ (show_N_digits n))). reflexivity.
Qed.
Lemma step_dbl st w v r : Forall (fun c => is_digit c = true) w -> Forall (fun c => is_digit c = true) v ->
  w ++ v <> [] -> head_is is_digit r = false -> step1 LInScripting st (w ++ 46%N :: v ++ r) (TDouble (w ++ 46%N :: v)) LInScripting st r.
Proof.
  intros W V NE D. exists 0. intros code nt lf s LF H M ST Q. unfold scan. rewrite M.
  destruct (dbl_tok code nt lf s w v r H W V NE D) as (a & b & A & E). rewrite E.
  eexists. eexists. split; [reflexivity|]. split; [|cbn; repeat split; auto; lia].
  apply (at_move_eq code s (w ++ 46%N :: v) r); [rewrite <- app_assoc; exact H|].
  rewrite blen_app. cbn [blen]. rewrite (blen_ascii w), (blen_ascii v) by (apply digits_ascii; auto). change (clen 46) with 1. lia.
Qed.
Lemma step_sq st c r : sq_content c = true -> Forall scalar (sq_decode c) ->
  step1 LInScripting st (39%N :: c ++ 39%N :: r) (TCes (sq_decode c)) LInScripting st r.
Proof.
  intros C SC. exists (S (List.length c)). intros code nt lf s LF H M ST Q. unfold scan. rewrite M.
  destruct (sq_tok code nt lf s c r H C SC ltac:(lia)) as (s' & E & A & B). rewrite E.
  injection B as B1 B2 B3 B4.
  eexists. eexists. split; [reflexivity|]. split; [exact A|]. cbn. repeat split; try congruence; auto.
  pose proof (at_pos _ _ _ H) as P1. pose proof (at_pos _ _ _ A) as P2. cbn [blen] in P1. rewrite blen_app in P1. cbn [blen] in P1. lia.
Qed.
Lemma step_nowdoc st tag l ls r : doc_line l = true -> forallb doc_line ls = true -> Forall (fun l => starts_with tag (l ++ [10%N]) = false) ls ->
  name_ok tag = true -> end_of_doc r -> Forall scalar (l ++ flat_map (fun l => 10%N :: l) ls) ->
  step1 LInScripting st (s2l "<<<'" ++ tag ++ s2l "'" ++ 10%N :: l ++ flat_map (fun l => 10%N :: l) ls ++ 10%N :: tag ++ r)
    (TCes (l ++ flat_map (fun l => 10%N :: l) ls)) LInScripting st r.
Proof.
  intros L LS TG NT E SC. exists (S (List.length ls)). intros code nt lf s LF H M ST Q. unfold scan. rewrite M.
  destruct (nowdoc_tok code nt lf s tag l ls r H L LS TG NT E LF SC) as (s' & X & A & B). rewrite X.
  injection B as B1 B2 B3 B4.
  eexists. eexists. split; [reflexivity|]. split; [exact A|]. cbn. repeat split; try congruence; auto.
  pose proof (at_pos _ _ _ H) as P1. pose proof (at_pos _ _ _ A) as P2. rewrite !blen_app in P1. cbn [blen] in P1. rewrite !blen_app in P1. cbn [blen] in P1. rewrite !blen_app in P1. lia.
Qed.
(** double-quoted strings: the parts are handed out from the queue *)
Lemma lex_drain code nt lf F q p0 : forall s s2 m st toks, lmode s = LEmitQueue -> lstack s = m :: st -> queue s = q ->
  (forall t, In t q -> fst t <> Kw KEnd) ->
  s2 = set_restart true (set_mode m (set_stack st (set_queue [] s))) ->
  (exists ts sf, runs code nt lf F s2 ts sf /\ map fst ts = toks /\ late p0 ts) ->
  late p0 q ->
  exists ts sf, runs code nt lf (S F) s ts sf /\ map fst ts = map fst q ++ toks /\ late p0 ts.
Proof.
  induction q as [|t q IH]; intros s s2 m st toks M ST Q NE S2 (ts & sf & R & MM & LL) LQ.
  - exists ts, sf. split; [|auto]. eapply runs_skip; [|exact R]. intros k. cbn [nt_loop]. rewrite M, Q.
    unfold pop_state. rewrite ST, S2. destruct s as [a b c d e f g]. cbn in *. subst. reflexivity.
  - inversion LQ; subst. destruct (IH (set_queue q s) (set_restart true (set_mode m (set_stack st (set_queue [] (set_queue q s))))) m st (map fst ts)) as (ts' & sf' & R' & M' & L'); auto.
    { intros; apply NE; right; auto. }
    { exists ts, sf. auto. }
    exists (t :: ts'), sf'. split; [|split].
    + eapply runs_tok; [|apply NE; left; reflexivity|exact R'].
      intros k K. destruct k as [|k]; [lia|]. cbn [nt_loop]. rewrite M, Q. reflexivity.
    + cbn. f_equal. exact M'.
    + constructor; auto.
Qed.
Lemma frag_not_kw bs k : frag_token bs <> Kw k.
Proof. unfold frag_token. destruct (from_utf8 bs); discriminate. Qed.
Lemma dq_tokens_noend ps bs : ~ In (Kw KEnd) (dq_tokens bs ps).
Proof.
  assert (P : forall b, ~ In (Kw KEnd) (pend b)).
  { intros [|x b]; cbn; [tauto|]. intros [E|[]]. exact (frag_not_kw _ _ E). }
  revert bs. induction ps as [|p ps IH]; intros bs; cbn; [apply P|]. destruct p; auto.
  - intros I. apply in_app_or in I. destruct I as [I|[I|I]]; [exact (P _ I)|discriminate|exact (IH _ I)].
  - intros I. apply in_app_or in I. destruct I as [I|[I|[I|[I|I]]]]; try discriminate; [exact (P _ I)|exact (IH _ I)].
Qed.
Lemma lex_dq st ps r toks : dq_ok ps (34%N :: r) = true -> lexes LInScripting st r toks ->
  lexes LInScripting st (34%N :: dq_text ps ++ 34%N :: r) (Kw KDoubleQuote :: dq_tokens [] ps ++ Kw KDoubleQuote :: toks).
Proof.
  intros C (F & R). exists (S (S (List.length ps + F))). intros code nt lf s LF H M ST Q.
  destruct (dq_tok code nt lf s ps r H C ltac:(lia) Q) as (s' & q & E & A & B & D & G).
  injection B as B1 B2 B3 B4.
  assert (PP : src_pos s <= src_pos s').
  { pose proof (at_pos _ _ _ H) as P1. pose proof (at_pos _ _ _ A) as P2. cbn [blen] in P1. rewrite blen_app in P1. cbn [blen] in P1. lia. }
  set (s2 := set_restart true (set_mode (lmode s) (set_stack (lstack s) (set_queue [] s')))).
  destruct (R code nt lf s2 ltac:(lia)) as (ts & sf & RR & MM & LL); auto.
  destruct (lex_drain code nt lf F q (src_pos s) s' s2 (lmode s) (lstack s) toks B1 B2 B4) as (ts' & sf' & R' & M' & L'); auto.
  { intros t I E'. apply (in_map fst) in I. rewrite D, E' in I. apply in_app_or in I. destruct I as [I|[I|[]]]; [exact (dq_tokens_noend _ _ I)|discriminate]. }
  { exists ts, sf. split; auto. split; auto. eapply late_weak; [|exact LL]. exact PP. }
  exists ((Kw KDoubleQuote, mk_span (src_pos s) (src_pos s + 1)) :: ts'), sf'. split; [|split].
  - eapply runs_tok; [|discriminate|eapply runs_mono; [|exact R']; lia].
    intros k K. destruct k as [|k]; [lia|]. rewrite nt_scan by congruence. unfold scan. rewrite M, E. reflexivity.
  - cbn [map fst]. f_equal. etransitivity; [exact M'|]. rewrite D, <- app_assoc. reflexivity.
  - constructor; [cbn; lia|exact L'].
Qed.
