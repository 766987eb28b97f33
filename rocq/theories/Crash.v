(** * Crash: sources that panic *)
From Verif Require Import Base Tokens Ast AstMap AstInd Lexer Parser Printer Driver Spec SpecProg SpecRT SpecMixed SpecCtl SpecBad SpecCrash SmallFacts ParserRel ParserFacts LexBase LexSteps LexTok LexWords LexNum LexMore LexFacts LexStr LexRun LexParse LexCrash ParseRun ParseTac ParseExpr ParseStmt ParseDecl Emit ProgOps ProgNames RTBase RTExpr RTStmt RTStm2 LexMono RoundTrip Mixed Ctl Bad ParseCrash Dies DiesStm.
From Coq Require Import String Ascii.

(** ** Expressions *)
Definition bomb_head (t : token) : bool := only_expr t && negb (tok_in [KAmpersand; KParenthesesClose; KEllipsis] t).
Definition Bomb (ts : list token) : Prop := ts <> [] /\ hd_ok bomb_head ts /\ DiesE ts.
Lemma bomb_h t ts : bomb_head t = true -> DiesH (t :: ts) -> Bomb (t :: ts).
Proof. intros H D. split; [discriminate|]. split; [exact H|]. apply head_e, D. Qed.
Lemma bomb_amp ts : Bomb ts -> no_amp ts.
Proof.
  intros (NE & H & _). split; [exact NE|]. destruct ts as [|t r]; [congruence|]. cbn in *. unfold bomb_head in H. destruct t as [k| | | | | | | |]; auto. destruct k; auto.
Qed.
Lemma bomb_arg ts : Bomb ts -> hd_ok (fun t => negb (tok_in [KParenthesesClose; KEllipsis] t)) ts.
Proof.
  intros (NE & H & _). destruct ts as [|t r]; [congruence|]. cbn in *. unfold bomb_head in H. destruct t as [k| | | | | | | |]; auto. destruct k; auto.
Qed.
Lemma bomb_only ts : Bomb ts -> hd_ok only_expr ts.
Proof. intros (_ & H & _). eapply hd_weak; [|exact H]. intros t X. apply andb_prop in X. tauto. Qed.
Section Sf.
Variable sf : str -> str.
Lemma expr_place l : before_expr sf l -> exists tl_, (forall ts, Bomb ts -> Bomb (tl_ ++ ts)) /\
  (forall r, cast_tail r = None -> cast_tail (l ++ r) = None) /\
  (forall st r vs, cast_tail r = None -> seen LInScripting st r vs -> seen LInScripting st (l ++ r) (tl_ ++ vs)).
Proof.
  induction 1 as [|l _ (tl_ & A & B & C)|l _ (tl_ & A & B & C)|v l N _ (tl_ & A & B & C)|e t b l W I _ (tl_ & A & B & C)|f l N _ (tl_ & A & B & C)|v l N _ (tl_ & A & B & C)|l _ (tl_ & A & B & C)].
  - exists []. split; [auto|split; auto].
  - exists (Kw KParenthesesOpen :: tl_). split; [|split].
    + intros ts D. apply bomb_h; [reflexivity|]. apply paren_dies. apply A, D.
    + intros r R. reflexivity.
    + intros st r vs R S. rewrite <- !app_assoc. cbn [app]. apply seen_paren; auto.
  - exists (Kw KBoolNot :: Kw KParenthesesOpen :: tl_). split; [|split].
    + intros ts D. apply bomb_h; [reflexivity|]. eapply unary_dies; [reflexivity|]. apply paren_dies. apply A, D.
    + intros r R. reflexivity.
    + intros st r vs R S. rewrite <- !app_assoc. cbn [app]. do 2 lx; auto.
  - exists (TVariable v :: Kw KEqual :: tl_). split; [|split].
    + intros ts D. apply bomb_h; [reflexivity|]. eapply assign_dies; [reflexivity| |apply A, D]. apply bomb_amp, A, D.
    + intros r R. reflexivity.
    + intros st r vs R S. rewrite <- !app_assoc. cbn [app]. apply seen_var; [exact N|reflexivity|]. do 3 lx. auto.
  - destruct (written_by sf _ _ W) as (te & FE & T). destruct (binop_facts b I) as (k & P1 & P2 & P3 & P4 & P5 & _ & _ & P6).
    exists ((Kw KParenthesesOpen :: te ++ [Kw KParenthesesClose]) ++ Kw k :: Kw KParenthesesOpen :: tl_). split; [|split].
    + intros ts D. split; [discriminate|]. split; [reflexivity|]. rewrite <- app_assoc. cbn [app].
      apply (binary_dies (Kw KParenthesesOpen :: te ++ [Kw KParenthesesClose]) (strip_expr e) k _ _ _ (Kw KParenthesesOpen :: tl_ ++ ts)
        (var_operand _ _ (var_paren te _ FE)) P1 P2 P3 P4). apply paren_dies, A, D.
    + intros r R. reflexivity.
    + intros st r vs R S. change (s2l ") ") with (s2l ")" ++ s2l " "). change (s2l " (") with (s2l " " ++ s2l "("). rewrite <- !app_assoc.
      cbn [app]. rewrite <- app_assoc. cbn [app]. apply paren_seen2; [exact T|]. lx. apply P6. lx. apply seen_paren; auto.
  - destruct (plain_word_facts f N) as (I & WT & Y1 & Y2).
    exists (TString f :: Kw KParenthesesOpen :: tl_). split; [|split].
    + intros ts D. pose proof (A ts D) as AD. apply bomb_h; [reflexivity|]. apply call_dies; [apply AD|apply bomb_arg, AD|apply AD].
    + intros r R. rewrite <- !app_assoc. destruct (ident_label f I) as (I1 & I2 & _). apply cast_label; [exact I1|exact I2|reflexivity|right; reflexivity].
    + intros st r vs R S. rewrite <- !app_assoc. cbn [app]. apply seen_plain; [exact N|reflexivity|]. apply seen_paren; auto.
  - exists (TVariable v :: Kw KSquareBracketOpen :: tl_). split; [|split].
    + intros ts D. apply bomb_h; [reflexivity|]. apply index_dies. apply A, D.
    + intros r R. reflexivity.
    + intros st r vs R S. rewrite <- !app_assoc. cbn [app]. apply seen_var; [exact N|reflexivity|]. lx. auto.
  - exists (Kw KSquareBracketOpen :: tl_). split; [|split].
    + intros ts D. apply bomb_h; [reflexivity|]. apply array_dies. apply A, D.
    + intros r R. reflexivity.
    + intros st r vs R S. rewrite <- !app_assoc. cbn [app]. lx. auto.
Qed.

(** ** Statements *)
Definition deep (n : nat) (st : list lstate) : list lstate := repeat LInScripting n ++ st.
Lemma deep_mark n st : marked (deep n st) = marked st.
Proof. induction n; auto. Qed.
Lemma deep_push n st : deep n (LInScripting :: st) = deep (S n) st.
Proof. unfold deep. induction n as [|n IH]; auto. cbn in *. rewrite IH. reflexivity. Qed.
Lemma stmt_place n a : before_stmt sf n a -> exists ta, (forall c ts, DiesSC c ts -> DiesSC c (ta ++ ts)) /\
  (forall st r vs, seen LInScripting (deep n st) r vs -> seen LInScripting st (a ++ r) (ta ++ vs)).
Proof.
  induction 1 as [|n b t l W _ (ta & A & B)|n w c tc b t l I WC W _ (ta & A & B)].
  - exists []. split; auto.
  - destruct (stmts_by sf b t W) as (tss & T1 & T2). exists (Kw KCurlyBracesOpen :: List.concat tss ++ ta). split.
    + intros cc ts D. cbn [app]. rewrite <- app_assoc. eapply block_dies; [exact T1|]. apply A, D.
    + intros st r vs R. rewrite <- !app_assoc. cbn [app]. rewrite <- app_assoc. lx. apply T2, B. rewrite deep_push. exact R.
  - destruct (stmts_by sf b t W) as (tss & T1 & T2). destruct (written_by sf _ _ WC) as (te & FE & T).
    assert (K : exists k, (k = KIf \/ k = KWhile) /\ forall st r vs, follows r = true -> seen LInScripting st r vs -> seen LInScripting st (s2l w ++ r) (Kw k :: vs)).
    { destruct I as [<-|[<-|[]]]; [exists KWhile|exists KIf]; (split; [auto|]); intros st r vs F R; apply seen_kw; auto. }
    destruct K as (k & K1 & K2).
    exists (Kw k :: cond_toks te ++ Kw KCurlyBracesOpen :: List.concat tss ++ ta). split.
    + intros cc ts D. cbn [app]. rewrite <- app_assoc. cbn [app]. rewrite <- app_assoc.
      apply (body_dies cc k te (strip_expr c) (Kw KCurlyBracesOpen :: List.concat tss ++ ta ++ ts) K1 FE). eapply block_dies; [exact T1|]. apply A, D.
    + intros st r vs R. change (s2l " (") with (s2l " " ++ s2l "("). change (s2l ") {") with (s2l ")" ++ s2l " {"). rewrite <- !app_assoc. unfold cond_toks. cbn [app].
      apply K2; [reflexivity|]. lx. rewrite <- !app_assoc. cbn [app]. rewrite <- app_assoc. apply paren_seen2; [exact T|]. lx. lx. apply T2, B. rewrite deep_push. exact R.
Qed.
Lemma opener_place (w : string) : In w openers -> exists tw, (forall ts, Bomb ts -> DiesS (tw ++ ts)) /\
  (forall st r vs, cast_tail r = None -> seen LInScripting st r vs -> seen LInScripting st (s2l w ++ r) (tw ++ vs)).
Proof.
  intros I. cbn [openers In] in I. repeat (destruct I as [<-|I]); [..|contradiction].
  - exists []. split; [|auto]. intros ts D. apply expr_dies; [apply D|apply bomb_only, D|apply D].
  - exists [Kw KEcho]. split; [intros ts D; apply word_dies; [reflexivity|apply D]|intros st r vs C R; cbn [app]; do 2 lx; exact R].
  - exists [Kw KReturn]. split; [intros ts D; apply word_dies; [reflexivity|apply D]|intros st r vs C R; cbn [app]; do 2 lx; exact R].
  - exists [Kw KThrow]. split; [intros ts D; apply word_dies; [reflexivity|apply D]|intros st r vs C R; cbn [app]; do 2 lx; exact R].
  - exists [Kw KIf; Kw KParenthesesOpen]. split; [intros ts D; apply cond_dies; [auto|apply D]|intros st r vs C R; cbn [app]; do 3 lx; [exact C|exact R]].
  - exists [Kw KWhile; Kw KParenthesesOpen]. split; [intros ts D; apply cond_dies; [auto|apply D]|intros st r vs C R; cbn [app]; do 3 lx; [exact C|exact R]].
  - exists [Kw KSwitch; Kw KParenthesesOpen]. split; [intros ts D; apply cond_dies; [auto|apply D]|intros st r vs C R; cbn [app]; do 3 lx; [exact C|exact R]].
Qed.
Lemma place n l : before sf n l -> exists tl_, (forall ts, Bomb ts -> DiesS (tl_ ++ ts)) /\
  (forall st r vs, cast_tail r = None -> seen LInScripting (deep n st) r vs -> seen LInScripting st (l ++ r) (tl_ ++ vs)).
Proof.
  intros (a & w & b & -> & SA & I & EB). destruct (stmt_place n a SA) as (ta & A1 & A2). destruct (opener_place w I) as (tw & W1 & W2). destruct (expr_place b EB) as (tb & B1 & B2 & B3).
  exists (ta ++ tw ++ tb). split.
  - intros ts D. rewrite <- !app_assoc. apply A1, W1, B1, D.
  - intros st r vs C R. rewrite <- !app_assoc. apply A2, W2; [apply B2, C|]. apply B3; auto.
Qed.
Lemma seen_stop st : marked st = false -> seen LInScripting st [] [].
Proof. intros M. unfold seen. rewrite M. exists []. split; [apply lex_end_script|reflexivity]. Qed.
Lemma top_end tss ss l : Forall2 Top tss ss -> stm_end l -> stm_end (List.concat tss ++ l).
Proof.
  intros [|ts2 s2 tss2 ss2 T2 F2] E; [exact E|]. cbn [List.concat]. destruct (top_start ts2 s2 T2) as (t2 & r2 & -> & E2). cbn. unfold stm_end, hd_ok. rewrite E2. reflexivity.
Qed.
Lemma rest_seen n r : rest_of sf n r -> forall st, marked st = false -> exists vs, seen LInScripting (deep n st) r vs /\ stm_end vs.
Proof.
  induction 1 as [n|n p r P _ IH|n c r I _ IH|n r _ IH|n r _ IH]; intros st M.
  - exists []. split; [|exact I]. apply seen_stop. rewrite deep_mark. exact M.
  - destruct (IH st M) as (vs & R & E). destruct (part_seen sf p P) as (tss & T & S). eexists. split; [apply S, R|]. eapply top_end; eauto.
  - destruct (IH st M) as (vs & R & E). destruct I as [<-|[<-|[<-|[]]]]; [exists (Kw KParenthesesClose :: vs)|exists (Kw KSquareBracketClose :: vs)|exists (Kw KSemiColon :: vs)]; (split; [|reflexivity]); lx; exact R.
  - destruct (IH st M) as (vs & R & E). exists (Kw KCurlyBracesOpen :: vs). split; [|reflexivity]. lx. exact R.
  - destruct (IH st M) as (vs & R & E). exists (Kw KCurlyBracesClose :: vs). split; [|reflexivity]. change (deep (S n) st) with (LInScripting :: deep n st). lx. exact R.
Qed.

(** ** The tokenizer panics *)
Lemma oct_crash st ds r : Forall (fun d => (d < 10)%N) ds -> Exists (fun d => (8 <= d)%N) ds -> ends_word r = true -> head_is (fun c => (c =? 46)%N) r = false ->
  crashes LInScripting st (48%N :: map (digit_char false) ds ++ r).
Proof.
  intros F X E R. apply crash_now; [discriminate|]. exists 0. intros code nt lf s LF H M ST Q. exists PUnwrap. unfold scan. rewrite M.
  rewrite ends_label in E. apply negb_true_iff in E.
  assert (N0 : ds <> []) by (intros ->; inversion X).
  assert (F10 : Forall (fun c => is_digit c = true) (map (digit_char false) ds)) by (apply digits_10, F).
  assert (R' : head_is (fun c => is_digit c || (c =? 46)%N) r = false).
  { destruct r as [|c r]; auto. cbn in *. rewrite R, orb_false_r. unfold is_label_char in E. apply orb_false_elim in E. tauto. }
  assert (NX : forall x, is_digit x = false -> starts_with [48%N; x] (48%N :: map (digit_char false) ds ++ r) = false).
  { intros x Y. destruct ds as [|d ds]; [congruence|]. cbn. inversion F10; subst. destruct (N.eqb_spec x (digit_char false d)); [congruence|reflexivity]. }
  change (48%N :: map (digit_char false) ds ++ r) with ((48%N :: map (digit_char false) ds) ++ r) in H.
  assert (D8 : forall acc, digits_val 8 acc (map (digit_char false) ds) = None).
  { clear - F X. induction F as [|d ds D F IH]; intros acc; [inversion X|]. cbn [map digits_val]. destruct (N.ltb_spec d 8) as [L|L].
    - rewrite (digit_val_char 8 false d L ltac:(lia)). apply IH. inversion X; subst; [lia|assumption].
    - replace (digit_val 8 (digit_char false d)) with (@None N); [reflexivity|]. assert (Y : (d = 8 \/ d = 9)%N) by lia. destruct Y; subst; reflexivity. }
  assert (V : (if head_is (fun c => (c =? 48)%N) (48%N :: map (digit_char false) ds) && (1 <? List.length (48%N :: map (digit_char false) ds))
     then i64_from_str_radix 8 (tl (48%N :: map (digit_char false) ds)) else i64_from_str_radix 10 (48%N :: map (digit_char false) ds)) = None).
  { destruct ds as [|d ds]; [congruence|]. cbn [head_is]. rewrite N.eqb_refl. cbn [List.length map Nat.ltb Nat.leb andb tl].
    unfold i64_from_str_radix, from_str_radix. specialize (D8 0%N). cbn [map] in D8. rewrite D8. reflexivity. }
  pose proof (onum_int code s _ r _ H ltac:(discriminate) ltac:(constructor; auto) R' V) as O.
  apply (num_err code nt lf s _ _ H); auto; apply NX; auto.
Qed.
Lemma dot_crash st : crashes LInScripting st (s2l ".").
Proof.
  apply crash_now; [discriminate|]. exists 0. intros code nt lf s LF H M ST Q. exists PUnwrap. unfold scan. rewrite M.
  apply (num_err code nt lf s _ _ H); auto. change (s2l ".") with [46%N] in H. unfold onum_dnum_lnum. rewrite (tbind_input _ _ _ _ H).
  cbv iota. change (position not_digit [46%N]) with (Some 0). cbv iota zeta. unfold tbind at 1, input_pos at 1. unfold tbind at 1.
  rewrite (adv_chars code s [] [46%N] 0 H eq_refl). pose proof (at_move_eq code s [] [46%N] (src_pos s + blen []) H ltac:(reflexivity)) as H1.
  rewrite (tbind_input _ _ _ _ H1). change (starts_with_c 46 [46%N]) with true. cbn [negb]. unfold tbind at 1. rewrite (adv_chars code _ [46%N] [] 1 H1 eq_refl).
  pose proof (at_move_eq code _ [46%N] [] _ H1 eq_refl) as H2. rewrite (tbind_input _ _ _ _ H2).
  cbn [position app]. unfold tbind at 1, input_pos at 1. unfold tbind at 1. rewrite (adv_chars code _ [] [] _ H2 eq_refl). reflexivity.
Qed.
Lemma close_crash r : crashes LInScripting [] (s2l "}" ++ r).
Proof.
  apply crash_now; [discriminate|]. exists 0. intros code nt lf s LF H M ST Q. exists PUnreachable. unfold scan. rewrite M.
  assert (I : In ("}"%string, KCurlyBracesClose) operators) by (cbn; tauto).
  assert (S : stops "}" r = true) by (destruct r; reflexivity).
  pose proof (stops_longest "}" _ r I S) as LO. pose proof (stops_plain "}" _ r I ltac:(discriminate) S) as P.
  assert (C : match_cast code s = TErr SENone s) by (apply (cast_no code s _ H); intros q E; discriminate).
  rewrite (scripting_plain code nt lf s _ H P).
  unfold label_or_other. unfold tbind at 1. rewrite (label_none code s _ H) by reflexivity.
  unfold tbind at 1, put_pos at 1. rewrite set_pos_id by reflexivity.
  rewrite (other_at code s _ H eq_refl C).
  pose proof (op_entry "}" _ _ I LO) as E.
  destruct (other_entry (s2l "}" ++ r)) as [e|].
  - destruct E as (E1 & E2 & E3 & E4). unfold entry_result, tbind. rewrite E3, E4. cbn [act_of do_act]. unfold pop_state. cbn [lstack set_pos]. rewrite ST. reflexivity.
  - destruct E as (c' & C1 & C2 & C3 & C4 & C5). discriminate C4.
Qed.
Lemma head46 q : starts_with_c 46 q = false -> head_is (fun c => (c =? 46)%N) q = false.
Proof. destruct q as [|c q]; auto. Qed.
Lemma unreadable_crash st r : unreadable r -> crashes LInScripting st r /\ cast_tail r = None.
Proof.
  intros [(n & q & -> & N & E & D)|[(ds & q & -> & F & X & E & D)| ->]].
  - split; [apply int_crash; auto using head46|]. pose proof (show_N_digits n) as SD. pose proof (show_N_ne n) as SN. destruct (show_N n) as [|c y]; [congruence|]. inversion SD; subst. apply cast_digit. assumption.
  - split; [apply (oct_crash st ds q); auto using head46|reflexivity].
  - split; [apply dot_crash|reflexivity].
Qed.
Lemma token_panics ps n l r : Forall (part_ok sf) ps -> before sf n l -> unreadable r -> panics (s2l "<?php" ++ flat_map part_text ps ++ l ++ r).
Proof.
  intros P B U. destruct (parts_seen sf ps P) as (tss & _ & S). destruct (place n l B) as (tl_ & _ & S2).
  destruct (unreadable_crash (repeat LInScripting n) r U) as [C C2].
  assert (Z : seen LInScripting (deep n [LEmitQueue]) r []).
  { unfold seen. rewrite deep_mark. cbn [marked existsb is_mark orb]. replace (real (deep n [LEmitQueue])) with (repeat LInScripting n); [exact C|].
    clear. induction n as [|n IH]; auto. cbn in *. f_equal. exact IH. }
  apply S2 in Z; [|exact C2]. apply S in Z. apply seen_open in Z. apply crash_panics. exact Z.
Qed.
Lemma brace_panics ps r : Forall (part_ok sf) ps -> panics (s2l "<?php" ++ flat_map part_text ps ++ s2l "}" ++ r).
Proof.
  intros P. destruct (parts_seen sf ps P) as (tss & _ & S). pose proof (close_crash r) as C.
  assert (Z : seen LInScripting [LEmitQueue] (s2l "}" ++ r) []) by exact C.
  apply S in Z. apply seen_open in Z. apply crash_panics. exact Z.
Qed.

(** ** The parser panics *)
Lemma seen_dollar st r vs : head_is (fun c => (c =? 36)%N) r = true -> seen LInScripting st r vs -> seen LInScripting st (s2l "$" ++ r) (Kw KDollar :: vs).
Proof.
  intros H R. apply (seen_step LInScripting st (s2l "$" ++ r) (Kw KDollar) LInScripting st r vs); [discriminate| |discriminate|exact R|reflexivity].
  assert (I : In ("$"%string, KDollar) operators) by (cbn; tauto).
  eapply step_op; [exact I| |reflexivity]. destruct r as [|c r]; [discriminate|]. cbn in H. apply N.eqb_eq in H. subst c. split; [|split; [reflexivity|discriminate]].
  eapply stops_longest; [exact I|]. reflexivity.
Qed.
Lemma unexpected_by x : unexpected sf x -> exists tx, Bomb tx /\ (forall r, cast_tail (x ++ r) = None) /\
  (forall st r vs, follows r = true -> seen LInScripting st r vs -> seen LInScripting st (x ++ r) (tx ++ vs)).
Proof.
  intros [(v & N & ->)|[(v & N & ->)|(e & t & a & b & W & NA & NB & ->)]].
  - exists [Kw KDollar; TVariable v]. split; [|split].
    + apply bomb_h; [reflexivity|]. apply dollar_dies.
    + intros r. reflexivity.
    + intros st r vs F R. change (s2l "$$") with (s2l "$" ++ s2l "$"). rewrite <- !app_assoc. cbn [app]. apply seen_dollar; [reflexivity|]. apply seen_var; auto using follows_word.
  - exists [Kw KCastUnset; TVariable v]. split; [|split].
    + apply bomb_h; [reflexivity|]. apply unset_dies.
    + intros r. reflexivity.
    + intros st r vs F R. change (s2l "(unset) $") with (s2l "(" ++ s2l "unset) $"). rewrite <- !app_assoc. cbn [app].
      eapply (seen_cast st _ KCastUnset (s2l " $" ++ v ++ r)); [reflexivity|]. change (s2l " $") with (s2l " " ++ s2l "$"). rewrite <- app_assoc. lx. apply seen_var; auto using follows_word.
  - destruct (written_by sf _ _ W) as (te & FE & T).
    exists ((Kw KParenthesesOpen :: te ++ [Kw KParenthesesClose]) ++ Kw KInstanceOf :: [TString a] ++ Kw KInstanceOf :: [TString b]). split; [|split].
    + split; [discriminate|]. split; [reflexivity|].
      eapply (instanceof_dies _ _ [TString a]); [apply var_operand, var_paren, FE|]. left. exists false, [a]. repeat split; discriminate.
    + intros r. reflexivity.
    + intros st r vs F R. change (s2l ") instanceof ") with (s2l ")" ++ s2l " instanceof "). rewrite <- !app_assoc. cbn [app]. rewrite <- app_assoc. cbn [app].
      apply paren_seen2; [exact T|]. do 3 lx. apply seen_plain; [exact NA|reflexivity|]. do 3 lx. apply seen_plain; [exact NB|exact F|exact R].
Qed.
Lemma parser_panics ps n l x (c : string) r : Forall (part_ok sf) ps -> before sf n l -> unexpected sf x -> In c [")"; "]"; ";"]%string -> rest_of sf n r ->
  panics (s2l "<?php" ++ flat_map part_text ps ++ l ++ x ++ s2l c ++ r).
Proof.
  intros P B U I RR. destruct (parts_seen sf ps P) as (tss & T & S). destruct (place n l B) as (tl_ & D & S2). destruct (unexpected_by x U) as (tx & BX & X1 & X2).
  destruct (rest_seen n _ (rest_close sf n c r I RR) [] eq_refl) as (vs & RS & _).
  assert (F : follows (s2l c ++ r) = true) by (destruct I as [<-|[<-|[<-|[]]]]; reflexivity).
  pose proof (X2 _ _ _ F RS) as Z. apply S2 in Z; [|apply X1]. apply S in Z. destruct Z as (toks & L & E).
  destruct (program_dies any tss _ (tl_ ++ tx) vs (filter_tokens (placed toks)) T (D tx BX)) as (y & Y).
  - apply late2_filter, placed_late.
  - rewrite filter_sees. unfold placed. rewrite map_map. cbn [fst]. rewrite map_id. rewrite E, <- app_assoc. reflexivity.
  - exact Logic.I.
  - eapply lex_parse_panic; eauto.
Qed.
Lemma arm_by x : arm_ok sf x -> exists ta, IfArm ta (option_map (fun y => strip_expr (fst y)) (arm_cond x), strip (arm_body x)) /\ sby (arm_text x) ta.
Proof.
  intros [C B]. destruct (stmts_by sf _ _ B) as (tss & S1 & S2). unfold arm_text. destruct (arm_cond x) as [[e t]|]; cbn [option_map fst].
  - destruct (written_by sf _ _ C) as (te & F & T).
    exists (Kw KElseIf :: cond_toks te ++ Kw KCurlyBracesOpen :: List.concat tss ++ [Kw KCurlyBracesClose]). split.
    + exists te, (Kw KCurlyBracesOpen :: List.concat tss ++ [Kw KCurlyBracesClose]). split; [reflexivity|]. split; [exact F|apply braced_all, S1].
    + intros st r vs R. unfold cond_toks. apps. change (s2l " elseif (") with (s2l " elseif " ++ s2l "("). rewrite <- !app_assoc. do 3 lx. cbn [app].
      apply paren_seen2; [exact T|]. do 2 lx. apply S2. lx. exact R.
  - exists (Kw KElse :: Kw KCurlyBracesOpen :: List.concat tss ++ [Kw KCurlyBracesClose]). split.
    + exists (Kw KCurlyBracesOpen :: List.concat tss ++ [Kw KCurlyBracesClose]). split; [reflexivity|]. apply braced_all, S1.
    + intros st r vs R. apps. do 4 lx. apply S2. lx. exact R.
Qed.
Lemma arms_by l : Forall (arm_ok sf) l -> exists tss, Forall2 IfArm tss (map (fun x => (option_map (fun y => strip_expr (fst y)) (arm_cond x), strip (arm_body x))) l) /\ sby (flat_map arm_text l) (List.concat tss).
Proof.
  induction 1 as [|x l X _ (tss & A & B)]; [exists []; split; [constructor|intros st r vs R; exact R]|].
  destruct (arm_by x X) as (ta & C & D). exists (ta :: tss). split; [constructor; auto|]. cbn [flat_map List.concat]. intros st r vs R. rewrite <- !app_assoc. apply D, B, R.
Qed.
Lemma else_panics ps n k e t b tb l r : Forall (part_ok sf) ps -> before_stmt sf n k -> written sf e t -> stmts_written sf b tb ->
  Forall (arm_ok sf) l -> misplaced_else l -> rest_of sf n r ->
  panics (s2l "<?php" ++ flat_map part_text ps ++ k ++ s2l "if (" ++ t ++ s2l ") {" ++ tb ++ s2l "}" ++ flat_map arm_text l ++ r).
Proof.
  intros P B W SW A (la & x & lb & EL & XC & NB) RR. destruct (parts_seen sf ps P) as (tss & T & S). destruct (stmt_place n k B) as (tk & D & S2).
  destruct (written_by sf _ _ W) as (te & FE & TE). destruct (stmts_by sf _ _ SW) as (tb' & B1 & B2). destruct (arms_by l A) as (ta & A1 & A2).
  destruct (rest_seen n _ RR [] eq_refl) as (vs & RS & RE).
  set (bd := Kw KCurlyBracesOpen :: List.concat tb' ++ [Kw KCurlyBracesClose]).
  assert (DI : DiesSC stm_end (Kw KIf :: cond_toks te ++ bd ++ List.concat ta)).
  { subst l. rewrite map_app in A1. cbn [map] in A1.
    eapply (else_dies te _ bd _ ta); [exact FE|apply braced_all, B1|exact A1|reflexivity|rewrite XC; reflexivity|]. destruct lb; [congruence|discriminate]. }
  apply A2 in RS.
  assert (Z : seen LInScripting (deep n []) (s2l "if (" ++ t ++ s2l ") {" ++ tb ++ s2l "}" ++ flat_map arm_text l ++ r) ((Kw KIf :: cond_toks te ++ bd ++ List.concat ta) ++ vs)).
  { change (s2l "if (") with (s2l "if " ++ s2l "("). change (s2l ") {") with (s2l ")" ++ s2l " {"). rewrite <- !app_assoc. unfold cond_toks. cbn [app]. do 2 lx. rewrite <- !app_assoc. cbn [app].
    apply paren_seen2; [exact TE|]. unfold bd. cbn [app]. do 2 lx. rewrite <- !app_assoc. apply B2. cbn [app]. lx. exact RS. }
  apply S2 in Z. apply S in Z. destruct Z as (toks & L & E).
  destruct (program_dies stm_end tss _ (tk ++ Kw KIf :: cond_toks te ++ bd ++ List.concat ta) vs (filter_tokens (placed toks)) T (D _ _ DI)) as (y & Y).
  - apply late2_filter, placed_late.
  - rewrite filter_sees. unfold placed. rewrite map_map. cbn [fst]. rewrite map_id. rewrite E, <- !app_assoc. cbn [app]. rewrite <- !app_assoc. reflexivity.
  - exact RE.
  - eapply lex_parse_panic; eauto.
Qed.

(** ** Nothing to parse *)
Lemma nothing_panics r : seen LInScripting [] r [] -> panics (s2l "<?php" ++ r).
Proof.
  intros (toks & L & E). apply (lex_parse_panic r toks POverflow L).
  assert (X : filter_tokens (placed toks) = []).
  { apply map_eq_nil with (f := fst). rewrite filter_sees. unfold placed. rewrite map_map. cbn [fst]. rewrite map_id. exact E. }
  rewrite X. reflexivity.
Qed.
Lemma no_tops tss : Forall2 Top tss (strip []) -> tss = [].
Proof. intros H. inversion H. reflexivity. Qed.
Lemma empty_panics cs last : source_ok sf cs last -> meaning cs last = [] -> panics (source cs last).
Proof.
  intros (F & A & LO) NE. unfold source, meaning in *. apply app_eq_nil in NE. destruct NE as [N1 N2]. destruct cs as [|c cs].
  - destruct last as [ps|].
    + destruct (last_block_seen sf ps LO) as (tss & T & S). rewrite N2 in T. apply no_tops in T. subst tss. apply nothing_panics. exact S.
    + exists 2. intros f L. exists POverflow. destruct f as [|[|f]]; [lia|lia|]. reflexivity.
  - inversion F as [|? ? C F']; subst. cbn [flat_map] in N1. apply app_eq_nil in N1. destruct N1 as [N1 N3].
    destruct c as [w|ps|es t ps]; [discriminate| |discriminate]. cbn [chunk_ok chunk_stmts] in *.
    destruct (chunks_seen sf cs last F' (apart_tl _ _ A) LO) as (tss & T & S).
    assert (M : meaning cs last = []) by (unfold meaning; rewrite N3; exact N2). rewrite M in T.
    destruct (block_seen sf ps _ tss _ C T S) as (tss' & T' & S'). rewrite N1 in T'. apply no_tops in T'. subst tss'.
    cbn [flat_map chunk_text]. rewrite <- !app_assoc. apply nothing_panics. exact S'.
Qed.
Lemma safe_sources cs last : source_ok sf cs last -> meaning cs last <> [] -> forall f p, parse_str f (source cs last) <> DPanic p.
Proof.
  intros O N f p E. destruct (source_parses sf cs last O N) as (F & H). destruct (H (max f F) ltac:(lia)) as (l' & X & _).
  rewrite (parse_str_mono f (max f F) _ ltac:(lia)) in X by congruence. congruence.
Qed.
End Sf.
