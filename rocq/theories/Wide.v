(** * Wide: the control structures over the whole grammar *)
From Verif Require Import SpecGrammar SpecErr.
From Verif Require Import Base Tokens Ast AstMap Lexer Parser Driver Spec SpecProg SpecCtl SpecMixed SpecText SpecWide ParseStmt ParseDecl Ctl Grammar GrammarAll GrammarTop GrammarEx TextMain2 TextEx LexBase.
From Coq Require Import String Lia.
Local Open Scope list_scope.

(** ** C19 *)
Lemma binary_levels k o n la lb : In (k, o, n, la, lb) binary_operators -> 1 <= n <= 14 /\ 1 <= la <= 15 /\ 1 <= lb <= 15.
Proof. cbn [In binary_operators]. intros I. repeat (destruct I as [I|I]; [injection I as <- <- <- <- <-; lia|]). destruct I. Qed.
Lemma level_or n m ts e : Expr (Lost := strict) n ts e -> 1 <= n -> m <= 18 -> Expr (Lost := strict) m (if n <? m then paren ts else ts) e.
Proof.
  intros H N M. destruct (Nat.ltb_spec n m).
  - eapply up_to; [apply e_paren, w_expr, (up_to 1 n); [exact H|lia]|lia].
  - eapply up_to; [exact H|lia].
Qed.
Lemma wtree_expr t : wtree_ok t -> (forall m, m <= 18 -> Expr (Lost := strict) m (wtokens m t) (wexpr t)) /\
  (match t with WPow _ _ => Pow (Lost := strict) (wtokens 16 t) (wexpr t) | _ => True end).
Proof.
  induction t as [n ts e|k o n la lb l IHl r IHr|l IHl r IHr]; cbn [wtree_ok wexpr].
  - intros (N & H). split; [|exact I]. intros m M. cbn [wtokens]. apply level_or; [exact H|lia|exact M].
  - intros (B & L & R). split; [|exact I]. intros m M. destruct (binary_levels _ _ _ _ _ B) as (N & LA & LB). cbn [wtokens]. apply level_or; [|lia|exact M].
    eapply e_binary; [exact B|apply IHl; [exact L|lia]|apply IHr; [exact R|lia]].
  - intros (L & R). assert (P : Pow (Lost := strict) (wtokens 18 l ++ Kw KPow :: wtokens (match r with WPow _ _ => 16 | _ => 17 end) r) (ex (EBinary OPow (wexpr l) (wexpr r)))).
    { apply pow_more; [apply IHl; [exact L|lia]|]. destruct (IHr R) as (A & B). destruct r; [apply pow_base, A; lia..|exact B]. }
    split; [|exact P]. intros m M. cbn [wtokens]. apply level_or; [apply e_pow, P|lia|exact M].
Qed.
Lemma operators_parse t src all : wtree_ok t -> Source src all -> flat_map visible all = wtokens 1 t ++ [Kw KSemiColon] -> parses_to src [st (SExpr (wexpr t))].
Proof.
  intros W S E. apply (source_program src all _ S). rewrite E. apply program_one, top_stmt, s_weak, s_expr, w_expr. apply wtree_expr; [exact W|lia].
Qed.

(** ** C28 *)
Definition chain_tail (x : arm) (l : list arm) (el : option (list token * list stmt)) : list token :=
  arm_tokens x ++ flat_map (fun y => (if two_words y then [Kw KElse; Kw KIf] else [Kw KElseIf]) ++ arm_tokens y) l ++
  match el with Some (te, _) => Kw KElse :: te | None => [] end.
Lemma chain_if x l el : chain_ok x l el -> If (Lost := strict) (chain_tail x l el) (chain_tree x l el).
Proof.
  induction 1 as [x (C & B)|x te e (C & B) E|x y l el (C & B) K IH]; unfold chain_tail in *; cbn [flat_map chain_tree app].
  - unfold arm_tokens. rewrite !app_nil_r. apply if_only; assumption.
  - unfold arm_tokens. rewrite <- app_assoc. apply if_else; assumption.
  - set (f := flat_map _ l) in *. unfold arm_tokens at 1. rewrite <- !app_assoc. destruct (two_words y); cbn [app].
    + apply if_else; [exact C|exact B|]. apply body_single; [apply s_if, IH|destruct l; intros []].
    + apply if_elseif; [exact C|exact B|exact IH].
Qed.
Lemma chains_parse x l el src all : chain_ok x l el -> Source src all -> flat_map visible all = chain_tokens x l el -> parses_to src [chain_tree x l el].
Proof. intros C S E. apply (source_program src all _ S). rewrite E. apply program_one, top_stmt, s_if, chain_if, C. Qed.

(** ** C29 *)
Definition only (s : stmt) (ts : list token) : part -> list token -> Prop := fun p u => p = AsStmt s /\ u = ts.
Lemma one_parses s ts src all : StmC any ts s -> (forall v, ts <> Kw KEcho :: v) -> Source src all -> flat_map visible all = ts -> parses_to src [s].
Proof.
  intros H N S E. eapply (source_grammar (Lost := only s ts)); [| | | |apply (source_tokens _ _ S)|].
  - intros u (X & _). discriminate.
  - intros u (X & _). discriminate.
  - intros n e u (X & _). discriminate.
  - intros s' u (X & ->). injection X as ->. auto.
  - rewrite E. apply program_one, top_stmt, s_weak, s_lost. split; reflexivity.
Qed.
Lemma label_items l : Forall wlabel_ok l -> exists tss, flat_map wlabel_tokens l = List.concat tss /\ Forall2 Item tss (map label_item (map bare_label l)).
Proof.
  induction 1 as [|x l (V & B) F (tss & E & I)]; [exists []; split; [reflexivity|constructor]|].
  destruct (stmts_all strict_block strict_class strict_whole strict_stmt _ _ B) as (bss & EB & FB).
  exists (wlabel_tokens x :: tss). split; [cbn; rewrite E; reflexivity|]. cbn [map]. constructor; [|exact I].
  unfold Item, label_item, wlabel_tokens, bare_label. cbn [fst snd value stmts].
  destruct (wvalue x) as [[te e]|]; cbn [option_map fst snd].
  - exists (Kw KCase :: te ++ [Kw (if wsemicolon x then KSemiColon else KColon)]), bss. split; [cbn; rewrite EB, <- app_assoc; reflexivity|]. split; [exact FB|].
    exists te, (if wsemicolon x then KSemiColon else KColon). split; [destruct (wsemicolon x); auto|]. split; [reflexivity|].
    apply (whole_full 1); [lia|]. apply (whole_all strict_block strict_class strict_whole strict_stmt), V.
  - exists [Kw KDefault; Kw (if wsemicolon x then KSemiColon else KColon)], bss. split; [cbn; rewrite EB; reflexivity|]. split; [exact FB|].
    exists (if wsemicolon x then KSemiColon else KColon). split; [destruct (wsemicolon x); auto|reflexivity].
Qed.
Lemma switches_parse te e l cs src all : Whole (Lost := strict) 1 te e -> Forall wlabel_ok l -> grouped (map bare_label l) cs ->
  Source src all -> flat_map visible all = switch_tokens te l -> parses_to src [st (SSwitch e cs)].
Proof.
  intros W F G S E. destruct (label_items l F) as (tss & ET & I).
  pose proof (stm_switch te e tss _ (whole_full 1 te e ltac:(lia) (whole_all strict_block strict_class strict_whole strict_stmt _ _ _ W)) I) as Z.
  rewrite (grouped_cases _ _ G) in Z. eapply one_parses; [exact Z|discriminate|exact S|]. rewrite E. unfold switch_tokens. rewrite ET. unfold cond_toks, paren, braces. cbn [app]. rewrite <- app_assoc. reflexivity.
Qed.

(** ** C31 *)
Lemma semi_text : Text 0 (s2l ";") [Kw KSemiColon] 0 [].
Proof. change (s2l ";") with (s2l ";" ++ []). op ";"%string KSemiColon. apply tx_stop. Qed.
Lemma string_source text us b l : Pieces Quotes [] (text ++ s2l """;") us b (s2l """;") -> Literal b l ->
  Source (s2l "<?php echo """ ++ text ++ s2l """;") (Kw KOpenTag :: Kw KEcho :: Kw KDoubleQuote :: (us ++ l) ++ [Kw KDoubleQuote; Kw KSemiColon]).
Proof.
  intros P L. change (s2l "<?php echo """) with ([] ++ s2l "<?php" ++ s2l " " ++ s2l "echo" ++ s2l " " ++ s2l """"). set (z := (us ++ l) ++ _). rewrite <- !app_assoc.
  apply (source_script [] (s2l "<?php") KOpenTag _ (Kw KEcho :: Kw KDoubleQuote :: z) 0); [clear; none_inside|constructor|].
  sp. apply (tx_lexeme (s2l "echo") (Kw KEcho)); [apply (lx_keyword "echo"); [cbn; tauto|reflexivity]|]. sp.
  apply (tx_string 0 _ (text ++ s2l """;") us b l (s2l ";") [Kw KSemiColon] 0 []); [|exact P|exact L|exact semi_text].
  apply (opened_quotes false). intros _. destruct text; discriminate.
Qed.
Lemma strings_parse text us b l e es : Pieces Quotes [] (text ++ s2l """;") us b (s2l """;") -> Literal b l -> Parts (Lost := strict) (flat_map visible (us ++ l)) (e :: es) ->
  parses_to (s2l "<?php echo """ ++ text ++ s2l """;") [st (SEcho [concatenation e es])].
Proof.
  intros P L D. apply (source_program _ _ _ (string_source text us b l P L)). cbn [flat_map visible app]. rewrite flat_map_app. cbn [flat_map visible app].
  apply program_one, top_stmt, s_weak. change (Kw KEcho :: Kw KDoubleQuote :: flat_map visible (us ++ l) ++ [Kw KDoubleQuote; Kw KSemiColon])
    with (Kw KEcho :: (Kw KDoubleQuote :: flat_map visible (us ++ l) ++ [Kw KDoubleQuote] ++ [Kw KSemiColon])).
  rewrite app_assoc. change (Kw KDoubleQuote :: (flat_map visible (us ++ l) ++ [Kw KDoubleQuote]) ++ [Kw KSemiColon])
    with ((Kw KDoubleQuote :: flat_map visible (us ++ l) ++ [Kw KDoubleQuote]) ++ [Kw KSemiColon]).
  apply s_echo, wholes_one, w_expr. eapply up_to; [apply e_text, D|lia].
Qed.

Lemma heredoc_source tag text us b l : name_ok tag = true ->
  Pieces (Doc tag) [] (text ++ [10%N] ++ tag ++ s2l ";" ++ [10%N]) us b ([10%N] ++ tag ++ s2l ";" ++ [10%N]) -> Literal b l ->
  Source (s2l "<?php echo <<<" ++ tag ++ [10%N] ++ text ++ [10%N] ++ tag ++ s2l ";" ++ [10%N]) (Kw KOpenTag :: Kw KEcho :: Kw KHereDocStart :: (us ++ l) ++ [Kw KHereDocEnd; Kw KSemiColon]).
Proof.
  intros T P L. change (s2l "<?php echo <<<") with ([] ++ s2l "<?php" ++ s2l " " ++ s2l "echo" ++ s2l " " ++ s2l "<<<"). set (z := (us ++ l) ++ _).
  set (inp := text ++ [10%N] ++ tag ++ s2l ";" ++ [10%N]) in *. rewrite <- !app_assoc.
  apply (source_script [] (s2l "<?php") KOpenTag _ (Kw KEcho :: Kw KHereDocStart :: z) 0); [clear; none_inside|constructor|].
  sp. apply (tx_lexeme (s2l "echo") (Kw KEcho)); [apply (lx_keyword "echo"); [cbn; tauto|reflexivity]|]. sp.
  apply (tx_heredoc tag 0 _ inp us b l (s2l ";" ++ [10%N]) [Kw KSemiColon] 0 []); [|exact P|exact L|exists 10%N, []; split; [cbn; tauto|right; reflexivity]|].
  - apply (opened_doc false false [] tag [10%N] inp); [constructor|exact T|left; reflexivity|reflexivity|].
    unfold inp. assert (1 <= blen tag) by (destruct tag as [|c tag]; [discriminate|]; pose proof (clen_pos c); change (blen (c :: tag)) with (clen c + blen tag); lia).
    rewrite !blen_app. change (blen (s2l "<<<")) with 3. change (blen [10%N]) with 1. change (blen (s2l ";")) with 1. lia.
  - clear. op ";"%string KSemiColon. apply (tx_white [10%N]); [reflexivity|apply tx_stop].
Qed.
Lemma heredocs_parse tag text us b l e es : name_ok tag = true ->
  Pieces (Doc tag) [] (text ++ [10%N] ++ tag ++ s2l ";" ++ [10%N]) us b ([10%N] ++ tag ++ s2l ";" ++ [10%N]) -> Literal b l -> Parts (Lost := strict) (flat_map visible (us ++ l)) (e :: es) ->
  parses_to (s2l "<?php echo <<<" ++ tag ++ [10%N] ++ text ++ [10%N] ++ tag ++ s2l ";" ++ [10%N]) [st (SEcho [concatenation e es])].
Proof.
  intros T P L D. apply (source_program _ _ _ (heredoc_source tag text us b l T P L)). cbn [flat_map visible app]. rewrite flat_map_app. cbn [flat_map visible app].
  apply program_one, top_stmt, s_weak. change (Kw KEcho :: Kw KHereDocStart :: flat_map visible (us ++ l) ++ [Kw KHereDocEnd; Kw KSemiColon])
    with (Kw KEcho :: (Kw KHereDocStart :: flat_map visible (us ++ l) ++ [Kw KHereDocEnd] ++ [Kw KSemiColon])).
  rewrite app_assoc. change (Kw KHereDocStart :: (flat_map visible (us ++ l) ++ [Kw KHereDocEnd]) ++ [Kw KSemiColon])
    with ((Kw KHereDocStart :: flat_map visible (us ++ l) ++ [Kw KHereDocEnd]) ++ [Kw KSemiColon]).
  apply s_echo, wholes_one, w_expr. eapply up_to; [apply e_heredoc, D|lia].
Qed.

(** ** C33 *)
Lemma one_by_one (l : list (str * list token * stmt)) src all : l <> [] -> Forall (fun x => statement_source (fst (fst x)) (snd (fst x)) (snd x)) l ->
  Source src all -> flat_map visible all = flat_map (fun x => flat_map visible (snd (fst x))) l ->
  Forall (fun x => parses_to (fst (fst x)) [snd x]) l /\ parses_to src (map snd l).
Proof.
  intros N F S E. split.
  - eapply Forall_impl; [|exact F]. intros x (A & B). apply (source_program _ _ _ A). apply program_one, B.
  - apply (source_program _ _ _ S). rewrite E. clear S E all src. induction F as [|x l (A & B) F IH]; [congruence|]. cbn [flat_map map]. destruct l as [|y l].
    + cbn [flat_map map]. rewrite app_nil_r. apply program_one, B.
    + apply program_more; [exact B|apply IH; discriminate].
Qed.
