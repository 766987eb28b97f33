(** * SafeMain: sources that are not suspect are parsed or reported (proofs for C44) *)
From Verif Require Import Base Tokens Ast Lexer Parser ParserFacts Driver Spec SpecGrammar SpecErr SpecMixed SpecText SpecPanic.
From Verif Require Import SpecRun ParseExpr LexMono LexTotal LexInv LexBehind Emit GrammarTop ErrTop Safe SpecUnread UnreadProof TextMain2 TextTotal CompleteEx.
From Coq Require Import Lia.
Local Open Scope list_scope.

Lemma opening_shape toks : opening toks -> exists n, n <= 4 /\ behind_tag (skipn n toks) /\
  forall p k sp, nth_error toks p = Some (Kw k, sp) -> p < n -> k = KEcho \/ k = KSemiColon.
Proof.
  intros (pre & rest & -> & B & H). exists (List.length pre). rewrite skipn_app, skipn_all, Nat.sub_diag. cbn [app skipn].
  assert (K : forall p k sp, nth_error pre p = Some (Kw k, sp) -> k = KEcho \/ k = KSemiColon).
  { intros p k sp N. apply nth_error_In in N. destruct H as [->|[(a & ->)|[(w & a & ->)|(w & a & b & ->)]]]; cbn in N;
    repeat match type of N with _ \/ _ => destruct N as [N|N] end; try contradiction; try discriminate N; injection N as <- <-; auto. }
  split; [destruct H as [->|[(a & ->)|[(w & a & ->)|(w & a & b & ->)]]]; cbn; lia|]. split; [exact B|].
  intros p k sp N L. rewrite nth_error_app1 in N by exact L. eapply K; exact N.
Qed.
Lemma nth_skip {A} (l : list A) : forall n q, n <= q -> nth_error l q = nth_error (skipn n l) (q - n).
Proof.
  induction l as [|x l IH]; intros n q L; [rewrite skipn_nil; destruct q; [reflexivity|]; destruct (S q - n); reflexivity|].
  destruct n; [rewrite Nat.sub_0_r; reflexivity|]. destruct q; [lia|]. apply (IH n q). lia.
Qed.
Lemma skip_more {A} (P : A -> Prop) l : forall n m, n <= m -> Forall P (skipn n l) -> Forall P (skipn m l).
Proof.
  induction l as [|x l IH]; intros n m L F; [rewrite skipn_nil; constructor|]. destruct m; [replace n with 0 in F by lia; exact F|].
  destruct n; [|apply (IH n m); [lia|exact F]]. cbn [skipn] in *. inversion F. subst. apply (IH 0 m); [lia|]. destruct l; assumption.
Qed.
Lemma opening_safe toks pan : opening toks -> ~ suspect (map fst toks) -> parse_top toks <> PPanic pan.
Proof.
  intros O NS. destruct (opening_shape toks O) as (n & L & B & K). apply parse_top_safe; [exact NS| |].
  - unfold late2. unfold behind_tag in B. eapply skip_more; [exact L|]. eapply Forall_impl; [|exact B]. auto.
  - intros p k sp N I q t Q N'. destruct (Nat.lt_ge_cases p n) as [C|C].
    + destruct (K _ _ _ N C) as [->| ->]; cbn in I; repeat (destruct I as [I|I]; [discriminate I|]); contradiction.
    + rewrite (nth_skip toks n q) in N' by lia. apply nth_error_In in N'. unfold behind_tag in B. rewrite Forall_forall in B. exact (B _ N').
Qed.
Lemma tokens_safe toks pan : behind_tag toks -> ~ suspect (map fst toks) -> parse_top toks <> PPanic pan.
Proof. intros B. apply opening_safe. exists [], toks. auto. Qed.
(** the error that is reported can be located *)
Lemma error_located src f ts s pe q : tokenize f src = DOk (ts, s) -> parse_top (filter_tokens ts) = PErr pe q ->
  exists e, parse_str f src = DErr e /\ se_syntax e = None.
Proof.
  intros E X. pose proof (tokenize_run src f f [] tst_init (reached_start _) (Forall_nil _)) as G. unfold tokenize in E. rewrite E in G. destruct G as [R _].
  unfold parse_str, tokenize. rewrite E. unfold parse_tokens. rewrite X.
  assert (Z : forall a b x, exists e, mk_serror (lines s) (blen src) a b x None = DErr e /\ se_syntax e = None).
  { intros a b x. unfold mk_serror. destruct (lookup_works src s b R) as (line & la & lb & A1 & A2 & A3 & _). rewrite A1, A3. eexists. split; reflexivity. }
  destruct (nth_error (filter_tokens ts) (err_pos pe)) as [t|]; [apply Z|].
  destruct (List.length (filter_tokens ts)) as [|i] eqn:LI.
  { unfold parse_top, parse_top_statement_list in X. destruct (filter_tokens ts); [discriminate X|discriminate LI]. }
  destruct (nth_error (filter_tokens ts) i) as [t|] eqn:N; [apply Z|]. apply nth_error_None in N. unfold tokspan in *. lia.
Qed.
Lemma read_safe src f ts s : tokenize f src = DOk (ts, s) -> ~ suspect (flat_map visible (map fst ts)) ->
  (exists l, parse_str f src = DOk l) \/ exists e, parse_str f src = DErr e /\ se_syntax e = None.
Proof.
  intros E NS. assert (Z : map fst (filter_tokens ts) = flat_map visible (map fst ts)) by apply filter_sees.
  destruct (parse_top (filter_tokens ts)) as [l q|pe q|pan|] eqn:X.
  - left. exists l. unfold parse_str. rewrite E. unfold parse_tokens. rewrite X. reflexivity.
  - right. eapply error_located; eassumption.
  - exfalso. eapply opening_safe; [eapply opening_source, E| |exact X]. unfold tokspan in *. rewrite Z. exact NS.
  - exfalso. apply (parse_tokens_total (lines s) (blen src) ts). unfold parse_tokens. rewrite X. reflexivity.
Qed.
Lemma source_safe src ts : Source src ts -> ~ suspect (flat_map visible ts) ->
  exists F, (exists l, forall f, F <= f -> parse_str f src = DOk l) \/
            (exists e, (forall f, F <= f -> parse_str f src = DErr e) /\ se_syntax e = None).
Proof.
  intros S NS. destruct (source_tokens _ _ S) as (F & T). exists F. destruct (T F (le_n F)) as (a & s & E & M). rewrite <- M in NS.
  assert (G : forall f, F <= f -> parse_str f src = parse_str F src).
  { intros f L. unfold parse_str. rewrite (tokenize_more F f src L) by congruence. reflexivity. }
  destruct (read_safe src F a s E NS) as [(l & X)|(e & X & Y)]; [left; exists l|right; exists e; split; [|exact Y]]; intros f L; rewrite G by exact L; exact X.
Qed.
Lemma never_panics src f p : Forall scalar src -> ~ Unread src Panics -> (forall ts, Source src ts -> ~ suspect (flat_map visible ts)) -> parse_str f src <> DPanic p.
Proof.
  intros SC U NS X. assert (G : forall g, f <= g -> parse_str g src = DPanic p) by (intros g L; rewrite <- X; apply parse_str_mono; [exact L|congruence]).
  destruct (source_total src SC) as [(ts & S)|(x & R)].
  - destruct (source_safe src ts S (NS ts S)) as (F & [(l & Y)|(e & Y & _)]); specialize (Y (f + F) ltac:(lia)); rewrite G in Y by lia; discriminate.
  - pose proof (unread_meets _ _ R) as M. destruct x; cbn [meets] in M; [exact (U R)|rewrite M in X; discriminate|].
    destruct M as (F & M). destruct (M (f + F) ltac:(lia)) as (e & E & _). rewrite G in E by lia. discriminate.
Qed.
