(** * SpanTop: the spans of a whole parse (C45) *)
From Verif Require Import Base Tokens Ast Lexer Parser Driver Wp Order SpecSpan Span SpanPass Spec SpecPlace Place.
From Coq Require Import String.
Local Open Scope list_scope.

Definition no_token (k : kind) (toks : list tokspan) : Prop := ~ In (Kw k) (map fst toks).
Lemma no_token_nth k toks p sp : no_token k toks -> nth_error toks p <> Some (Kw k, sp).
Proof. intros N H. apply N. apply nth_error_In in H. apply in_map with (f := fst) in H. exact H. Qed.
Lemma parsed_nested toks l p : in_line 0 toks \/ lined 0 toks -> ~ In (Kw KClone) (map fst toks) -> ~ In (Kw KDollarCurlyBracesOpen) (map fst toks) ->
  parse_top toks = POk l p -> nested 0 (last_end 0 toks) (flat_map statement_regions l).
Proof.
  intros L NC ND H.
  assert (exists V, aligned 0 toks V) as (V & A).
  { destruct L as [L|L]; [exists (fun _ => 0); apply in_line_aligned, L|apply lined_aligned, L]. }
  assert (W : grows toks V (parse_top_statement_list toks (parse_statement toks (parse_fuel toks))) 0 [] (flat_map statement_regions)).
  { unfold parse_top_statement_list.
    assert (H1 : grows toks V (top_statements toks (parse_statement toks (parse_fuel toks)) (lf toks) []) 0 [] (flat_map statement_regions)).
    { apply (top_statements_s toks V A); intros; apply no_token_nth; assumption. }
    destruct toks; [intros _; apply wo_panic|exact H1]. }
  specialize (W (al_start _ _ _ A)). unfold wo in W. unfold parse_top in H. rewrite H in W. destruct W as (_ & X & EX & N). cbn [app] in EX. rewrite EX.
  eapply nested_weak; [exact N| |]; [unfold E, ends; cbn; lia|].
  unfold E. assert (M : forall d, ends 0 toks p <= ends 0 toks (p + d)).
  { induction d as [|d IH]; [rewrite Nat.add_0_r; auto|]. rewrite Nat.add_succ_r. pose proof (al_mono _ _ _ A (p + d)). lia. }
  specialize (M (List.length toks)). replace (last_end 0 toks) with (ends 0 toks (p + List.length toks)); [exact M|]. unfold ends. rewrite firstn_all2; [reflexivity|lia].
Qed.
Lemma unfiltered k toks : k = KClone \/ k = KDollarCurlyBracesOpen -> ~ In (Kw k) (map fst toks) -> ~ In (Kw k) (map fst (filter_tokens toks)).
Proof.
  intros K N I. apply N. clear -K I. induction toks as [|[t sp] r IH]; [exact I|]. unfold filter_tokens in I. cbn [flat_map] in I. rewrite map_app in I.
  apply in_app_or in I. destruct I as [I|I]; [left|right; apply IH, I]. cbn [fst]. unfold filter_token in I. cbn [fst] in I.
  destruct t as [k'| | | | | | | |]; [destruct k'|..]; cbn in I; destruct K as [-> | ->]; intuition congruence.
Qed.
Lemma source_nested f src toks s l : tokenize f src = DOk (toks, s) -> in_line 0 (filter_tokens toks) \/ lined 0 (filter_tokens toks) ->
  ~ In (Kw KClone) (map fst toks) -> ~ In (Kw KDollarCurlyBracesOpen) (map fst toks) ->
  parse_str f src = DOk l -> nested 0 (last_end 0 (filter_tokens toks)) (flat_map statement_regions l).
Proof.
  intros T L NC ND H. unfold parse_str in H. rewrite T in H. unfold parse_tokens in H.
  destruct (parse_top (filter_tokens toks)) as [l' p|e p| |] eqn:P; try discriminate.
  - injection H as <-. eapply parsed_nested; [exact L| | |exact P]; apply unfiltered; auto.
  - exfalso. clear -H. destruct (nth_error _ _); [|destruct (List.length _); [discriminate|destruct (nth_error _ _); [|discriminate]]];
    unfold mk_serror in H; repeat match type of H with match ?x with _ => _ end = _ => destruct x | (if ?b then _ else _) = _ => destruct b end; discriminate.
Qed.

(** ** Sources *)
Lemma spelled_nonempty w k : In (w, k) (keywords ++ operators ++ tags) -> 0 < String.length w.
Proof.
  intros I. assert (A : forallb (fun p => Nat.ltb 0 (String.length (fst p))) (keywords ++ operators ++ tags) = true) by (vm_compute; reflexivity).
  rewrite forallb_forall in A. apply A in I. cbn [fst] in I. apply Nat.ltb_lt, I.
Qed.
Lemma laid_spelled src toks : spelled toks -> forall lo lo' hi, laid src lo hi toks -> lo' <= lo ->
  lined lo' (filter_tokens toks) /\ last_end lo' (filter_tokens toks) <= hi.
Proof.
  induction 1 as [|[t sp] l PL _ IH|k k' w op sp cl l K W ST _ IH]; intros lo lo' hi L LE.
  - inversion L; subst. cbn. split; [constructor|lia].
  - assert (exists m, fine lo' t sp /\ sp_end sp <= m /\ laid src m hi l) as (m & (F1 & F2 & F3) & LM & F).
    { inversion L as [|? ? ? ? ? T A B C|? ? pre w ? a ? I W ST A C|? ? w v d a ? ? ? ? ? ?|? ? k k' ? a b parts ? I]; subst.
      - exists (sp_end sp). split; [|auto]. split; [lia|]. split; [exact B|]. intros [-> | ->]; destruct T as (w & I & _ & E); apply spelled_nonempty in I; lia.
      - unfold plain in PL. cbn [fst snd mk_span sp_start sp_end] in *. eexists. split; [|split; [|exact C]]; cbn [mk_span sp_start sp_end]; [|lia].
        split; [cbn; lia|split; [exact PL|intros [X|X]; discriminate X]].
      - destruct PL.
      - exfalso. cbn in I. unfold plain in PL. cbn [fst] in PL. destruct I as [I|[I|[I|[]]]]; injection I as <- <-; exact PL. }
    destruct (IH _ lo' _ F) as [I1 I2]; [lia|]. destruct (IH _ (sp_end sp) _ F LM) as [I3 I4].
    assert (O : opening t = false) by (destruct t as [[]| | | | | | | |]; reflexivity || destruct PL).
    assert (D : lined lo' ((t, sp) :: filter_tokens l) /\ last_end lo' ((t, sp) :: filter_tokens l) <= hi).
    { split; [|exact I4]. constructor; [exact O|repeat split; auto|exact I3]. }
    assert (D' : lined lo' ((Kw KEcho, sp) :: filter_tokens l) /\ last_end lo' ((Kw KEcho, sp) :: filter_tokens l) <= hi).
    { split; [|exact I4]. constructor; [reflexivity|repeat split; auto; intros [X|X]; discriminate X|exact I3]. }
    unfold filter_tokens. cbn [flat_map]. fold (filter_tokens l).
    destruct t as [[]| | | | | | | |]; cbn [filter_token fst snd app]; solve [exact D | exact D' | auto | destruct PL].
  - assert (KO : k = KDoubleQuote \/ k = KBackquote \/ k = KHereDocStart) by (cbn in K; intuition congruence).
    assert (L' : exists m, lo <= sp_start op /\ sp_start op <= sp_end op /\ sp_end op <= sp_end sp /\ sp_end sp <= sp_end cl /\ sp_end cl <= m /\ laid src m hi l).
    { inversion L as [|? ? ? ? ? T A B C|? ? pre ? ? ? ? ? ? ? ? ?|? ? ? ? ? ? ? ? ? ? ? ?|? ? k1 k2 f a b parts l1 I T1 T2 A F P R]; subst.
      - exfalso. inversion C as [|? ? ? ? ? T' A' B' C'| | |]; subst. assert (sp_end op = sp_start op + 1) by (destruct KO as [->|[->| ->]]; apply T). lia.
      - destruct parts as [|x parts].
        + cbn [app] in *. match goal with H : _ :: _ :: _ = _ |- _ => injection H; intros; subst | _ => idtac end. exists (b + 1). cbn [mk_span sp_start sp_end]. inversion P; subst. repeat split; try lia. assumption.
        + exfalso. cbn [app] in H3. injection H3 as -> _.
          inversion P as [|? ? ? ? ? T' A' B' C'| | |]; subst. cbn [mk_span sp_start] in *. lia. }
    destruct L' as (m & L1 & L2 & L3 & L4 & L5 & L6). destruct (IH _ (sp_end cl) _ L6 L5) as [I1 I2].
    assert (FK : forall r, filter_token (Kw k, r) = [(Kw k, r)]) by (intros; destruct KO as [->|[->| ->]]; reflexivity).
    assert (FK' : filter_token (Kw k', cl) = [(Kw k', cl)]) by (cbn in K; destruct K as [K|[K|[K|[]]]]; injection K as <- <-; reflexivity).
    unfold filter_tokens. cbn [flat_map]. fold (filter_tokens l). rewrite FK, FK'. cbn [filter_token fst app]. split; [|exact I2].
    eapply lined_string; eauto. lia.
Qed.
Lemma spelled_no k toks : k = KClone \/ k = KDollarCurlyBracesOpen -> spelled toks -> ~ In (Kw k) (map fst toks).
Proof.
  intros K. induction 1 as [|[t sp] l P _ IH|k1 k2 w op sp cl l I _ _ _ IH]; cbn [map fst In]; [tauto| |].
  - intros [->|X]; [|auto]. destruct K as [-> | ->]; exact P.
  - cbn in I. destruct K as [-> | ->]; intuition congruence.
Qed.
Lemma spelled_source f src toks s l : tokenize f src = DOk (toks, s) -> spelled toks -> parse_str f src = DOk l ->
  nested 0 (blen src) (flat_map statement_regions l).
Proof.
  intros T S H. destruct (laid_spelled src toks S 0 0 _ (tokens_laid _ _ _ _ T)) as [A B]; [lia|].
  eapply nested_weak; [eapply source_nested; eauto using spelled_no|lia|exact B].
Qed.

(** ** Examples *)
Definition lex_of (src : str) : list tokspan := match tokenize 2000 src with DOk (l, _) => l | _ => [] end.
Definition tree_of (src : str) : list stmt := match parse_str 2000 src with DOk l => l | _ => [] end.
Definition span_source : str := s2l "<?php function f(&$a) { if ($a[1] > 2) { return g('x', ...$a) + \A\B; } else { foreach ($a as $k => &$v); } }".
Lemma lexed src : lex_of src <> [] -> exists s, tokenize 2000 src = DOk (lex_of src, s).
Proof. unfold lex_of. destruct (tokenize 2000 src) as [[l s]|[e s]| |]; intros H; try (exfalso; apply H; reflexivity). exists s. reflexivity. Qed.
Lemma treed src : tree_of src <> [] -> parse_str 2000 src = DOk (tree_of src).
Proof. unfold tree_of. destruct (parse_str 2000 src); intros H; try (exfalso; apply H; reflexivity). reflexivity. Qed.
Lemma span_case : exists toks s l, tokenize 2000 span_source = DOk (toks, s) /\ parse_str 2000 span_source = DOk l /\ in_line 0 (filter_tokens toks) /\
  ~ In (Kw KClone) (map fst toks) /\ ~ In (Kw KDollarCurlyBracesOpen) (map fst toks) /\
  flat_map statement_regions l =
    [Region (mk_span 6 109)                                                        (* function f ... *)
      [Region (mk_span 24 107)                                                     (* if ... else ... *)
        [Region (mk_span 28 37)                                                    (* $a[1] > 2 *)
          [Region (mk_span 28 33) [Region (mk_span 28 30) []; Region (mk_span 31 32) []]; Region (mk_span 36 37) []];
         Region (mk_span 41 69)                                                    (* return ...; *)
          [Region (mk_span 48 68)
            [Region (mk_span 48 61) [Region (mk_span 48 49) []; Region (mk_span 50 53) []; Region (mk_span 55 60) [Region (mk_span 58 60) []]];
             Region (mk_span 64 68) []]];
         Region (mk_span 79 105)                                                   (* foreach ... *)
          [Region (mk_span 88 90) []; Region (mk_span 94 96) []; Region (mk_span 100 101) []; Region (mk_span 101 103) []; Region (mk_span 104 105) []]]]].
Proof.
  destruct (lexed span_source) as [s T]; [vm_compute; discriminate|]. exists (lex_of span_source), s, (tree_of span_source).
  split; [exact T|]. split; [apply treed; vm_compute; discriminate|].
  split; [vm_compute; repeat (split; try lia; try (intros [H|H]; discriminate H))|].
  split; [vm_compute; intuition discriminate|]. split; [vm_compute; intuition discriminate|].
  vm_compute. reflexivity.
Qed.
(** strings *)
Definition string_source : str := s2l "<?php echo f(""ab"", 'c')[""d""] . ""e"";".
Definition string_regions : list region :=
  [Region (mk_span 6 35)                                                           (* echo ... *)
    [Region (mk_span 11 34)
      [Region (mk_span 11 28)                                                      (* f("ab", 'c')["d"] *)
        [Region (mk_span 11 23) [Region (mk_span 11 12) []; Region (mk_span 13 17) []; Region (mk_span 19 22) []]; Region (mk_span 24 27) []];
       Region (mk_span 31 34) []]]].
Ltac spell := vm_compute; repeat first [apply spelled_none | eapply spelled_string; [cbn; tauto|discriminate|reflexivity|] | eapply spelled_token; [vm_compute; first [exact I | lia]|]].
Lemma string_case : exists toks s l, tokenize 2000 string_source = DOk (toks, s) /\ spelled toks /\ parse_str 2000 string_source = DOk l /\
  flat_map statement_regions l = string_regions.
Proof.
  destruct (lexed string_source) as [s T]; [vm_compute; discriminate|]. exists (lex_of string_source), s, (tree_of string_source).
  split; [exact T|]. split; [spell|]. split; [apply treed; vm_compute; discriminate|]. vm_compute. reflexivity.
Qed.
Definition empty_source : str := s2l "<?php f("""", ""a"");".
Lemma empty_case : exists toks s l, tokenize 2000 empty_source = DOk (toks, s) /\ lined 0 (filter_tokens toks) /\ ~ in_line 0 (filter_tokens toks) /\ parse_str 2000 empty_source = DOk l /\
  flat_map statement_regions l = [Region (mk_span 6 17) [Region (mk_span 6 16) [Region (mk_span 6 7) []; Region (mk_span 8 10) []; Region (mk_span 12 15) []]]].
Proof.
  destruct (lexed empty_source) as [s T]; [vm_compute; discriminate|]. exists (lex_of empty_source), s, (tree_of empty_source).
  split; [exact T|]. split; [|split; [|split; [apply treed; vm_compute; discriminate|vm_compute; reflexivity]]].
  - vm_compute. repeat first [apply lined_none | eapply lined_string; [cbn; tauto|discriminate|cbn; lia|cbn; lia|cbn; lia|cbn; lia|] | eapply lined_empty; [cbn; lia|cbn; lia|cbn; lia|]
      | eapply lined_token; [reflexivity|split; [cbn; lia|split; [cbn; lia|intros [X|X]; discriminate X]]|]].
  - vm_compute. intros X. repeat match goal with H : _ /\ _ |- _ => destruct H end. lia.
Qed.
(** sources whose spans are not nested *)
Ltac not_nested := vm_compute; intros N; repeat match goal with
  | H : nested _ _ (_ :: _) |- _ => inversion H; subst; clear H
  | H : nested _ _ [] |- _ => inversion H; subst; clear H
  end; cbn [sp_start sp_end] in *; lia.
Definition unnested (src : str) : Prop := exists l, parse_str 2000 src = DOk l /\ forall hi, ~ nested 0 hi (flat_map statement_regions l).
Lemma clone_unnested : unnested (s2l "<?php 1 + clone $a;").
Proof. eexists. split; [apply treed; vm_compute; discriminate|]. intros hi. not_nested. Qed.
Lemma dollar_unnested : unnested (s2l "<?php ""ab${c}de"";").
Proof. eexists. split; [apply treed; vm_compute; discriminate|]. intros hi. not_nested. Qed.
Lemma double_unnested : unnested (s2l "<?php 1.5 + 2;").
Proof. eexists. split; [apply treed; vm_compute; discriminate|]. intros hi. not_nested. Qed.
Lemma hex_unnested : unnested (s2l "<?php 0xff + 2;").
Proof. eexists. split; [apply treed; vm_compute; discriminate|]. intros hi. not_nested. Qed.
