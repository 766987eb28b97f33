(** * ParseCrash: token sequences on which the parser panics

    [wp m p no nowhere] says that the parser [m] neither succeeds nor fails at [p], and
    does not run out of fuel: it panics. *)
From Verif Require Import Base Tokens Ast AstMap AstInd Lexer Parser Driver Wp ParserTermination ParserMono ParserRel ParseRun ParseTac ParseExpr ParseStmt ParseDecl.
From Coq Require Import String.

Lemma wpx_wp {A} (m : P A) p Q E : wpx m p Q E -> wp m p Q E.
Proof. unfold wpx, wp. destruct (m p); auto; contradiction. Qed.
Lemma wp_use {A} (m : P A) p (Q Q' : A -> nat -> Prop) E' : wpx m p Q nofail -> (forall a q, Q a q -> Q' a q) -> wp m p Q' E'.
Proof. intros H K. apply wpx_wp. eapply wpx_use; eauto. Qed.
Lemma wp_fails {A} (m : P A) p (Q' : A -> nat -> Prop) (E' : perror -> nat -> Prop) : fails m p -> (forall e, E' e p) -> wp m p Q' E'.
Proof. intros H K. apply wpx_wp. eapply wpx_mono; [exact H|intros ? ? []|]. intros e q ->. apply K. Qed.
Lemma wq_unwrap {A} (a : A) p (Q : A -> nat -> Prop) E : Q a p -> wp (unwrap_p (Some a)) p Q E.
Proof. exact (fun h => h). Qed.
Section Run.
Variable toks : list tokspan.
Notation len := (List.length toks).
Hypothesis Late : Forall (fun t : tokspan => 2 <= sp_start (snd t)) (skipn 4 toks).
Notation here := (here toks).
Notation sp_at := (sp_at toks).
Lemma wq_peek p l (Q : option tokspan -> nat -> Prop) E : here p l ->
  Q (match l with t :: _ => Some (t, sp_at p) | [] => None end) p -> wp (peek toks) p Q E.
Proof. intros H K. unfold wp, peek. rewrite (here_nth toks Late p l H). exact K. Qed.
Lemma wq_sees k p l (Q : bool -> nat -> Prop) E : here p l ->
  Q (match l with Kw k' :: _ => kind_eqb k k' | _ => false end) p -> wp (sees toks k) p Q E.
Proof.
  intros H K. unfold sees. apply wp_bind. eapply wq_peek; [exact H|]. destruct l as [|[] l]; exact K.
Qed.
Lemma wq_look {A} k (yes : span -> P A) no p l Q E : here p l ->
  match l with
  | Kw k' :: _ => if kind_eqb k k' then wp (yes (sp_at p)) (S p) Q E else wp no p Q E
  | _ => wp no p Q E
  end -> wp (look toks k yes no) p Q E.
Proof.
  intros H K. unfold look. apply wp_bind. eapply wq_peek; [exact H|]. destruct l as [|[] l]; try exact K.
  destruct (kind_eqb k k0); [|exact K]. apply wp_bind. apply wp_adv. exact K.
Qed.
Lemma wq_look_var {A} (yes : str -> span -> P A) no p l Q E : here p l ->
  match l with TVariable s :: _ => wp (yes s (sp_at p)) (S p) Q E | _ => wp no p Q E end -> wp (look_var toks yes no) p Q E.
Proof.
  intros H K. unfold look_var. apply wp_bind. eapply wq_peek; [exact H|]. destruct l as [|[] l]; exact K.
Qed.
Lemma wq_look_string {A} (yes : str -> span -> P A) no p l Q E : here p l ->
  match l with TString s :: _ => wp (yes s (sp_at p)) (S p) Q E | _ => wp no p Q E end -> wp (look_string toks yes no) p Q E.
Proof.
  intros H K. unfold look_string. apply wp_bind. eapply wq_peek; [exact H|]. destruct l as [|[] l]; exact K.
Qed.
Lemma wq_look_ces {A} (yes : str -> span -> P A) no p l Q E : here p l ->
  match l with TCes s :: _ => wp (yes s (sp_at p)) (S p) Q E | _ => wp no p Q E end -> wp (look_ces toks yes no) p Q E.
Proof.
  intros H K. unfold look_ces. apply wp_bind. eapply wq_peek; [exact H|]. destruct l as [|[] l]; exact K.
Qed.
Lemma wq_expect k p l (Q : span -> nat -> Prop) E : here p (Kw k :: l) -> Q (sp_at p) (S p) -> wp (expect toks k) p Q E.
Proof.
  intros H K. unfold expect. eapply wq_look; [exact H|]. cbv beta iota.
  unfold kind_eqb. rewrite N.eqb_refl. exact K.
Qed.
Lemma wq_span_at i p (Q : span -> nat -> Prop) E : i < len -> (forall sp, Q sp p) -> wp (span_at toks i) p Q E.
Proof.
  intros L H. unfold span_at. destruct (nth_error toks i) eqn:X; [apply H|]. apply nth_error_None in X. lia.
Qed.
Lemma wq_prev_end p l (Q : nat -> nat -> Prop) E : here p l -> 1 <= p -> (forall e, Q e p) -> wp (prev_end toks) p Q E.
Proof.
  intros H L K. unfold prev_end. apply wp_bind, wp_getpos, wp_bind, wp_psub; intros _.
  apply wp_bind, wq_span_at; [pose proof (here_le toks _ _ H); lia|]. intros sp. apply wp_ret, K.
Qed.

Lemma wq_look_cls {A} (c : token -> bool) k (yes : span -> P A) no p l Q E : here p l -> hd_ok c l -> c (Kw k) = false ->
  wp no p Q E -> wp (look toks k yes no) p Q E.
Proof.
  intros H C F K. eapply wq_look; [exact H|]. destruct l as [|t l]; auto. destruct t as [k'| | | | | | | |]; auto.
  rewrite kind_eq_dec_false; auto. intros ->. cbn in C. congruence.
Qed.
Lemma wq_sees_cls (c : token -> bool) k p l (Q : bool -> nat -> Prop) E : here p l -> hd_ok c l -> c (Kw k) = false ->
  Q false p -> wp (sees toks k) p Q E.
Proof.
  intros H C F K. eapply wq_sees; [exact H|]. destruct l as [|t l]; auto. destruct t as [k'| | | | | | | |]; auto.
  rewrite kind_eq_dec_false; auto. intros ->. cbn in C. congruence.
Qed.
Lemma wq_look_var_cls {A} (c : token -> bool) (yes : str -> span -> P A) no p l Q E : here p l -> hd_ok c l -> (forall s, c (TVariable s) = false) ->
  wp no p Q E -> wp (look_var toks yes no) p Q E.
Proof.
  intros H C F K. eapply wq_look_var; [exact H|]. destruct l as [|t l]; auto. destruct t as [k'| | | | | | | |]; auto.
  cbn in C. rewrite F in C. discriminate.
Qed.
Lemma wq_look_string_cls {A} (c : token -> bool) (yes : str -> span -> P A) no p l Q E : here p l -> hd_ok c l -> (forall s, c (TString s) = false) ->
  wp no p Q E -> wp (look_string toks yes no) p Q E.
Proof.
  intros H C F K. eapply wq_look_string; [exact H|]. destruct l as [|t l]; auto. destruct t as [k'| | | | | | | |]; auto.
  cbn in C. rewrite F in C. discriminate.
Qed.
Lemma wq_look_ces_cls {A} (c : token -> bool) (yes : str -> span -> P A) no p l Q E : here p l -> hd_ok c l -> (forall s, c (TCes s) = false) ->
  wp no p Q E -> wp (look_ces toks yes no) p Q E.
Proof.
  intros H C F K. eapply wq_look_ces; [exact H|]. destruct l as [|t l]; auto. destruct t as [k'| | | | | | | |]; auto.
  cbn in C. rewrite F in C. discriminate.
Qed.
Lemma wq_PE prec p Q E : wp (head_expr toks) p (fun left q => wp (binary_loop toks (PE toks) (lf toks) prec left) q Q E) E -> wp (PE toks prec) p Q E.
Proof.
  unfold wp. rewrite PE_eq. unfold parse_unary_expression, head_expr. unfold pbind, pcatch, peek.
  destruct (nth_error toks p) as [[x sp]|]; auto.
  destruct (unop_of x) as [o|]; [unfold adv; destruct (PE toks PrUnary (S p)); auto|destruct (parse_postfix_expression toks (PE toks) (PS toks) p); auto].
Qed.
Lemma wq_PS p Q E : wp (parse_statement_body toks (PE toks) (PS toks)) p Q E -> wp (PS toks) p Q E.
Proof. unfold wp. rewrite PS_eq. auto. Qed.
End Run.
Ltac qx1 L :=
  lazymatch goal with
  | |- wp (pbind _ _) _ _ _ => apply wp_bind
  | |- wp (pcatch _ _ _) _ _ _ => apply wp_catch
  | |- wp (pret _) _ _ _ => apply wp_ret
  | |- wp (deepest _ _ _) _ _ _ => apply wp_deepest
  | |- wp getpos _ _ _ => apply wp_getpos
  | |- wp (setpos _) _ _ _ => apply wp_setpos
  | |- wp adv _ _ _ => apply wp_adv
  | |- wp (expect ?ts ?k) ?p _ _ =>
    match goal with H : here ts p (_ :: _) |- _ => eapply (wq_expect ts L); [exact H|] end
  | |- wp (look ?ts ?k _ _) ?p _ _ =>
    match goal with
    | H : here ts p (_ :: _) |- _ => eapply (wq_look ts L); [exact H|]; cbv beta iota; kinds
    | H : here ts p [] |- _ => eapply (wq_look ts L); [exact H|]; cbv beta iota
    | H : here ts p ?l, C : hd_ok ?c ?l |- _ => eapply (wq_look_cls ts L c); [exact H|exact C|reflexivity|]
    end
  | |- wp (sees ?ts ?k) ?p _ _ =>
    match goal with
    | H : here ts p (_ :: _) |- _ => eapply (wq_sees ts L); [exact H|]; cbv beta iota; kinds
    | H : here ts p [] |- _ => eapply (wq_sees ts L); [exact H|]; cbv beta iota
    | H : here ts p ?l, C : hd_ok ?c ?l |- _ => eapply (wq_sees_cls ts L c); [exact H|exact C|reflexivity|]
    end
  | |- wp (look_var ?ts _ _) ?p _ _ =>
    match goal with
    | H : here ts p (_ :: _) |- _ => eapply (wq_look_var ts L); [exact H|]; cbv beta iota
    | H : here ts p [] |- _ => eapply (wq_look_var ts L); [exact H|]; cbv beta iota
    | H : here ts p ?l, C : hd_ok ?c ?l |- _ => eapply (wq_look_var_cls ts L c); [exact H|exact C|reflexivity|]
    end
  | |- wp (look_string ?ts _ _) ?p _ _ =>
    match goal with
    | H : here ts p (_ :: _) |- _ => eapply (wq_look_string ts L); [exact H|]; cbv beta iota
    | H : here ts p [] |- _ => eapply (wq_look_string ts L); [exact H|]; cbv beta iota
    | H : here ts p ?l, C : hd_ok ?c ?l |- _ => eapply (wq_look_string_cls ts L c); [exact H|exact C|reflexivity|]
    end
  | |- wp (look_ces ?ts _ _) ?p _ _ =>
    match goal with
    | H : here ts p (_ :: _) |- _ => eapply (wq_look_ces ts L); [exact H|]; cbv beta iota
    | H : here ts p [] |- _ => eapply (wq_look_ces ts L); [exact H|]; cbv beta iota
    | H : here ts p ?l, C : hd_ok ?c ?l |- _ => eapply (wq_look_ces_cls ts L c); [exact H|exact C|reflexivity|]
    end
  | |- wp (peek ?ts) ?p _ _ =>
    match goal with
    | H : here ts p (_ :: _) |- _ => eapply (wq_peek ts L); [exact H|]; cbv beta iota
    | H : here ts p [] |- _ => eapply (wq_peek ts L); [exact H|]; cbv beta iota
    end
  | |- wp (prev_end ?ts) ?p _ _ =>
    match goal with H : here ts p _ |- _ => eapply (wq_prev_end ts); [exact H|lia|intros ?e] end
  | |- wp (ppanic _) _ _ _ => apply wp_panic
  | |- wp (perr _) _ _ _ => apply wp_err
  | |- wp (deepest_unpack _) _ _ _ => apply wp_deepest_unpack; intros ?
  | |- wp (pthrow _) _ _ _ => apply wp_throw
  | |- wp (psub _ _) _ _ _ => apply wp_psub; intros ?
  | |- wp (unwrap_p (Some _)) _ _ _ => apply wq_unwrap
  | |- wp (if true then _ else _) _ _ _ => cbv iota
  | |- wp (if false then _ else _) _ _ _ => cbv iota
  | |- wp (match ?x with _ => _ end) _ _ _ => progress (cbv beta iota)
  | |- wp (let x := _ in _) _ _ _ => cbv zeta
  end.
Ltac qx L := next_here L; repeat (qx1 L; cbv beta).

