(** * ParseTac: symbolic execution of the parser, and what it does on names *)
From Verif Require Import Base Tokens Ast AstMap AstInd Lexer Parser Driver Wp ParserTermination ParserMono ParserRel ParseRun.
From Coq Require Import String.

(** ** Classes of tokens *)
Definition hd_ok (c : token -> bool) (l : list token) : Prop := match l with t :: _ => c t = true | [] => True end.
Definition tok_in (ks : list kind) (t : token) : bool := match t with Kw k => existsb (kind_eqb k) ks | _ => false end.
(** what follows a whole expression; also keywords at which no expression goes on *)
Definition closer : token -> bool :=
  tok_in [KSemiColon; KComma; KParenthesesClose; KSquareBracketClose; KCurlyBracesClose; KColon; KDoubleArrow; KAs;
    KCurlyBracesOpen; KEcho; KReturn; KContinue; KBreak; KThrow; KIf; KElse; KElseIf; KWhile; KDo; KFor; KForeach; KSwitch; KCase; KDefault;
    KTry; KCatch; KFinally; KUnset; KGlobal; KClass; KAbstract; KFinal; KInterface; KTrait; KConst; KUse; KNamespace; KPublic; KPrivate; KProtected; KVar;
    KExtends; KImplements; KInsteadof; KGoto; KPrint; KEval; KDeclare; KCallable; KEndIf; KEndWhile; KEndForeach; KEndSwitch; KEndDeclare].
Definition closing : list token -> Prop := hd_ok closer.
(** what follows an operand *)
Definition opener (t : token) : bool :=
  closer t || match t with Kw k => match precedence k with Some _ => true | None => false end | _ => false end.
Definition oplike : list token -> Prop := hd_ok opener.
(** what follows a variable *)
Definition behind_var (t : token) : bool :=
  negb (tok_in [KSquareBracketOpen; KObjectOp; KScopeOp; KParenthesesOpen] t).
Definition var_end : list token -> Prop := hd_ok behind_var.

Lemma hd_weak (c c' : token -> bool) l : (forall t, c t = true -> c' t = true) -> hd_ok c l -> hd_ok c' l.
Proof. destruct l; cbn; auto. Qed.
Lemma closing_oplike l : closing l -> oplike l.
Proof. apply hd_weak. intros t H. unfold opener. rewrite H. reflexivity. Qed.
Lemma opener_behind t : opener t = true -> behind_var t = true.
Proof. destruct t as [k| | | | | | | |]; try reflexivity. destruct k; try reflexivity; discriminate. Qed.
Lemma oplike_var l : oplike l -> var_end l.
Proof. apply hd_weak. apply opener_behind. Qed.
Lemma closing_var l : closing l -> var_end l.
Proof. intros H. apply oplike_var, closing_oplike, H. Qed.

Lemma kind_eq_dec_false k k' : k <> k' -> kind_eqb k k' = false.
Proof. intros H. apply not_true_iff_false. intros E. apply kind_eqb_eq in E. contradiction. Qed.

Section Tac.
Variable toks : list tokspan.
Hypothesis Late : Forall (fun t : tokspan => 2 <= sp_start (snd t)) (skipn 4 toks).
Notation here := (here toks).

Lemma wpx_look_cls {A} (c : token -> bool) k (yes : span -> P A) no p l Q E : here p l -> hd_ok c l -> c (Kw k) = false ->
  wpx no p Q E -> wpx (look toks k yes no) p Q E.
Proof.
  intros H C F K. eapply wpx_look; [exact Late|exact H|]. destruct l as [|t l]; auto. destruct t as [k'| | | | | | | |]; auto.
  rewrite kind_eq_dec_false; auto. intros ->. cbn in C. congruence.
Qed.
Lemma wpx_sees_cls (c : token -> bool) k p l (Q : bool -> nat -> Prop) E : here p l -> hd_ok c l -> c (Kw k) = false ->
  Q false p -> wpx (sees toks k) p Q E.
Proof.
  intros H C F K. eapply wpx_sees; [exact Late|exact H|]. destruct l as [|t l]; auto. destruct t as [k'| | | | | | | |]; auto.
  rewrite kind_eq_dec_false; auto. intros ->. cbn in C. congruence.
Qed.
Lemma wpx_look_var_cls {A} (c : token -> bool) (yes : str -> span -> P A) no p l Q E : here p l -> hd_ok c l -> (forall s, c (TVariable s) = false) ->
  wpx no p Q E -> wpx (look_var toks yes no) p Q E.
Proof.
  intros H C F K. eapply wpx_look_var; [exact Late|exact H|]. destruct l as [|t l]; auto. destruct t as [k'| | | | | | | |]; auto.
  cbn in C. rewrite F in C. discriminate.
Qed.
Lemma wpx_look_string_cls {A} (c : token -> bool) (yes : str -> span -> P A) no p l Q E : here p l -> hd_ok c l -> (forall s, c (TString s) = false) ->
  wpx no p Q E -> wpx (look_string toks yes no) p Q E.
Proof.
  intros H C F K. eapply wpx_look_string; [exact Late|exact H|]. destruct l as [|t l]; auto. destruct t as [k'| | | | | | | |]; auto.
  cbn in C. rewrite F in C. discriminate.
Qed.
Lemma wpx_look_ces_cls {A} (c : token -> bool) (yes : str -> span -> P A) no p l Q E : here p l -> hd_ok c l -> (forall s, c (TCes s) = false) ->
  wpx no p Q E -> wpx (look_ces toks yes no) p Q E.
Proof.
  intros H C F K. eapply wpx_look_ces; [exact Late|exact H|]. destruct l as [|t l]; auto. destruct t as [k'| | | | | | | |]; auto.
  cbn in C. rewrite F in C. discriminate.
Qed.
End Tac.

(** ** The tactic *)
Ltac kinds :=
  repeat match goal with |- context [kind_eqb ?a ?b] => let v := eval vm_compute in (kind_eqb a b) in
    match v with true => idtac | false => idtac end; change (kind_eqb a b) with v end; cbv beta iota.
(** make the token behind [p] known *)
Ltac next_here L :=
  repeat match goal with
  | H : here ?ts ?p (?t :: ?l) |- _ =>
    lazymatch goal with
    | _ : here ts (S p) l |- _ => fail
    | _ => let N := fresh "HN" in let S := fresh "HS" in let B := fresh "HB" in
           destruct (here_cons ts L p t l H) as (N & S & B)
    end
  end.
Ltac hyp := eassumption.
Ltac px1 L :=
  lazymatch goal with
  | |- wpx (pbind _ _) _ _ _ => apply wpx_bind
  | |- wpx (pcatch _ _ _) _ _ _ => apply wpx_catch
  | |- wpx (pret _) _ _ _ => apply wpx_ret
  | |- wpx (deepest _ _ _) _ _ _ => apply wpx_deepest
  | |- wpx getpos _ _ _ => apply wpx_getpos
  | |- wpx (setpos _) _ _ _ => apply wpx_setpos
  | |- wpx adv _ _ _ => apply wpx_adv
  | |- wpx (expect ?ts ?k) ?p _ _ =>
    match goal with H : here ts p (_ :: _) |- _ => eapply (wpx_expect ts L); [exact H|] end
  | |- wpx (look ?ts ?k _ _) ?p _ _ =>
    match goal with
    | H : here ts p (_ :: _) |- _ => eapply (wpx_look ts L); [exact H|]; cbv beta iota; kinds
    | H : here ts p [] |- _ => eapply (wpx_look ts L); [exact H|]; cbv beta iota
    | H : here ts p ?l, C : hd_ok ?c ?l |- _ => eapply (wpx_look_cls ts L c); [exact H|exact C|reflexivity|]
    end
  | |- wpx (sees ?ts ?k) ?p _ _ =>
    match goal with
    | H : here ts p (_ :: _) |- _ => eapply (wpx_sees ts L); [exact H|]; cbv beta iota; kinds
    | H : here ts p [] |- _ => eapply (wpx_sees ts L); [exact H|]; cbv beta iota
    | H : here ts p ?l, C : hd_ok ?c ?l |- _ => eapply (wpx_sees_cls ts L c); [exact H|exact C|reflexivity|]
    end
  | |- wpx (look_var ?ts _ _) ?p _ _ =>
    match goal with
    | H : here ts p (_ :: _) |- _ => eapply (wpx_look_var ts L); [exact H|]; cbv beta iota
    | H : here ts p [] |- _ => eapply (wpx_look_var ts L); [exact H|]; cbv beta iota
    | H : here ts p ?l, C : hd_ok ?c ?l |- _ => eapply (wpx_look_var_cls ts L c); [exact H|exact C|reflexivity|]
    end
  | |- wpx (look_string ?ts _ _) ?p _ _ =>
    match goal with
    | H : here ts p (_ :: _) |- _ => eapply (wpx_look_string ts L); [exact H|]; cbv beta iota
    | H : here ts p [] |- _ => eapply (wpx_look_string ts L); [exact H|]; cbv beta iota
    | H : here ts p ?l, C : hd_ok ?c ?l |- _ => eapply (wpx_look_string_cls ts L c); [exact H|exact C|reflexivity|]
    end
  | |- wpx (look_ces ?ts _ _) ?p _ _ =>
    match goal with
    | H : here ts p (_ :: _) |- _ => eapply (wpx_look_ces ts L); [exact H|]; cbv beta iota
    | H : here ts p [] |- _ => eapply (wpx_look_ces ts L); [exact H|]; cbv beta iota
    | H : here ts p ?l, C : hd_ok ?c ?l |- _ => eapply (wpx_look_ces_cls ts L c); [exact H|exact C|reflexivity|]
    end
  | |- wpx (peek ?ts) ?p _ _ =>
    match goal with
    | H : here ts p (_ :: _) |- _ => eapply (wpx_peek ts L); [exact H|]; cbv beta iota
    | H : here ts p [] |- _ => eapply (wpx_peek ts L); [exact H|]; cbv beta iota
    end
  | |- wpx (prev_end ?ts) ?p _ _ =>
    match goal with H : here ts p _ |- _ => eapply (wpx_prev_end ts); [exact H|lia|intros ?e] end
  | |- wpx (perr _) _ _ _ => apply wpx_err; intros ?
  | |- wpx (deepest_unpack _) _ _ _ => apply wpx_deepest_unpack; intros ?
  | |- wpx (pthrow _) _ _ _ => apply wpx_throw
  | |- wpx (psub _ _) _ _ _ => apply wpx_psub; [try lia|]
  | |- wpx (unwrap_p (Some _)) _ _ _ => apply wpx_unwrap
  | |- wpx (if true then _ else _) _ _ _ => cbv iota
  | |- wpx (if false then _ else _) _ _ _ => cbv iota
  | |- wpx (match ?x with _ => _ end) _ _ _ => progress (cbv beta iota)
  | |- wpx (let x := _ in _) _ _ _ => cbv zeta
  end.
Ltac px L := next_here L; repeat (px1 L; cbv beta).

Section Names.
Variable toks : list tokspan.
Hypothesis Late : Forall (fun t : tokspan => 2 <= sp_start (snd t)) (skipn 4 toks).
Notation here := (here toks).

(** ** Names *)
Fixpoint frag_tokens (l : list str) : list token :=
  match l with
  | [] => []
  | [a] => [TString a]
  | a :: r => TString a :: Kw KNsSeparator :: frag_tokens r
  end.
Definition no_sep : token -> bool := fun t => negb (tok_in [KNsSeparator] t).
Lemma ns_run fs : fs <> [] -> forall n acc p l, here p (frag_tokens fs ++ l) -> hd_ok no_sep l -> List.length fs <= n ->
  wpx (ns_fragments toks n acc) p
    (fun r q => here q l /\ p < q /\ exists xs, r = acc ++ xs /\ map fst xs = fs /\ Forall (fun x => 2 <= sp_start (snd x)) xs) nofail.
Proof.
  induction fs as [|a fs IH]; intros NE n acc p l H C L; [congruence|]. destruct n as [|n]; [cbn in L; lia|].
  destruct fs as [|b fs].
  - cbn [frag_tokens app] in H. cbn [ns_fragments]. px Late.
    split; [assumption|]. split; [lia|]. exists [(a, sp_at toks p)]. cbn. repeat constructor. exact HB.
  - change (frag_tokens (a :: b :: fs) ++ l) with (TString a :: Kw KNsSeparator :: frag_tokens (b :: fs) ++ l) in H.
    cbn [ns_fragments]. px Late.
    assert (X : exists rest, frag_tokens (b :: fs) ++ l = TString b :: rest) by (destruct fs; cbn; eauto).
    destruct X as (rest & X). rewrite X in HS0. px Late.
    rewrite <- X in HS0. eapply wpx_use; [apply (IH ltac:(discriminate) n _ _ l HS0 C); cbn in *; lia|].
    intros r q (H1 & H2 & xs & -> & M & F). split; [assumption|]. split; [lia|].
    exists ((a, sp_at toks p) :: xs). rewrite <- app_assoc. cbn. split; [reflexivity|]. split; [congruence|]. constructor; auto.
Qed.
Definition name_q (pa : path) (p : nat) (l : list token) : path * span -> nat -> Prop :=
  fun r q => here q l /\ p < q /\ fst r = pa /\ 1 <= sp_start (snd r).
Lemma frag_len fs l p : here p (frag_tokens fs ++ l) -> List.length fs <= lf toks.
Proof.
  intros [H _]. rewrite app_length in H. unfold lf.
  assert (List.length fs <= List.length (frag_tokens fs)); [|lia]. clear. induction fs as [|a [|b fs] IH]; cbn in *; lia.
Qed.
Lemma namespace_run fs p l : fs <> [] -> here p (frag_tokens fs ++ l) -> hd_ok no_sep l ->
  wpx (parse_namespace_name toks) p
   (fun r q => here q l /\ p < q /\ fst r = path_of false fs /\ 2 <= sp_start (snd r)) nofail.
Proof.
  intros NE H C. unfold parse_namespace_name. px Late. eapply wpx_use; [apply (ns_run fs NE (lf toks) [] p l H C)|].
  { eapply frag_len; eauto. }
  intros r q (H1 & H2 & xs & E & M & F). cbn in E. subst r. px Late. split; [assumption|]. split; [assumption|].
  assert (XN : xs <> []) by (intros ->; cbn in M; congruence).
  split; [cbn [fst]; rewrite path_of_fragments_spec by auto; rewrite M; reflexivity|].
  destruct xs as [|x xs]; [congruence|]. inversion F; subst. exact H4.
Qed.
Definition abs_tokens (abs : bool) : list token := if abs then [Kw KNsSeparator] else [].
Definition path_toks (abs : bool) (fs : list str) : list token := abs_tokens abs ++ frag_tokens fs.
Lemma frag_head fs l : fs <> [] -> exists a r, frag_tokens fs ++ l = TString a :: r.
Proof. destruct fs as [|a [|b fs]]; intros; [congruence|..]; cbn; eauto. Qed.
Lemma path_of_abs fs : mkPath true (namespace (path_of false fs)) (identifier (path_of false fs)) = path_of true fs.
Proof. reflexivity. Qed.
Lemma name_run abs fs p l : fs <> [] -> here p (path_toks abs fs ++ l) -> hd_ok no_sep l ->
  wpx (parse_name toks) p (name_q (path_of abs fs) p l) nofail.
Proof.
  intros NE H C. unfold path_toks in H. rewrite <- app_assoc in H. unfold parse_name, name_q.
  destruct (frag_head fs l NE) as (a & rest & X). destruct abs; cbn [abs_tokens app] in H.
  - px Late. eapply wpx_use; [apply (namespace_run fs _ l NE HS C)|]. intros r q (H1 & H2 & H3 & H4).
    px Late. split; [assumption|]. split; [lia|]. split; [cbn; rewrite H3; apply path_of_abs|]. cbn. lia.
  - rewrite X in H. px Late. rewrite <- X in H. eapply wpx_use; [apply (namespace_run fs _ l NE H C)|]. intros r q (H1 & H2 & H3 & H4).
    px Late. split; [assumption|]. split; [lia|]. split; [exact H3|lia].
Qed.
(** a name does not start here *)
Definition no_name (t : token) : bool := match t with TString _ | Kw KNsSeparator => false | _ => true end.
Lemma name_fail p l : here p l -> hd_ok no_name l -> wpx (parse_name toks) p (fun _ _ => False) (fun _ q => q = p).
Proof.
  intros H C. unfold parse_name, parse_namespace_name. px Late. unfold lf. cbn [ns_fragments]. px Late. reflexivity.
Qed.
End Names.
