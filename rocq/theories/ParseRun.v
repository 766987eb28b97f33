(** * ParseRun: running the parser on token lists that are known in part

    [wpx m p Q E]: at position [p] the parser [m] neither panics nor runs out of fuel;
    its result satisfies [Q], its error [E].  [here p l]: the tokens from [p] on are [l]. *)
From Verif Require Import Base Tokens Ast AstMap AstInd Lexer Parser Driver Wp ParserTermination ParserMono.
From Coq Require Import String.

Definition wpx {A} (m : P A) (p : nat) (Q : A -> nat -> Prop) (E : perror -> nat -> Prop) : Prop :=
  match m p with POk a q => Q a q | PErr e q => E e q | _ => False end.
Definition nofail : perror -> nat -> Prop := fun _ _ => False.

Lemma wpx_mono {A} (m : P A) p (Q Q' : A -> nat -> Prop) (E E' : perror -> nat -> Prop) :
  wpx m p Q E -> (forall a q, Q a q -> Q' a q) -> (forall e q, E e q -> E' e q) -> wpx m p Q' E'.
Proof. unfold wpx. destruct (m p); auto. Qed.
Lemma wpx_use {A} (m : P A) p (Q Q' : A -> nat -> Prop) E' :
  wpx m p Q nofail -> (forall a q, Q a q -> Q' a q) -> wpx m p Q' E'.
Proof. intros H K. eapply wpx_mono; eauto. intros e q []. Qed.
Lemma wpx_ret {A} (a : A) p (Q : A -> nat -> Prop) E : Q a p -> wpx (pret a) p Q E.
Proof. exact (fun h => h). Qed.
Lemma wpx_bind {A B} (m : P A) (k : A -> P B) p Q E :
  wpx m p (fun a q => wpx (k a) q Q E) E -> wpx (pbind m k) p Q E.
Proof. unfold wpx, pbind, pcatch. destruct (m p); auto. Qed.
Lemma wpx_catch {A B} (m : P A) (ok : A -> P B) er p Q E :
  wpx m p (fun a q => wpx (ok a) q Q E) (fun e q => wpx (er e) q Q E) -> wpx (pcatch m ok er) p Q E.
Proof. unfold wpx, pcatch. destruct (m p); auto. Qed.
Lemma wpx_deepest {A} d (m : P A) k p Q E :
  wpx m p Q (fun e q => wpx (k (deep_upd d e)) q Q E) -> wpx (deepest d m k) p Q E.
Proof. intros H. unfold deepest. apply wpx_catch. eapply wpx_mono; [exact H| |]; auto. Qed.
Lemma wpx_deepest_unpack {A} d p (Q : A -> nat -> Prop) (E : perror -> nat -> Prop) : (forall e, E e p) -> wpx (deepest_unpack d) p Q E.
Proof. unfold deepest_unpack. destruct d as [[]|]; intros H; apply H. Qed.
Lemma wpx_err {A} ts p (Q : A -> nat -> Prop) (E : perror -> nat -> Prop) : (forall e, E e p) -> wpx (perr ts) p Q E.
Proof. intros H. apply H. Qed.
Lemma wpx_throw {A} e p (Q : A -> nat -> Prop) (E : perror -> nat -> Prop) : E e p -> wpx (pthrow e) p Q E.
Proof. exact (fun h => h). Qed.
Lemma wpx_getpos p (Q : nat -> nat -> Prop) E : Q p p -> wpx getpos p Q E.
Proof. exact (fun h => h). Qed.
Lemma wpx_setpos x p (Q : unit -> nat -> Prop) E : Q tt x -> wpx (setpos x) p Q E.
Proof. exact (fun h => h). Qed.
Lemma wpx_adv p (Q : unit -> nat -> Prop) E : Q tt (S p) -> wpx adv p Q E.
Proof. exact (fun h => h). Qed.
Lemma wpx_psub a b p (Q : nat -> nat -> Prop) E : b <= a -> Q (a - b) p -> wpx (psub a b) p Q E.
Proof. intros L H. unfold psub. destruct (Nat.leb_spec b a); [exact H|lia]. Qed.
Lemma wpx_unwrap {A} (a : A) p (Q : A -> nat -> Prop) E : Q a p -> wpx (unwrap_p (Some a)) p Q E.
Proof. exact (fun h => h). Qed.

Section Run.
Variable toks : list tokspan.
Notation len := (List.length toks).
(** positions are not in the first two bytes (as after an opening tag), except perhaps
    for up to four tokens that stand for HTML and an opening tag with echo at the very
    beginning; these are behind [p] *)
Hypothesis Late : Forall (fun t : tokspan => 2 <= sp_start (snd t)) (skipn 4 toks).

Definition here (p : nat) (l : list token) : Prop :=
  p + List.length l = len /\ map fst (skipn p toks) = l /\
  (4 <= p \/ Forall (fun t : tokspan => 2 <= sp_start (snd t)) (skipn p toks)).
Lemma late_next p : Forall (fun t : tokspan => 2 <= sp_start (snd t)) (skipn p toks) -> Forall (fun t : tokspan => 2 <= sp_start (snd t)) (skipn (S p) toks).
Proof. clear. revert p. induction toks as [|a l IH]; intros p H; [constructor|]. destruct p as [|p]; [inversion H; assumption|exact (IH p H)]. Qed.
Definition sp_at (p : nat) : span := match nth_error toks p with Some t => snd t | None => span_new end.

Lemma here_cons p t l : here p (t :: l) -> nth_error toks p = Some (t, sp_at p) /\ here (S p) l /\ 2 <= sp_start (sp_at p).
Proof.
  intros (L & H & B). unfold here, sp_at.
  assert (X : exists u, nth_error toks p = Some u /\ fst u = t /\ map fst (skipn (S p) toks) = l).
  { clear L Late B. revert p H. induction toks as [|u us IH]; intros [|p] H; try discriminate.
    - cbn in H. injection H as H1 H2. exists u. auto.
    - cbn [skipn] in H. destruct (IH p H) as (v & V & W). exists v. auto. }
  destruct X as (u & U & V & W). rewrite U. destruct u as [t' sp]. cbn in V. subst t'. cbn [snd].
  split; [reflexivity|]. split; [split; [cbn in L; lia|split; [exact W|destruct B as [B|B]; [left; lia|right; apply late_next; exact B]]]|].
  destruct B as [B|B].
  - assert (X : nth_error (skipn 4 toks) (p - 4) = Some (t, sp)).
    { etransitivity; [|exact U]. replace (nth_error toks p) with (nth_error toks (4 + (p - 4))) by (f_equal; lia). generalize (p - 4). clear. intros n. destruct toks as [|a [|b [|c [|d l]]]]; destruct n; reflexivity. }
    rewrite Forall_forall in Late. apply nth_error_In in X. exact (Late _ X).
  - rewrite Forall_forall in B. assert (X : nth_error (skipn p toks) 0 = Some (t, sp)).
    { etransitivity; [|exact U]. clear. revert p. induction toks as [|a l IH]; intros [|p]; try reflexivity. apply IH. }
    apply nth_error_In in X. exact (B _ X).
Qed.
Lemma here_nil p : here p [] -> nth_error toks p = None.
Proof. intros [L _]. cbn in L. apply nth_error_None. lia. Qed.
Lemma here_nth p l : here p l -> nth_error toks p = match l with t :: _ => Some (t, sp_at p) | [] => None end.
Proof. destruct l; intros H; [apply here_nil|apply here_cons in H]; tauto. Qed.
Lemma here_app p l l' : here p (l ++ l') -> here (p + List.length l) l'.
Proof.
  revert p. induction l as [|t l IH]; intros p H; cbn in *; [replace (p + 0) with p by lia; auto|].
  apply here_cons in H. destruct H as (_ & H & _). apply IH in H. replace (p + S (List.length l)) with (S p + List.length l) by lia. exact H.
Qed.
Lemma here_le p l : here p l -> p <= len.
Proof. intros [L _]. lia. Qed.
Lemma here_len p l : here p l -> len - p = List.length l.
Proof. intros [L _]. lia. Qed.
Lemma here_same p q l l' : here p (l ++ l') -> here q l' -> q = p + List.length l.
Proof. intros [L _] [L' _]. rewrite app_length in L. lia. Qed.

Lemma wpx_peek p l (Q : option tokspan -> nat -> Prop) E : here p l ->
  Q (match l with t :: _ => Some (t, sp_at p) | [] => None end) p -> wpx (peek toks) p Q E.
Proof. intros H K. unfold wpx, peek. rewrite (here_nth p l H). exact K. Qed.
Lemma wpx_sees k p l (Q : bool -> nat -> Prop) E : here p l ->
  Q (match l with Kw k' :: _ => kind_eqb k k' | _ => false end) p -> wpx (sees toks k) p Q E.
Proof.
  intros H K. unfold sees. apply wpx_bind. eapply wpx_peek; [exact H|]. destruct l as [|[] l]; exact K.
Qed.
Lemma wpx_look {A} k (yes : span -> P A) no p l Q E : here p l ->
  match l with
  | Kw k' :: _ => if kind_eqb k k' then wpx (yes (sp_at p)) (S p) Q E else wpx no p Q E
  | _ => wpx no p Q E
  end -> wpx (look toks k yes no) p Q E.
Proof.
  intros H K. unfold look. apply wpx_bind. eapply wpx_peek; [exact H|]. destruct l as [|[] l]; try exact K.
  destruct (kind_eqb k k0); [|exact K]. apply wpx_bind. apply wpx_adv. exact K.
Qed.
Lemma wpx_look_var {A} (yes : str -> span -> P A) no p l Q E : here p l ->
  match l with TVariable s :: _ => wpx (yes s (sp_at p)) (S p) Q E | _ => wpx no p Q E end -> wpx (look_var toks yes no) p Q E.
Proof.
  intros H K. unfold look_var. apply wpx_bind. eapply wpx_peek; [exact H|]. destruct l as [|[] l]; exact K.
Qed.
Lemma wpx_look_string {A} (yes : str -> span -> P A) no p l Q E : here p l ->
  match l with TString s :: _ => wpx (yes s (sp_at p)) (S p) Q E | _ => wpx no p Q E end -> wpx (look_string toks yes no) p Q E.
Proof.
  intros H K. unfold look_string. apply wpx_bind. eapply wpx_peek; [exact H|]. destruct l as [|[] l]; exact K.
Qed.
Lemma wpx_look_ces {A} (yes : str -> span -> P A) no p l Q E : here p l ->
  match l with TCes s :: _ => wpx (yes s (sp_at p)) (S p) Q E | _ => wpx no p Q E end -> wpx (look_ces toks yes no) p Q E.
Proof.
  intros H K. unfold look_ces. apply wpx_bind. eapply wpx_peek; [exact H|]. destruct l as [|[] l]; exact K.
Qed.
Lemma wpx_expect k p l (Q : span -> nat -> Prop) E : here p (Kw k :: l) -> Q (sp_at p) (S p) -> wpx (expect toks k) p Q E.
Proof.
  intros H K. unfold expect. eapply wpx_look; [exact H|]. cbv beta iota.
  unfold kind_eqb. rewrite N.eqb_refl. exact K.
Qed.
Lemma wpx_span_at i p (Q : span -> nat -> Prop) E : i < len -> (forall sp, Q sp p) -> wpx (span_at toks i) p Q E.
Proof.
  intros L H. unfold span_at. destruct (nth_error toks i) eqn:X; [apply H|]. apply nth_error_None in X. lia.
Qed.
Lemma wpx_prev_end p l (Q : nat -> nat -> Prop) E : here p l -> 1 <= p -> (forall e, Q e p) -> wpx (prev_end toks) p Q E.
Proof.
  intros H L K. unfold prev_end. apply wpx_bind, wpx_getpos, wpx_bind, wpx_psub; [exact L|].
  apply wpx_bind, wpx_span_at; [pose proof (here_le _ _ H); lia|]. intros sp. apply wpx_ret, K.
Qed.

(** ** The knot without fuel *)
Definition PE : nat -> P expr := parse_expression toks (parse_fuel toks).
Definition PS : P stmt := parse_statement toks (parse_fuel toks).
Lemma PE_eq prec p : PE prec p = parse_unary_expression toks PE PS prec p.
Proof.
  unfold PE, PS. set (f := parse_fuel toks).
  change (parse_unary_expression toks (parse_expression toks f) (parse_statement toks f) prec p) with (parse_expression toks (S f) prec p).
  destruct (knot_m toks f (S f)) as [H _]; [lia|]. destruct (H prec p) as [X|X]; [|exact X].
  exfalso. destruct (knot toks f p) as [K _]. specialize (K ltac:(unfold f, parse_fuel; lia) prec).
  unfold strict, wp in K. rewrite X in K. exact K.
Qed.
Lemma PS_eq p : PS p = parse_statement_body toks PE PS p.
Proof.
  unfold PE, PS. set (f := parse_fuel toks).
  change (parse_statement_body toks (parse_expression toks f) (parse_statement toks f) p) with (parse_statement toks (S f) p).
  destruct (knot_m toks f (S f)) as [_ H]; [lia|]. destruct (H p) as [X|X]; [|exact X].
  exfalso. destruct (knot toks f p) as [_ K]. specialize (K ltac:(unfold f, parse_fuel; lia)).
  unfold strict, wp in K. rewrite X in K. exact K.
Qed.
Lemma wpx_PE prec p Q E : wpx (parse_unary_expression toks PE PS prec) p Q E -> wpx (PE prec) p Q E.
Proof. unfold wpx. rewrite PE_eq. auto. Qed.
Lemma wpx_PS p Q E : wpx (parse_statement_body toks PE PS) p Q E -> wpx PS p Q E.
Proof. unfold wpx. rewrite PS_eq. auto. Qed.
End Run.
