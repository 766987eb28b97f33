(** * Wp: weakest preconditions for parser functions *)
From Verif Require Import Base Tokens Ast Parser.

(** [m] started at [p] does not run out of fuel; its results satisfy [Q], its errors [E]. *)
Definition wp {A} (m : P A) (p : nat) (Q : A -> nat -> Prop) (E : perror -> nat -> Prop) : Prop :=
  match m p with
  | POk a p' => Q a p'
  | PErr e p' => E e p'
  | PPanic _ => True
  | PFuel => False
  end.

Lemma wp_mono {A} (m : P A) p (Q Q' : A -> nat -> Prop) (E E' : perror -> nat -> Prop) :
  wp m p Q E -> (forall a p', Q a p' -> Q' a p') -> (forall e p', E e p' -> E' e p') -> wp m p Q' E'.
Proof. unfold wp. destruct (m p); auto. Qed.
Lemma wp_catch {A B} (m : P A) (ok : A -> P B) er p Q E :
  wp m p (fun a p' => wp (ok a) p' Q E) (fun e p' => wp (er e) p' Q E) -> wp (pcatch m ok er) p Q E.
Proof. unfold wp, pcatch. destruct (m p); auto. Qed.
Lemma wp_bind {A B} (m : P A) (k : A -> P B) p Q E :
  wp m p (fun a p' => wp (k a) p' Q E) E -> wp (pbind m k) p Q E.
Proof. unfold wp, pbind, pcatch, pthrow. destruct (m p); auto. Qed.
Lemma wp_ret {A} (a : A) p (Q : A -> nat -> Prop) E : Q a p -> wp (pret a) p Q E.
Proof. auto. Qed.
Lemma wp_err {A} ts p (Q : A -> nat -> Prop) (E : perror -> nat -> Prop) : E (mkErr ts p) p -> wp (perr ts) p Q E.
Proof. auto. Qed.
Lemma wp_throw {A} e p (Q : A -> nat -> Prop) (E : perror -> nat -> Prop) : E e p -> wp (pthrow e) p Q E.
Proof. auto. Qed.
Lemma wp_panic {A} x p (Q : A -> nat -> Prop) E : wp (ppanic x) p Q E.
Proof. exact I. Qed.
Lemma wp_getpos p (Q : nat -> nat -> Prop) E : Q p p -> wp getpos p Q E.
Proof. auto. Qed.
Lemma wp_setpos q p (Q : unit -> nat -> Prop) E : Q tt q -> wp (setpos q) p Q E.
Proof. auto. Qed.
Lemma wp_adv p (Q : unit -> nat -> Prop) E : Q tt (S p) -> wp adv p Q E.
Proof. auto. Qed.
Lemma wp_unwrap {A} (o : option A) p (Q : A -> nat -> Prop) E :
  (forall a, o = Some a -> Q a p) -> wp (unwrap_p o) p Q E.
Proof. destruct o; intros H; [apply wp_ret; auto|apply wp_panic]. Qed.
Lemma wp_psub a b p (Q : nat -> nat -> Prop) E : (b <= a -> Q (a - b) p) -> wp (psub a b) p Q E.
Proof. unfold psub. destruct (Nat.leb_spec b a); intros; [apply wp_ret; auto|apply wp_panic]. Qed.
Lemma wp_deepest {A} d (m : P A) k p Q E :
  wp m p Q (fun e p' => wp (k (deep_upd d e)) p' Q E) -> wp (deepest d m k) p Q E.
Proof. intros H. apply wp_catch. exact H. Qed.
Lemma wp_deepest_unpack {A} d p (Q : A -> nat -> Prop) (E : perror -> nat -> Prop) :
  (forall e, E e p) -> wp (deepest_unpack d) p Q E.
Proof. intros H. destruct d as [[? ?]|]; unfold wp; cbn; auto. Qed.

Section Toks.
Variable toks : list tokspan.
Notation len := (List.length toks).

Lemma kind_eqb_eq a b : kind_eqb a b = true <-> a = b.
Proof.
  unfold kind_eqb. rewrite N.eqb_eq. split; [|congruence].
  destruct a; destruct b; cbn; try reflexivity; discriminate.
Qed.
Lemma kind_eqb_refl a : kind_eqb a a = true.
Proof. apply kind_eqb_eq; reflexivity. Qed.
Lemma nth_lt p (t : tokspan) : nth_error toks p = Some t -> p < len.
Proof. intros H. apply nth_error_Some. congruence. Qed.

Lemma wp_peek p (Q : option tokspan -> nat -> Prop) E : Q (nth_error toks p) p -> wp (peek toks) p Q E.
Proof. auto. Qed.
Lemma wp_span_at i p (Q : span -> nat -> Prop) E :
  (forall t, nth_error toks i = Some t -> Q (snd t) p) -> wp (span_at toks i) p Q E.
Proof. unfold span_at. destruct (nth_error toks i); intros; [apply wp_ret; auto|apply wp_panic]. Qed.
Lemma wp_prev_end p (Q : nat -> nat -> Prop) E : (forall n, Q n p) -> wp (prev_end toks) p Q E.
Proof.
  intros H. unfold prev_end. apply wp_bind, wp_getpos, wp_bind, wp_psub. intros _.
  apply wp_bind, wp_span_at. intros t _. apply wp_ret. auto.
Qed.
Lemma wp_look {A} k (yes : span -> P A) no p Q E :
  (forall sp, nth_error toks p = Some (Kw k, sp) -> p < len -> wp (yes sp) (S p) Q E) ->
  wp no p Q E -> wp (look toks k yes no) p Q E.
Proof.
  intros Y N. unfold look. apply wp_bind, wp_peek. destruct (nth_error toks p) as [[[k'| | | | | | | |] sp]|] eqn:T; auto.
  destruct (kind_eqb k k') eqn:K; auto. apply kind_eqb_eq in K. subst.
  apply wp_bind, wp_adv. apply Y; auto. eapply nth_lt; eauto.
Qed.
Lemma wp_look_var {A} (yes : str -> span -> P A) no p Q E :
  (forall s sp, nth_error toks p = Some (TVariable s, sp) -> p < len -> wp (yes s sp) (S p) Q E) ->
  wp no p Q E -> wp (look_var toks yes no) p Q E.
Proof.
  intros Y N. unfold look_var. apply wp_bind, wp_peek. destruct (nth_error toks p) as [[[k'| | | | | | | |] sp]|] eqn:T; auto.
  apply wp_bind, wp_adv. apply Y; auto. eapply nth_lt; eauto.
Qed.
Lemma wp_look_string {A} (yes : str -> span -> P A) no p Q E :
  (forall s sp, nth_error toks p = Some (TString s, sp) -> p < len -> wp (yes s sp) (S p) Q E) ->
  wp no p Q E -> wp (look_string toks yes no) p Q E.
Proof.
  intros Y N. unfold look_string. apply wp_bind, wp_peek. destruct (nth_error toks p) as [[[k'| | | | | | | |] sp]|] eqn:T; auto.
  apply wp_bind, wp_adv. apply Y; auto. eapply nth_lt; eauto.
Qed.
Lemma wp_look_ces {A} (yes : str -> span -> P A) no p Q E :
  (forall s sp, nth_error toks p = Some (TCes s, sp) -> p < len -> wp (yes s sp) (S p) Q E) ->
  wp no p Q E -> wp (look_ces toks yes no) p Q E.
Proof.
  intros Y N. unfold look_ces. apply wp_bind, wp_peek. destruct (nth_error toks p) as [[[k'| | | | | | | |] sp]|] eqn:T; auto.
  apply wp_bind, wp_adv. apply Y; auto. eapply nth_lt; eauto.
Qed.
Lemma wp_sees k p (Q : bool -> nat -> Prop) E : (forall b, Q b p) -> wp (sees toks k) p Q E.
Proof.
  intros H. unfold sees. apply wp_bind, wp_peek.
  destruct (nth_error toks p) as [[[k'| | | | | | | |] sp]|]; apply wp_ret; auto.
Qed.
End Toks.
