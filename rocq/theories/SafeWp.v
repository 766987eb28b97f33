(** * SafeWp: parser functions that do not panic (proofs for C44) *)
From Verif Require Import Base Tokens Ast Parser Wp SpecGrammar SpecPanic.
From Coq Require Import Lia.
Local Open Scope list_scope.

(** [m] started at [p] does not panic; its results satisfy [Q], its errors [E]. *)
Definition wps {A} (m : P A) (p : nat) (Q : A -> nat -> Prop) (E : perror -> nat -> Prop) : Prop :=
  match m p with
  | POk a p' => Q a p'
  | PErr e p' => E e p'
  | PPanic _ => False
  | PFuel => True
  end.
Lemma wps_use {A} (m : P A) p (Q Q' : A -> nat -> Prop) (E E' : perror -> nat -> Prop) :
  wps m p Q E -> (forall a p', Q a p' -> Q' a p') -> (forall e p', E e p' -> E' e p') -> wps m p Q' E'.
Proof. unfold wps. destruct (m p); auto. Qed.
Lemma wps_and {A} (m : P A) p (Q Q' : A -> nat -> Prop) (E E' : perror -> nat -> Prop) :
  wps m p Q E -> wps m p Q' E' -> wps m p (fun a q => Q a q /\ Q' a q) (fun e q => E e q /\ E' e q).
Proof. unfold wps. destruct (m p); auto. Qed.
Lemma wps_catch {A B} (m : P A) (ok : A -> P B) er p Q E :
  wps m p (fun a p' => wps (ok a) p' Q E) (fun e p' => wps (er e) p' Q E) -> wps (pcatch m ok er) p Q E.
Proof. unfold wps, pcatch. destruct (m p); auto. Qed.
Lemma wps_bind {A B} (m : P A) (k : A -> P B) p Q E :
  wps m p (fun a p' => wps (k a) p' Q E) E -> wps (pbind m k) p Q E.
Proof. unfold wps, pbind, pcatch, pthrow. destruct (m p); auto. Qed.
Lemma wps_ret {A} (a : A) p (Q : A -> nat -> Prop) E : Q a p -> wps (pret a) p Q E.
Proof. auto. Qed.
Lemma wps_err {A} ts p (Q : A -> nat -> Prop) (E : perror -> nat -> Prop) : E (mkErr ts p) p -> wps (perr ts) p Q E.
Proof. auto. Qed.
Lemma wps_throw {A} e p (Q : A -> nat -> Prop) (E : perror -> nat -> Prop) : E e p -> wps (pthrow e) p Q E.
Proof. auto. Qed.
Lemma wps_fuel {A} p (Q : A -> nat -> Prop) E : wps pfuel p Q E.
Proof. exact I. Qed.
Lemma wps_getpos p (Q : nat -> nat -> Prop) E : Q p p -> wps getpos p Q E.
Proof. auto. Qed.
Lemma wps_setpos q p (Q : unit -> nat -> Prop) E : Q tt q -> wps (setpos q) p Q E.
Proof. auto. Qed.
Lemma wps_adv p (Q : unit -> nat -> Prop) E : Q tt (S p) -> wps adv p Q E.
Proof. auto. Qed.
Lemma wps_psub a b p (Q : nat -> nat -> Prop) E : b <= a -> Q (a - b) p -> wps (psub a b) p Q E.
Proof. unfold psub. destruct (Nat.leb_spec b a); intros; [apply wps_ret; auto|lia]. Qed.
Lemma wps_deepest {A} d (m : P A) k p Q E :
  wps m p Q (fun e p' => wps (k (deep_upd d e)) p' Q E) -> wps (deepest d m k) p Q E.
Proof. intros H. apply wps_catch. exact H. Qed.
Lemma wps_deepest_unpack {A} d p (Q : A -> nat -> Prop) (E : perror -> nat -> Prop) :
  (forall e, E e p) -> wps (deepest_unpack d) p Q E.
Proof. intros H. destruct d as [[? ?]|]; unfold wps; cbn; auto. Qed.
Lemma skip_skip {A} (l : list A) : forall a b, skipn a (skipn b l) = skipn (b + a) l.
Proof. induction l as [|x l IH]; intros a b; [rewrite !skipn_nil; reflexivity|]. destruct b; [reflexivity|]. apply IH. Qed.

Section Toks.
Variable toks : list tokspan.
Notation len := (List.length toks).

Lemma wps_peek p (Q : option tokspan -> nat -> Prop) E : Q (nth_error toks p) p -> wps (peek toks) p Q E.
Proof. auto. Qed.
Lemma wps_span_at i p (Q : span -> nat -> Prop) E : i < len -> (forall sp, Q sp p) -> wps (span_at toks i) p Q E.
Proof. intros L H. unfold span_at. destruct (nth_error toks i) eqn:N; [apply wps_ret; auto|]. apply nth_error_None in N. lia. Qed.
Lemma wps_prev_end p (Q : nat -> nat -> Prop) E : 1 <= p -> p <= len -> (forall n, Q n p) -> wps (prev_end toks) p Q E.
Proof.
  intros A B H. unfold prev_end. apply wps_bind, wps_getpos, wps_bind, wps_psub; [lia|].
  apply wps_bind, wps_span_at; [lia|]. intros sp. apply wps_ret. auto.
Qed.
Lemma wps_look' {A} k (yes : span -> P A) no p Q E :
  (forall sp, nth_error toks p = Some (Kw k, sp) -> p < len -> wps (yes sp) (S p) Q E) ->
  ((forall sp, nth_error toks p <> Some (Kw k, sp)) -> wps no p Q E) -> wps (look toks k yes no) p Q E.
Proof.
  intros Y N. unfold look. apply wps_bind, wps_peek. destruct (nth_error toks p) as [[[k'| | | | | | | |] sp]|] eqn:T; try (apply N; congruence).
  destruct (kind_eqb k k') eqn:K.
  - apply kind_eqb_eq in K. subst. apply wps_bind, wps_adv. apply Y; auto. eapply nth_lt; eauto.
  - apply N. intros sp' X. injection X as X _. subst. rewrite kind_eqb_refl in K. discriminate.
Qed.
Lemma wps_look {A} k (yes : span -> P A) no p Q E :
  (forall sp, nth_error toks p = Some (Kw k, sp) -> p < len -> wps (yes sp) (S p) Q E) ->
  wps no p Q E -> wps (look toks k yes no) p Q E.
Proof. intros Y N. apply wps_look'; auto. Qed.
Lemma wps_look_var {A} (yes : str -> span -> P A) no p Q E :
  (forall s sp, nth_error toks p = Some (TVariable s, sp) -> p < len -> wps (yes s sp) (S p) Q E) ->
  wps no p Q E -> wps (look_var toks yes no) p Q E.
Proof.
  intros Y N. unfold look_var. apply wps_bind, wps_peek. destruct (nth_error toks p) as [[[k'| | | | | | | |] sp]|] eqn:T; auto.
  apply wps_bind, wps_adv. apply Y; auto. eapply nth_lt; eauto.
Qed.
Lemma wps_look_string' {A} (yes : str -> span -> P A) no p Q E :
  (forall s sp, nth_error toks p = Some (TString s, sp) -> p < len -> wps (yes s sp) (S p) Q E) ->
  ((forall s sp, nth_error toks p <> Some (TString s, sp)) -> wps no p Q E) -> wps (look_string toks yes no) p Q E.
Proof.
  intros Y N. unfold look_string. apply wps_bind, wps_peek. destruct (nth_error toks p) as [[[k'| | | | | | | |] sp]|] eqn:T; try (apply N; congruence).
  apply wps_bind, wps_adv. apply Y; auto. eapply nth_lt; eauto.
Qed.
Lemma wps_look_string {A} (yes : str -> span -> P A) no p Q E :
  (forall s sp, nth_error toks p = Some (TString s, sp) -> p < len -> wps (yes s sp) (S p) Q E) ->
  wps no p Q E -> wps (look_string toks yes no) p Q E.
Proof. intros Y N. apply wps_look_string'; auto. Qed.
Lemma wps_look_ces' {A} (yes : str -> span -> P A) no p Q E :
  (forall s sp, nth_error toks p = Some (TCes s, sp) -> p < len -> wps (yes s sp) (S p) Q E) ->
  ((forall s sp, nth_error toks p <> Some (TCes s, sp)) -> wps no p Q E) -> wps (look_ces toks yes no) p Q E.
Proof.
  intros Y N. unfold look_ces. apply wps_bind, wps_peek. destruct (nth_error toks p) as [[[k'| | | | | | | |] sp]|] eqn:T; try (apply N; congruence).
  apply wps_bind, wps_adv. apply Y; auto. eapply nth_lt; eauto.
Qed.
Lemma wps_look_ces {A} (yes : str -> span -> P A) no p Q E :
  (forall s sp, nth_error toks p = Some (TCes s, sp) -> p < len -> wps (yes s sp) (S p) Q E) ->
  wps no p Q E -> wps (look_ces toks yes no) p Q E.
Proof. intros Y N. apply wps_look_ces'; auto. Qed.
Lemma wps_sees k p (Q : bool -> nat -> Prop) E :
  (forall sp, nth_error toks p = Some (Kw k, sp) -> p < len -> Q true p) -> Q false p -> wps (sees toks k) p Q E.
Proof.
  intros Y N. unfold sees. apply wps_bind, wps_peek.
  destruct (nth_error toks p) as [[[k'| | | | | | | |] sp]|] eqn:T; apply wps_ret; auto.
  destruct (kind_eqb k k') eqn:K; [|auto]. apply kind_eqb_eq in K. subst. eapply Y; eauto. eapply nth_lt; eauto.
Qed.

(** ** The tokens between two positions *)
Definition tl (p : nat) : list token := skipn p (map fst toks).
Lemma tl_cons p t sp : nth_error toks p = Some (t, sp) -> tl p = t :: tl (S p).
Proof.
  unfold tl. revert p. induction toks as [|x l IH]; intros [|p] H; try discriminate.
  - injection H as ->. reflexivity.
  - exact (IH p H).
Qed.
Lemma tl_split p : map fst toks = firstn p (map fst toks) ++ tl p.
Proof. symmetry. apply firstn_skipn. Qed.
Lemma tl_nil : tl len = [].
Proof. unfold tl. apply skipn_all2. rewrite map_length. auto. Qed.
Lemma nth_in p t sp : nth_error toks p = Some (t, sp) -> In t (map fst toks).
Proof. intros H. apply nth_error_In in H. apply (in_map fst) in H. exact H. Qed.
(** tokens [p] to [q] *)
Definition seg (p q : nat) : list token := firstn (q - p) (tl p).
Lemma seg_tl p q : p <= q -> tl p = seg p q ++ tl q.
Proof.
  intros L. unfold seg, tl. rewrite <- (firstn_skipn (q - p) (skipn p (map fst toks))) at 1. f_equal.
  rewrite skip_skip. f_equal. lia.
Qed.
Lemma seg_nil p : seg p p = [].
Proof. unfold seg. rewrite Nat.sub_diag. reflexivity. Qed.
Lemma seg_app p q r : p <= q -> q <= r -> seg p r = seg p q ++ seg q r.
Proof.
  intros A B. unfold seg. rewrite (seg_tl p q A) at 1. rewrite firstn_app.
  assert (L : List.length (seg p q) = Nat.min (q - p) (List.length (tl p))) by apply firstn_length.
  destruct (Nat.le_gt_cases (q - p) (List.length (tl p))) as [C|C].
  - rewrite firstn_all2 by lia. fold (seg p q). f_equal. f_equal. lia.
  - assert (Z : tl q = []).
    { unfold tl in *. rewrite skipn_length in C. apply skipn_all2. lia. }
    rewrite firstn_all2 by lia. fold (seg p q). rewrite Z, !firstn_nil. reflexivity.
Qed.
Lemma seg_S p q t sp : p <= q -> nth_error toks q = Some (t, sp) -> seg p (S q) = seg p q ++ [t].
Proof.
  intros L N. rewrite (seg_app p q (S q)) by lia. f_equal. unfold seg. replace (S q - q) with 1 by lia. rewrite (tl_cons q t sp N). reflexivity.
Qed.
Lemma seg_one q t sp : nth_error toks q = Some (t, sp) -> seg q (S q) = [t].
Proof. intros N. rewrite (seg_S q q t sp) by auto. rewrite seg_nil. reflexivity. Qed.
Lemma seg_cons p q t sp : p < q -> nth_error toks p = Some (t, sp) -> seg p q = t :: seg (S p) q.
Proof. intros L N. rewrite (seg_app p (S p) q) by lia. rewrite (seg_one p t sp N). reflexivity. Qed.
Lemma seg_whole p q : p <= q -> map fst toks = firstn p (map fst toks) ++ seg p q ++ tl q.
Proof. intros L. rewrite <- seg_tl by exact L. apply tl_split. Qed.

(** ** Steps *)
Definition held (n : nat) (ts : list token) : Prop :=
  (forall u v, ts = u ++ v -> count KParenthesesClose u <= count KParenthesesOpen u) /\
  count KParenthesesClose ts + n <= count KParenthesesOpen ts.
Lemma count_app k a b : count k (a ++ b) = count k a + count k b.
Proof. unfold count. rewrite filter_app, app_length. reflexivity. Qed.
Lemma app_split {A} (a b u v : list A) : a ++ b = u ++ v -> (exists x, a = u ++ x /\ v = x ++ b) \/ (exists x, u = a ++ x /\ b = x ++ v).
Proof.
  revert u. induction a as [|y a IH]; intros u H.
  - right. exists u. auto.
  - destruct u as [|z u].
    + left. exists (y :: a). auto.
    + injection H as -> H. destruct (IH u H) as [(x & -> & ->)|(x & -> & ->)]; [left|right]; exists x; auto.
Qed.
Lemma held_app n m a b : held n a -> held m b -> held (n + m) (a ++ b).
Proof.
  intros [A1 A2] [B1 B2]. split.
  - intros u v H. destruct (app_split _ _ _ _ H) as [(x & -> & _)|(x & -> & ->)]; [eapply A1; reflexivity|].
    rewrite !count_app. specialize (B1 x v eq_refl). lia.
  - rewrite !count_app. lia.
Qed.
Lemma held_nil : held 0 [].
Proof. split; [|cbn; lia]. intros u v H. symmetry in H. apply app_eq_nil in H as [-> _]. cbn. lia. Qed.
Lemma held_weak n a : held n a -> held 0 a.
Proof. intros [A B]. split; [exact A|lia]. Qed.
Lemma held_one n a t : held n a -> is KParenthesesClose t = false -> held n (a ++ [t]).
Proof.
  intros H T. replace n with (n + 0) by lia. apply held_app; [exact H|]. split.
  - intros u v E. destruct u as [|x [|]]; [cbn; lia| |discriminate]. injection E as <- _. unfold count. cbn. rewrite T. cbn. lia.
  - unfold count. cbn. rewrite T. cbn. lia.
Qed.
Lemma held_open n a : held n a -> held (S n) (a ++ [Kw KParenthesesOpen]).
Proof.
  intros [A B]. split.
  - intros u v E. destruct (app_split _ _ _ _ E) as [(x & -> & _)|(x & -> & E')]; [eapply A; reflexivity|].
    destruct x as [|y [|]]; [rewrite app_nil_r; lia| |discriminate]. injection E' as <- _. rewrite !count_app. unfold count at 2 4. cbn. lia.
  - rewrite !count_app. unfold count at 2 4. cbn. lia.
Qed.
Lemma held_close n a : held (S n) a -> held n (a ++ [Kw KParenthesesClose]).
Proof.
  intros [A B]. split.
  - intros u v E. destruct (app_split _ _ _ _ E) as [(x & -> & _)|(x & -> & E')]; [eapply A; reflexivity|].
    destruct x as [|y [|]]; [rewrite app_nil_r; lia| |discriminate]. injection E' as <- _. rewrite !count_app. unfold count at 2 4. cbn. lia.
  - rewrite !count_app. unfold count at 2 4. cbn. lia.
Qed.
Lemma unbroken_app a b : unbroken a -> unbroken b -> unbroken (a ++ b).
Proof.
  intros A B u v H. destruct (app_split _ _ _ _ H) as [(x & E & Hx)|(x & -> & E)].
  - destruct x as [|t x]; [|injection Hx as <- _; exact (A u x E)]. destruct (B [] v). symmetry. exact Hx.
  - apply in_or_app. right. exact (B x v E).
Qed.
Lemma unbroken_nil : unbroken [].
Proof. intros [|] v H; discriminate. Qed.
Lemma unbroken_one t : t <> Kw KSemiColon -> unbroken [t].
Proof. intros N [|x [|]] v H; try discriminate. injection H as H _. contradiction. Qed.
Lemma unbroken_function b : unbroken (Kw KFunction :: b).
Proof. intros [|x u] v H; [discriminate|]. injection H as <- _. left. reflexivity. Qed.

(** from [p] to [q]: parentheses are closed only behind their opening, [n] are still
    open; with [b] there is no semicolon outside of a closure *)
Definition path (b : bool) (p q n : nat) : Prop :=
  p <= q /\ q <= len /\ held n (seg p q) /\ (b = true -> unbroken (seg p q)).
Lemma path_refl b p : p <= len -> path b p p 0.
Proof. intros L. split; [lia|]. split; [exact L|]. rewrite seg_nil. split; [apply held_nil|intros _; apply unbroken_nil]. Qed.
Lemma path_tok b p q n t sp : path b p q n -> nth_error toks q = Some (t, sp) ->
  is KParenthesesClose t = false -> t <> Kw KSemiColon -> path b p (S q) n.
Proof.
  intros (A & B & C & D) N T S'. pose proof (nth_lt _ _ _ N). split; [lia|]. split; [lia|]. rewrite (seg_S p q t sp) by auto.
  split; [apply held_one; auto|]. intros E. apply unbroken_app; [auto|apply unbroken_one, S'].
Qed.
Lemma path_open b p q n sp : path b p q n -> nth_error toks q = Some (Kw KParenthesesOpen, sp) -> path b p (S q) (S n).
Proof.
  intros (A & B & C & D) N. pose proof (nth_lt _ _ _ N). split; [lia|]. split; [lia|]. rewrite (seg_S p q _ sp) by eauto.
  split; [apply held_open; auto|]. intros E. apply unbroken_app; [auto|apply unbroken_one; discriminate].
Qed.
Lemma path_close b p q n sp : path b p q (S n) -> nth_error toks q = Some (Kw KParenthesesClose, sp) -> path b p (S q) n.
Proof.
  intros (A & B & C & D) N. pose proof (nth_lt _ _ _ N). split; [lia|]. split; [lia|]. rewrite (seg_S p q _ sp) by eauto.
  split; [apply held_close; auto|]. intros E. apply unbroken_app; [auto|apply unbroken_one; discriminate].
Qed.
Lemma path_semi p q n sp : path false p q n -> nth_error toks q = Some (Kw KSemiColon, sp) -> path false p (S q) n.
Proof.
  intros (A & B & C & D) N. pose proof (nth_lt _ _ _ N). split; [lia|]. split; [lia|]. rewrite (seg_S p q _ sp) by eauto.
  split; [apply held_one; auto|discriminate].
Qed.
Lemma path_sub b p q n r : path b p q n -> path true q r 0 -> path b p r n.
Proof.
  intros (A & B & C & D) (A' & B' & C' & D'). split; [lia|]. split; [lia|]. rewrite (seg_app p q r) by auto.
  split; [replace n with (n + 0) by lia; apply held_app; auto|]. intros E. apply unbroken_app; auto.
Qed.
Lemma path_subf p q n r b : path false p q n -> path b q r 0 -> path false p r n.
Proof.
  intros (A & B & C & D) (A' & B' & C' & D'). split; [lia|]. split; [lia|]. rewrite (seg_app p q r) by auto.
  split; [replace n with (n + 0) by lia; apply held_app; auto|discriminate].
Qed.
Lemma path_fun b p q n r sp : path b p q n -> nth_error toks q = Some (Kw KFunction, sp) -> path false (S q) r 0 -> path b p r n.
Proof.
  intros (A & B & C & D) N (A' & B' & C' & D'). split; [lia|]. split; [lia|]. rewrite (seg_app p q r) by lia. rewrite (seg_cons q r (Kw KFunction) sp) by (assumption || lia).
  split; [replace n with (n + 0) by lia; apply held_app; [auto|]|].
  - change (Kw KFunction :: seg (S q) r) with ([Kw KFunction] ++ seg (S q) r). apply (held_app 0 0); [|exact C'].
    apply (held_one 0 []); [apply held_nil|reflexivity].
  - intros E. apply unbroken_app; [auto|apply unbroken_function].
Qed.
Lemma path_weak b p q n : path b p q n -> path b p q 0.
Proof. intros (A & B & C & D). split; [exact A|]. split; [exact B|]. split; [eapply held_weak; eauto|exact D]. Qed.
Lemma path_false b p q n : path b p q n -> path false p q 0.
Proof. intros (A & B & C & D). split; [exact A|]. split; [exact B|]. split; [eapply held_weak; eauto|discriminate]. Qed.
Lemma path_le b p q n : path b p q n -> p <= q /\ q <= len.
Proof. intros (A & B & _). auto. Qed.
End Toks.
