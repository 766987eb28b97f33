(** * Order: the words of the tree are words of the token sequence, in order (C37) *)
From Verif Require Import Base Tokens Ast Parser Wp SpecOrder.

(** a result satisfies [Q], an error [E]; nothing is said about panics and fuel *)
Definition wo {A} (m : P A) (p : nat) (Q : A -> nat -> Prop) (E : perror -> nat -> Prop) : Prop :=
  match m p with
  | POk a p' => Q a p'
  | PErr e p' => E e p'
  | PPanic _ => True
  | PFuel => True
  end.
Lemma wo_mono {A} (m : P A) p (Q Q' : A -> nat -> Prop) (E E' : perror -> nat -> Prop) :
  wo m p Q E -> (forall a p', Q a p' -> Q' a p') -> (forall e p', E e p' -> E' e p') -> wo m p Q' E'.
Proof. unfold wo. destruct (m p); auto. Qed.
Lemma wo_catch {A B} (m : P A) (ok : A -> P B) er p Q E :
  wo m p (fun a p' => wo (ok a) p' Q E) (fun e p' => wo (er e) p' Q E) -> wo (pcatch m ok er) p Q E.
Proof. unfold wo, pcatch. destruct (m p); auto. Qed.
Lemma wo_bind {A B} (m : P A) (k : A -> P B) p Q E :
  wo m p (fun a p' => wo (k a) p' Q E) E -> wo (pbind m k) p Q E.
Proof. unfold wo, pbind, pcatch, pthrow. destruct (m p); auto. Qed.
Lemma wo_ret {A} (a : A) p (Q : A -> nat -> Prop) E : Q a p -> wo (pret a) p Q E.
Proof. auto. Qed.
Lemma wo_err {A} ts p (Q : A -> nat -> Prop) (E : perror -> nat -> Prop) : E (mkErr ts p) p -> wo (perr ts) p Q E.
Proof. auto. Qed.
Lemma wo_throw {A} e p (Q : A -> nat -> Prop) (E : perror -> nat -> Prop) : E e p -> wo (pthrow e) p Q E.
Proof. auto. Qed.
Lemma wo_panic {A} x p (Q : A -> nat -> Prop) E : wo (ppanic x) p Q E.
Proof. exact I. Qed.
Lemma wo_fuel {A} p (Q : A -> nat -> Prop) E : wo pfuel p Q E.
Proof. exact I. Qed.
Lemma wo_getpos p (Q : nat -> nat -> Prop) E : Q p p -> wo getpos p Q E.
Proof. auto. Qed.
Lemma wo_setpos q p (Q : unit -> nat -> Prop) E : Q tt q -> wo (setpos q) p Q E.
Proof. auto. Qed.
Lemma wo_adv p (Q : unit -> nat -> Prop) E : Q tt (S p) -> wo adv p Q E.
Proof. auto. Qed.
Lemma wo_unwrap {A} (o : option A) p (Q : A -> nat -> Prop) E :
  (forall a, o = Some a -> Q a p) -> wo (unwrap_p o) p Q E.
Proof. destruct o; intros H; [apply wo_ret; auto|apply wo_panic]. Qed.
Lemma wo_psub a b p (Q : nat -> nat -> Prop) E : (forall n, Q n p) -> wo (psub a b) p Q E.
Proof. unfold psub. destruct (Nat.leb_spec b a); intros; [apply wo_ret; auto|apply wo_panic]. Qed.
Lemma wo_deepest {A} d (m : P A) k p Q E :
  wo m p Q (fun e p' => wo (k (deep_upd d e)) p' Q E) -> wo (deepest d m k) p Q E.
Proof. intros H. apply wo_catch. exact H. Qed.
Lemma wo_deepest_unpack {A} d p (Q : A -> nat -> Prop) (E : perror -> nat -> Prop) :
  (forall e, E e p) -> wo (deepest_unpack d) p Q E.
Proof. intros H. destruct d as [[? ?]|]; unfold wo; cbn; auto. Qed.

Lemma covers_app l1 t1 : covers l1 t1 -> forall l2 t2, covers l2 t2 -> covers (l1 ++ l2) (t1 ++ t2).
Proof.
  induction 1; intros l2 t2 C; cbn [app]; auto.
  - apply covers_skip; auto.
  - rewrite <- app_assoc. apply covers_item; auto.
Qed.
Lemma covers_none ts : covers [] ts.
Proof. induction ts; constructor; auto. Qed.
Lemma covers_one i us : means i us -> covers [i] us.
Proof. intros M. rewrite <- (app_nil_r us). apply covers_item; [exact M|constructor]. Qed.

Lemma covers_skips us l ts : covers l ts -> covers l (us ++ ts).
Proof. intros C. induction us; cbn [app]; [exact C|apply covers_skip; auto]. Qed.
Lemma covers_tail i l ts : covers (i :: l) ts -> covers l ts.
Proof.
  intros C. remember (i :: l) as x. revert i l Heqx. induction C; intros j l' E; try discriminate.
  - apply covers_skip. eauto.
  - injection E as -> ->. apply covers_skips. exact C.
Qed.
Lemma covers_init l l' ts : covers (l ++ l') ts -> covers l ts.
Proof.
  intros C. remember (l ++ l') as x. revert l l' Heqx. induction C; intros k k' E.
  - destruct k; [constructor|discriminate].
  - apply covers_skip. eauto.
  - destruct k as [|a k]; [apply covers_none|]. cbn [app] in E. injection E as -> E. apply covers_item; eauto.
Qed.
Lemma skipn_twice {A} a b (l : list A) : skipn b (skipn a l) = skipn (a + b) l.
Proof. revert l. induction a; intros [|x l]; cbn; auto. apply skipn_nil. Qed.

Section Order.
Variable toks : list tokspan.
Notation len := (List.length toks).

(** the tokens from index [p] to index [q] *)
Definition slice (p q : nat) : list token := map fst (firstn (q - p) (skipn p toks)).
Definition cov (l : list item) (p q : nat) : Prop := p <= q /\ covers l (slice p q).

Lemma slice_split p q r : p <= q -> q <= r -> slice p r = slice p q ++ slice q r.
Proof.
  intros A B. unfold slice. rewrite <- map_app. f_equal.
  replace (r - p) with ((q - p) + (r - q)) by lia.
  replace (skipn q toks) with (skipn (q - p) (skipn p toks)).
  2: { rewrite skipn_twice. f_equal. lia. }
  generalize (skipn p toks) as l, (q - p) as a, (r - q) as b. clear.
  intros l a b. revert l. induction a; intros [|x l]; cbn; auto.
  - destruct b; reflexivity.
  - f_equal. apply IHa.
Qed.
Lemma slice_one p t sp : nth_error toks p = Some (t, sp) -> slice p (S p) = [t].
Proof.
  intros H. unfold slice. replace (S p - p) with 1 by lia. revert p H.
  induction toks as [|x l IH]; intros [|p] H; try discriminate; cbn in *.
  - injection H as ->. reflexivity.
  - apply IH. exact H.
Qed.
Lemma cov_le l p q : cov l p q -> p <= q.
Proof. intros [? ?]; auto. Qed.
Lemma cov_app l1 l2 p q r : cov l1 p q -> cov l2 q r -> cov (l1 ++ l2) p r.
Proof. intros [L1 C1] [L2 C2]. split; [lia|]. rewrite (slice_split p q r) by lia. apply covers_app; auto. Qed.
Lemma cov_none p q : p <= q -> cov [] p q.
Proof. intros L. split; [auto|apply covers_none]. Qed.
Lemma cov_weak l p a b q : cov l a b -> p <= a -> b <= q -> cov l p q.
Proof.
  intros C A B. pose proof (cov_le _ _ _ C) as L. rewrite <- (app_nil_r l). rewrite <- (app_nil_l l), <- app_assoc.
  apply cov_app with a; [apply cov_none; auto|]. apply cov_app with b; [exact C|apply cov_none; auto].
Qed.
Lemma cov_cat l1 l2 p a b r : cov l1 a b -> p <= a -> cov l2 b r -> cov (l1 ++ l2) p r.
Proof. intros C A D. apply cov_app with b; [|exact D]. eapply cov_weak; eauto. Qed.
Lemma cov_cons x l2 p a b r : cov [x] a b -> p <= a -> cov l2 b r -> cov (x :: l2) p r.
Proof. apply (cov_cat [x]). Qed.
Lemma cov_kw k ks p a b q : cov [IKw [k]] a b -> In k ks -> p <= a -> b <= q -> cov [IKw ks] p q.
Proof.
  intros [A C] M L1 L2. eapply cov_weak; [|exact L1|exact L2]. split; auto.
  remember [IKw [k]] as l. induction C; try discriminate.
  - apply covers_skip. auto.
  - injection Heql as -> ->. inversion H; subst. match goal with H : In _ [_] |- _ => destruct H as [HK|[]]; subst end.
    apply covers_item; [constructor; auto|auto].
Qed.
Lemma cov_kwcons k ks l2 p a b r : cov [IKw [k]] a b -> In k ks -> p <= a -> cov l2 b r -> cov (IKw ks :: l2) p r.
Proof. intros C M L D. apply cov_cons with a b; auto. eapply cov_kw; eauto. Qed.
Lemma cov_tok i t sp p : nth_error toks p = Some (t, sp) -> means i [t] -> cov [i] p (S p).
Proof. intros N M. split; [lia|]. rewrite (slice_one _ _ _ N). apply covers_one; auto. Qed.

Lemma cov_mid x l y p q : cov (x :: l ++ [y]) p q -> cov l p q.
Proof. intros [L C]. split; [exact L|]. apply covers_tail in C. apply covers_init in C. exact C. Qed.

Lemma wo_peek p (Q : option tokspan -> nat -> Prop) E : Q (nth_error toks p) p -> wo (peek toks) p Q E.
Proof. auto. Qed.
Lemma wo_span_at i p (Q : span -> nat -> Prop) E : (forall s, Q s p) -> wo (span_at toks i) p Q E.
Proof. unfold span_at. destruct (nth_error toks i); intros; [apply wo_ret; auto|apply wo_panic]. Qed.
Lemma wo_prev_end p (Q : nat -> nat -> Prop) E : (forall n, Q n p) -> wo (prev_end toks) p Q E.
Proof.
  intros H. unfold prev_end. apply wo_bind, wo_getpos, wo_bind, wo_psub. intros ?.
  apply wo_bind, wo_span_at. intros s. apply wo_ret. auto.
Qed.
Lemma wo_look {A} k (yes : span -> P A) no p Q E :
  (forall sp, nth_error toks p = Some (Kw k, sp) -> cov [IKw [k]] p (S p) -> wo (yes sp) (S p) Q E) ->
  wo no p Q E -> wo (look toks k yes no) p Q E.
Proof.
  intros Y N. unfold look. apply wo_bind, wo_peek. destruct (nth_error toks p) as [[[k'| | | | | | | |] sp]|] eqn:T; auto.
  destruct (kind_eqb k k') eqn:K; auto. apply kind_eqb_eq in K. subst.
  apply wo_bind, wo_adv. apply Y; auto. eapply cov_tok; eauto. constructor. left; reflexivity.
Qed.
Lemma wo_look_var {A} (yes : str -> span -> P A) no p Q E :
  (forall s sp, nth_error toks p = Some (TVariable s, sp) -> cov [IVar s] p (S p) -> wo (yes s sp) (S p) Q E) ->
  wo no p Q E -> wo (look_var toks yes no) p Q E.
Proof.
  intros Y N. unfold look_var. apply wo_bind, wo_peek. destruct (nth_error toks p) as [[[k'| | | | | | | |] sp]|] eqn:T; auto.
  apply wo_bind, wo_adv. apply Y; auto. eapply cov_tok; eauto. constructor.
Qed.
Lemma wo_look_string {A} (yes : str -> span -> P A) no p Q E :
  (forall s sp, nth_error toks p = Some (TString s, sp) -> cov [IName s] p (S p) -> cov [IPath (mkPath false None s)] p (S p) -> wo (yes s sp) (S p) Q E) ->
  wo no p Q E -> wo (look_string toks yes no) p Q E.
Proof.
  intros Y N. unfold look_string. apply wo_bind, wo_peek. destruct (nth_error toks p) as [[[k'| | | | | | | |] sp]|] eqn:T; auto.
  apply wo_bind, wo_adv. apply (Y _ _ eq_refl); (eapply cov_tok; [eauto|]); repeat constructor.
Qed.
Lemma wo_look_ces {A} (yes : str -> span -> P A) no p Q E :
  (forall s sp, nth_error toks p = Some (TCes s, sp) -> cov (text_items s) p (S p) -> wo (yes s sp) (S p) Q E) ->
  wo no p Q E -> wo (look_ces toks yes no) p Q E.
Proof.
  intros Y N. unfold look_ces. apply wo_bind, wo_peek. destruct (nth_error toks p) as [[[k'| | | | | | | |] sp]|] eqn:T; auto.
  apply wo_bind, wo_adv. apply (Y _ _ eq_refl). destruct s as [|c s]; [apply cov_none; lia|].
  eapply cov_tok; [eauto|]. cbn [text_items].
  pose proof (means_text [c :: s] ltac:(discriminate)) as M. cbn [List.concat map] in M. rewrite app_nil_r in M. exact M.
Qed.
Lemma wo_sees k p (Q : bool -> nat -> Prop) E : (forall b, Q b p) -> wo (sees toks k) p Q E.
Proof.
  intros H. unfold sees. apply wo_bind, wo_peek.
  destruct (nth_error toks p) as [[[k'| | | | | | | |] sp]|]; apply wo_ret; auto.
Qed.

(** what [m] reads from [p] on adds to the words [base] *)
Definition adds {A} (base : list item) (I : A -> list item) (a : A) (p q : nat) : Prop :=
  exists X, I a = base ++ X /\ cov X p q.
Definition ord {A} (m : P A) (p : nat) (base : list item) (I : A -> list item) : Prop :=
  wo m p (fun a q => adds base I a p q) (fun _ q => p <= q).
Lemma ord_use {A} (m : P A) p base I (Q : A -> nat -> Prop) (E : perror -> nat -> Prop) :
  ord m p base I -> (forall a q X, I a = base ++ X -> cov X p q -> p <= q -> Q a q) ->
  (forall e q, p <= q -> E e q) -> wo m p Q E.
Proof.
  intros H HQ HE. eapply wo_mono; [exact H| |]; cbv beta; [|auto].
  intros a q (X & EX & C). eapply HQ; eauto. eapply cov_le; eauto.
Qed.
End Order.

Global Create HintDb ord.
Lemma node_items e : items_expr_ (enode e) = items_expr e.
Proof. destruct e; reflexivity. Qed.
Ltac in_list := cbn [In]; tauto.
Ltac cvr := lazymatch goal with
  | |- cov _ [] _ _ => apply cov_none; lia
  | |- cov _ (?l1 ++ ?l2) ?p ?r => multimatch goal with H : cov _ l1 ?a ?b |- _ => apply (cov_cat _ l1 l2 p a b r H); [lia|cvr] end
  | |- cov _ (IKw ?ks :: ?l2) ?p ?r =>
    multimatch goal with
    | H : cov _ [IKw ks] ?a ?b |- _ => apply (cov_cons _ (IKw ks) l2 p a b r H); [lia|cvr]
    | H : cov _ [IKw [?k]] ?a ?b |- _ => apply (cov_kwcons _ k ks l2 p a b r H); [in_list|lia|cvr] end
  | |- cov _ (?x :: ?l2) ?p ?r => multimatch goal with H : cov _ [x] ?a ?b |- _ => apply (cov_cons _ x l2 p a b r H); [lia|cvr] end
  | |- cov _ ?l ?p ?r => multimatch goal with H : cov _ l ?a ?b |- _ => apply (cov_weak _ l p a b r H); lia end
  end.
Ltac names := cbn [items_expr items_expr_ items_variable items_stmt items_stmt_ items_decl items_member items_catch items_swcase
  items_param items_fundecl items_use items_trait_use items_ty uc_path uc_alias opt_items flag app fst snd flat_map map
  enode push_idx push_prop push_static path_identifier text_items].
Ltac namesin H := cbn [items_expr items_expr_ items_variable items_stmt items_stmt_ items_decl items_member items_catch items_swcase
  items_param items_fundecl items_use items_trait_use items_ty uc_path uc_alias opt_items flag app fst snd flat_map map
  enode push_idx push_prop push_static path_identifier text_items] in H.
Ltac nf := unfold path_identifier; names; rewrite ?flat_map_app, ?map_app; names; rewrite <- ?app_assoc, ?app_nil_r; names;
  repeat match goal with |- context [items_expr_ (enode ?e)] => rewrite (node_items e) end.
Ltac nfin H := namesin H; rewrite ?flat_map_app, ?map_app in H; namesin H; rewrite <- ?app_assoc, ?app_nil_r in H; namesin H.
Ltac tidy EX := cbv beta in EX; nfin EX; try (match type of EX with _ = ?X => is_var X; subst X end).
Ltac use := eapply ord_use; [ solve [ eauto 4 with ord ]
  | let EX := fresh "EX" in intros ? ? ? EX ? ?; tidy EX | intros ? ? ? ].
Ltac st :=
  match goal with
  | |- ord _ _ _ _ _ => unfold ord
  | |- wo (pbind _ _) _ _ _ => apply wo_bind
  | |- wo (pcatch _ _ _) _ _ _ => apply wo_catch
  | |- wo (deepest _ _ _) _ _ _ => apply wo_deepest
  | |- wo (deepest_unpack _) _ _ _ => apply wo_deepest_unpack; intros
  | |- wo (pret _) _ _ _ => apply wo_ret
  | |- wo (perr _) _ _ _ => apply wo_err
  | |- wo (pthrow _) _ _ _ => apply wo_throw
  | |- wo (ppanic _) _ _ _ => apply wo_panic
  | |- wo pfuel _ _ _ => apply wo_fuel
  | |- wo getpos _ _ _ => apply wo_getpos
  | |- wo (setpos _) _ _ _ => apply wo_setpos
  | |- wo adv _ _ _ => apply wo_adv
  | |- wo (unwrap_p _) _ _ _ => apply wo_unwrap; intros
  | |- wo (psub _ _) _ _ _ => apply wo_psub; intros
  | |- wo (peek _) _ _ _ => apply wo_peek
  | |- wo (span_at _ _) _ _ _ => apply wo_span_at; intros
  | |- wo (prev_end _) _ _ _ => apply wo_prev_end; intros
  | |- wo (look _ _ _ _) _ _ _ => apply wo_look; [intros ? ? ?|]
  | |- wo (look_var _ _ _) _ _ _ => apply wo_look_var; [intros ? ? ? ?|]
  | |- wo (look_string _ _ _) _ _ _ => apply wo_look_string; [intros ? ? ? ? ?|]
  | |- wo (look_ces _ _ _) _ _ _ => apply wo_look_ces; [intros ? ? ? ?|]
  | |- wo (sees _ _) _ _ _ => apply wo_sees; intros
  | |- _ => use
  | |- wo (match ?x with _ => _ end) _ _ _ => let E := fresh "E" in destruct x eqn:E
  | |- wo (let (_, _) := ?x in _) _ _ _ => destruct x
  | |- _ => progress cbv beta zeta
  end.
Ltac rew := repeat match goal with EX : @eq (list item) _ _ |- _ => progress rewrite EX; clear EX end.
Ltac fin := unfold adds; nf; rew; nf; eexists; split; [solve [reflexivity | rewrite <- ?app_assoc; cbn [app]; reflexivity | nf; reflexivity] | solve [cvr]].
Ltac go := repeat st; try solve [lia | fin].
