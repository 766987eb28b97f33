(** * Span: the rules for the spans of what the parser builds (C45) *)
From Verif Require Import Base Tokens Ast Parser Wp Order SpecSpan.

Lemma nested_le lo hi l : nested lo hi l -> lo <= hi.
Proof. induction 1; lia. Qed.
Lemma nested_weak lo hi l lo' hi' : nested lo hi l -> lo' <= lo -> hi <= hi' -> nested lo' hi' l.
Proof. intros H. revert lo' hi'. induction H; intros; constructor; auto; lia. Qed.
Lemma nested_app l1 : forall lo m hi l2, nested lo m l1 -> nested m hi l2 -> nested lo hi (l1 ++ l2).
Proof.
  induction l1 as [|[sp ps] l1 IH]; intros lo m hi l2 A B; cbn [app]; inversion A; subst.
  - eapply nested_weak; eauto.
  - constructor; auto. eapply IH; eauto.
Qed.
Lemma nested_cat l1 l2 lo a b hi : nested a b l1 -> lo <= a -> nested b hi l2 -> nested lo hi (l1 ++ l2).
Proof. intros A L B. eapply nested_app; [|exact B]. eapply nested_weak; [exact A|auto|auto]. Qed.

(** ** Positions *)
(** where the tokens before index [p] end *)
Definition ends (lo : nat) (toks : list tokspan) (p : nat) : nat := last_end lo (firstn p toks).
(** [V p = 0]: index [p] is not inside of a string that is one text or empty *)
Definition group (toks : list tokspan) (V : nat -> nat) (p : nat) (t : token) (sp : span) : Prop :=
  (V (S (S p)) = 0 /\ exists cl, t = Kw KDoubleQuote /\ nth_error toks (S p) = Some (Kw KDoubleQuote, cl)) \/
  (V (S (S (S p))) = 0 /\ exists k k' w tx cl, In (k, k') [(KDoubleQuote, KDoubleQuote); (KBackquote, KBackquote); (KHereDocStart, KHereDocEnd)] /\ w <> [] /\ t = Kw k /\
   nth_error toks (S p) = Some (TCes w, tx) /\ nth_error toks (S (S p)) = Some (Kw k', cl)).
Record aligned (lo : nat) (toks : list tokspan) (V : nat -> nat) : Prop := {
  al_start : V 0 = 0;
  al_end : forall p, V p = 0 -> nth_error toks p = None -> V (S p) = 0;
  al_mono : forall p, ends lo toks p <= ends lo toks (S p);
  al_token : forall p t sp, V p = 0 -> nth_error toks p = Some (t, sp) ->
    ends lo toks p <= sp_start sp /\ sp_start sp <= sp_end sp /\ (t = Kw KNsSeparator \/ t = Kw KAmpersand -> sp_start sp < sp_end sp) /\ (opening t = false -> V (S p) = 0);
  al_strings : (forall p t sp, V p = 0 -> nth_error toks p = Some (t, sp) -> V (S p) = 0) \/
    (forall p t sp, V p = 0 -> nth_error toks p = Some (t, sp) -> opening t = true -> group toks V p t sp) }.
Lemma in_line_aligned toks : forall lo, in_line lo toks -> aligned lo toks (fun _ => 0).
Proof.
  intros lo L. split; auto; [intros p|intros p t sp _]; revert lo p L; induction toks as [|[t0 sp0] l IH]; intros lo p L.
  - unfold ends. rewrite !firstn_nil. auto.
  - destruct L as ((A & B & C) & L). destruct p as [|p]; [cbn; lia|]. apply (IH _ p L).
  - destruct p; discriminate.
  - destruct L as ((A & B & C) & L). destruct p as [|p]; [|apply (IH _ p L)]. intros X. injection X as <- <-. cbn. auto.
Qed.
Lemma lined_aligned lo toks : lined lo toks -> exists V, aligned lo toks V.
Proof.
  intros L. enough (exists V, V 0 = 0 /\ (forall p, V p = 0 -> nth_error toks p = None -> V (S p) = 0) /\ (forall p, ends lo toks p <= ends lo toks (S p)) /\
    forall p t sp, V p = 0 -> nth_error toks p = Some (t, sp) ->
    (ends lo toks p <= sp_start sp /\ sp_start sp <= sp_end sp /\ (t = Kw KNsSeparator \/ t = Kw KAmpersand -> sp_start sp < sp_end sp) /\ (opening t = false -> V (S p) = 0)) /\
    (opening t = true -> group toks V p t sp)) as (V & A & B & C & D).
  { exists V. split; auto; [intros p t sp V0 N; apply (D p t sp V0 N)|]. right. intros p t sp V0 N. apply (D p t sp V0 N). }
  induction L as [lo|lo t sp l O (A & B & W) _ (V & I1 & I2 & I3 & I4)|lo op cl l A B C _ (V & I1 & I2 & I3 & I4)|lo k k' w op sp cl l K N A B D F _ (V & I1 & I2 & I3 & I4)].
  - exists (fun _ => 0). split; auto. unfold ends. split; auto. split; [intros p; rewrite !firstn_nil; auto|]. intros [|p] t sp _ H; discriminate.
  - exists (fun p => match p with 0 => 0 | S p => V p end). split; auto. split; [intros [|p] V0 H; [discriminate|apply I2; auto]|]. split; [intros [|p]; [cbn; lia|apply I3]|].
    intros [|p] t' sp' V0 H; [|apply (I4 p t' sp' V0 H)]. injection H as <- <-. cbn. split; [repeat split; auto|congruence].
  - exists (fun p => match p with 0 => 0 | 1 => 1 | S (S p) => V p end). split; auto. split; [intros [|[|p]] V0 H; try discriminate; apply I2; auto|]. split; [intros [|[|p]]; [cbn; lia|cbn; lia|apply I3]|].
    intros [|[|p]] t' sp' V0 H; [|discriminate|apply (I4 p t' sp' V0 H)]. injection H as <- <-. cbn. split; [repeat split; auto; [intros [X|X]; discriminate|discriminate]|].
    intros _. left. split; [exact I1|]. exists cl. auto.
  - exists (fun p => match p with 0 => 0 | 1 => 1 | 2 => 1 | S (S (S p)) => V p end). split; auto. split; [intros [|[|[|p]]] V0 H; try discriminate; apply I2; auto|]. split; [intros [|[|[|p]]]; [cbn; lia|cbn; lia|cbn; lia|apply I3]|].
    intros [|[|[|p]]] t' sp' V0 H; [|discriminate|discriminate|apply (I4 p t' sp' V0 H)]. injection H as <- <-. cbn.
    assert (KK : k = KDoubleQuote \/ k = KBackquote \/ k = KHereDocStart) by (cbn in K; intuition congruence).
    split; [repeat split; auto; destruct KK as [->|[->| ->]]; try discriminate; intros [X|X]; discriminate|].
    intros _. right. split; [exact I1|]. exists k, k', w, sp, cl. auto.
Qed.

Section Span.
Variable toks : list tokspan.
Variable V : nat -> nat.
Hypothesis Line : aligned 0 toks V.

Definition E (p : nat) : nat := ends 0 toks p.
Lemma last_end_snoc l : forall lo t sp, last_end lo (l ++ [(t, sp)]) = sp_end sp.
Proof. induction l as [|[t' sp'] l IH]; intros; cbn [app last_end]; auto. Qed.
Lemma firstn_S p t : nth_error toks p = Some t -> firstn (S p) toks = firstn p toks ++ [t].
Proof.
  clear Line. revert p. induction toks as [|x l IH]; intros [|p] H; try discriminate; cbn in *; [congruence|]. f_equal. apply IH. exact H.
Qed.
Lemma E_next p t sp : nth_error toks p = Some (t, sp) -> sp_end sp = E (S p).
Proof. intros N. unfold E, ends. rewrite (firstn_S _ _ N), last_end_snoc. reflexivity. Qed.
Lemma E_open p t sp : V p = 0 -> nth_error toks p = Some (t, sp) -> E p <= sp_start sp /\ sp_start sp <= sp_end sp /\ sp_end sp = E (S p).
Proof. intros V0 N. destruct (al_token _ _ _ Line p t sp V0 N) as (A & B & _). split; [exact A|]. split; [exact B|]. exact (E_next _ _ _ N). Qed.
Lemma E_token p t sp : V p = 0 -> nth_error toks p = Some (t, sp) -> opening t = false ->
  E p <= sp_start sp /\ sp_start sp <= sp_end sp /\ sp_end sp = E (S p) /\ V (S p) = 0.
Proof. intros V0 N O. destruct (al_token _ _ _ Line p t sp V0 N) as (A & B & _ & D). split; [exact A|]. split; [exact B|]. split; [exact (E_next _ _ _ N)|auto]. Qed.
Lemma E_wide p t sp : V p = 0 -> nth_error toks p = Some (t, sp) -> t = Kw KNsSeparator \/ t = Kw KAmpersand -> sp_start sp < sp_end sp.
Proof. intros V0 N. apply (al_token _ _ _ Line p t sp V0 N). Qed.
Lemma E_S p : E p <= E (S p).
Proof. apply (al_mono _ _ _ Line). Qed.
Lemma E_mono p q : p <= q -> E p <= E q.
Proof. induction 1; [auto|]. pose proof (E_S m). lia. Qed.

(** ** Rules *)
Lemma wo_psub' a b p (Q : nat -> nat -> Prop) X : (b <= a -> Q (a - b) p) -> wo (psub a b) p Q X.
Proof. unfold psub. destruct (Nat.leb_spec b a); intros; [apply wo_ret; auto|apply wo_panic]. Qed.
Lemma wo_adv' p (Q : unit -> nat -> Prop) X : V (S p) = 0 -> (E p <= E (S p) -> V (S p) = 0 -> Q tt (S p)) -> wo adv p Q X.
Proof. intros V1 H. apply wo_adv, H; [apply E_S|exact V1]. Qed.
Lemma wo_prev_end' p (Q : nat -> nat -> Prop) X : Q (E p) p -> wo (prev_end toks) p Q X.
Proof.
  intros H. unfold prev_end. apply wo_bind, wo_getpos, wo_bind. unfold psub. destruct (Nat.leb_spec 1 p) as [L|L]; [|apply wo_panic].
  apply wo_ret, wo_bind. unfold span_at. destruct (nth_error toks (p - 1)) as [[t sp]|] eqn:N; [|apply wo_panic].
  apply wo_ret, wo_ret. apply E_next in N. replace (S (p - 1)) with p in N by lia. cbn [snd]. rewrite N. exact H.
Qed.
Notation around sp p := (E p <= sp_start sp /\ sp_start sp <= sp_end sp /\ sp_end sp = E (S p) /\ V (S p) = 0) (only parsing).
Lemma wo_look' {A} k (yes : span -> P A) no p Q X : opening (Kw k) = false -> V p = 0 ->
  (forall sp, nth_error toks p = Some (Kw k, sp) -> around sp p -> wo (yes sp) (S p) Q X) -> wo no p Q X -> wo (look toks k yes no) p Q X.
Proof. intros O V0 Y N. apply wo_look; [|exact N]. intros sp H _. apply Y; [exact H|]. eapply E_token; eauto. Qed.
Lemma wo_look_var' {A} (yes : str -> span -> P A) no p Q X : V p = 0 ->
  (forall s sp, around sp p -> wo (yes s sp) (S p) Q X) -> wo no p Q X -> wo (look_var toks yes no) p Q X.
Proof. intros V0 Y N. apply wo_look_var; [|exact N]. intros s sp H _. apply Y. eapply E_token; eauto. Qed.
Lemma wo_look_string' {A} (yes : str -> span -> P A) no p Q X : V p = 0 ->
  (forall s sp, around sp p -> wo (yes s sp) (S p) Q X) -> wo no p Q X -> wo (look_string toks yes no) p Q X.
Proof. intros V0 Y N. apply wo_look_string; [|exact N]. intros s sp H _ _. apply Y. eapply E_token; eauto. Qed.
Lemma wo_look_ces' {A} (yes : str -> span -> P A) no p Q X : V p = 0 ->
  (forall s sp, around sp p -> wo (yes s sp) (S p) Q X) -> wo no p Q X -> wo (look_ces toks yes no) p Q X.
Proof. intros V0 Y N. apply wo_look_ces; [|exact N]. intros s sp H _. apply Y. eapply E_token; eauto. Qed.

(** ** What is read *)
(** an expression between [lo] and [hi] *)
Definition fits (e : expr) (lo hi : nat) : Prop :=
  lo <= estart e /\ nested (estart e) (eend e) (inside (enode e)) /\ eend e <= hi /\ behind (enode e) = [].
Lemma fits_regions e lo hi : fits e lo hi -> nested lo hi (regions e).
Proof.
  intros (A & B & C & D). destruct e as [n sp]. cbn [regions enode estart eend espan] in *. rewrite D. constructor; auto. constructor; auto.
Qed.
Lemma fits_tight e lo hi : fits e lo hi -> nested (estart e) (eend e) (regions e).
Proof. intros (A & B & C & D). apply fits_regions. repeat split; auto. Qed.
Lemma fits_le e lo hi : fits e lo hi -> lo <= hi.
Proof. intros H. exact (nested_le _ _ _ (fits_regions _ _ _ H)). Qed.
Lemma fits_weak e lo hi lo' hi' : fits e lo hi -> lo' <= lo -> hi <= hi' -> fits e lo' hi'.
Proof. intros (A & B & C & D) ? ?. repeat split; auto; lia. Qed.
(** an expression *)
Definition ex (m : P expr) (p : nat) : Prop := V p = 0 -> wo m p (fun e q => fits e (E p) (E q) /\ V q = 0) (fun _ q => E p <= E q /\ V q = 0).
(** an expression that goes on with one that begins behind [lo] *)
Definition on (m : P expr) (p lo : nat) : Prop := V p = 0 -> wo m p (fun e q => fits e lo (E q) /\ E p <= E q /\ V q = 0) (fun _ q => E p <= E q /\ V q = 0).
Lemma ex_use m p (Q : expr -> nat -> Prop) (X : perror -> nat -> Prop) :
  ex m p -> V p = 0 -> (forall e q, fits e (E p) (E q) -> E p <= E q -> V q = 0 -> Q e q) -> (forall e q, E p <= E q -> V q = 0 -> X e q) -> wo m p Q X.
Proof. intros H V0 HQ HX. eapply wo_mono; [exact (H V0)| |]; cbv beta; [|intros ? ? []; auto]. intros a q [F Vq]. apply HQ; auto. eapply fits_le; eauto. Qed.
Lemma on_use m p lo (Q : expr -> nat -> Prop) (X : perror -> nat -> Prop) :
  on m p lo -> V p = 0 -> (forall e q, fits e lo (E q) -> E p <= E q -> V q = 0 -> Q e q) -> (forall e q, E p <= E q -> V q = 0 -> X e q) -> wo m p Q X.
Proof. intros H V0 HQ HX. eapply wo_mono; [exact (H V0)| |]; cbv beta; [|intros ? ? []; auto]. intros a q (F & L & Vq). apply HQ; auto. Qed.
(** a statement *)
Definition sfits (s : stmt) (lo hi : nat) : Prop :=
  lo <= sp_start (sspan s) /\ nested (sp_start (sspan s)) (sp_end (sspan s)) (statement_inside (snode s)) /\ sp_end (sspan s) <= hi.
Lemma sfits_tight s lo hi : sfits s lo hi -> nested (sp_start (sspan s)) (sp_end (sspan s)) (statement_regions s).
Proof. intros (A & B & C). destruct s as [n sp]. cbn [statement_regions snode sspan] in *. constructor; auto. constructor; auto. Qed.
Lemma sfits_le s lo hi : sfits s lo hi -> lo <= hi.
Proof. intros (A & B & C). apply nested_le in B. lia. Qed.
Definition sx (m : P stmt) (p : nat) : Prop := V p = 0 -> wo m p (fun s q => sfits s (E p) (E q) /\ V q = 0) (fun _ q => E p <= E q /\ V q = 0).
Lemma sx_use m p (Q : stmt -> nat -> Prop) (X : perror -> nat -> Prop) :
  sx m p -> V p = 0 -> (forall e q, sfits e (E p) (E q) -> E p <= E q -> V q = 0 -> Q e q) -> (forall e q, E p <= E q -> V q = 0 -> X e q) -> wo m p Q X.
Proof. intros H V0 HQ HX. eapply wo_mono; [exact (H V0)| |]; cbv beta; [|intros ? ? []; auto]. intros a q [F Vq]. apply HQ; auto. eapply sfits_le; eauto. Qed.
(** a list of things is added to [base] *)
Definition grows {A} (m : P A) (p : nat) (base : list region) (I : A -> list region) : Prop :=
  V p = 0 -> wo m p (fun a q => V q = 0 /\ exists X, I a = base ++ X /\ nested (E p) (E q) X) (fun _ q => E p <= E q /\ V q = 0).
Lemma grows_use {A} (m : P A) p base I (Q : A -> nat -> Prop) (X : perror -> nat -> Prop) :
  grows m p base I -> V p = 0 -> (forall a q Y, I a = base ++ Y -> nested (E p) (E q) Y -> E p <= E q -> V q = 0 -> Q a q) ->
  (forall e q, E p <= E q -> V q = 0 -> X e q) -> wo m p Q X.
Proof.
  intros H V0 HQ HX. eapply wo_mono; [exact (H V0)| |]; cbv beta; [|intros ? ? []; auto]. intros a q (Vq & Y & EY & N). eapply HQ; eauto. eapply nested_le; eauto.
Qed.
End Span.

Global Create HintDb span.
Ltac names := cbn [regions inside behind function_regions parameter_regions statement_regions statement_inside declaration_regions member_regions
  catch_regions case_regions opt_regions app fst snd flat_map map enode espan estart eend snode sspan mk_span set_start set_end sp_start sp_end
  push_idx push_prop push_static].
Ltac namesin H := cbn [regions inside behind function_regions parameter_regions statement_regions statement_inside declaration_regions member_regions
  catch_regions case_regions opt_regions app fst snd flat_map map enode espan estart eend snode sspan mk_span set_start set_end sp_start sp_end] in H.
Ltac nf := unfold estart, eend, respan in *; names; rewrite ?flat_map_app, ?map_app; names; rewrite <- ?app_assoc, ?app_nil_r; names.
Ltac nfin H := namesin H; rewrite ?flat_map_app, ?map_app in H; namesin H; rewrite <- ?app_assoc, ?app_nil_r in H; namesin H.
(** all that is known about numbers *)
Ltac facts := repeat match goal with
  | H : fits ?e ?a ?b |- _ =>
    let K := fresh "K" in pose proof (fits_tight _ _ _ H) as K;
    destruct H as (? & ? & ? & ?)
  | H : sfits ?e ?a ?b |- _ =>
    let K := fresh "K" in pose proof (sfits_tight _ _ _ H) as K;
    destruct H as (? & ? & ?)
  end;
  repeat match goal with
  | H : nested ?a ?b ?l |- _ => lazymatch goal with K : a <= b |- _ => fail | _ => pose proof (nested_le _ _ _ H) end
  end.
Ltac ln := unfold estart, eend in *; cbn [mk_span set_start set_end sp_start sp_end espan fst snd] in *; lia.
Ltac ns := lazymatch goal with
  | |- nested _ _ [] => apply nested_none; ln
  | |- nested _ _ (Region _ _ :: _) => apply nested_some; [ln|ns|ns]
  | |- nested ?p ?r (?l1 ++ ?l2) => multimatch goal with H : nested ?a ?b l1 |- _ => apply (nested_cat l1 l2 p a b r H); [ln|ns] end
  | |- nested ?p ?r ?l => multimatch goal with H : nested ?a ?b l |- _ => apply (nested_weak a b l p r H); ln end
  end.
Ltac use := first
  [ eapply ex_use; [ solve [eauto 4 with span] | assumption | intros ? ? ? ? ? | intros ? ? ? ? ]
  | eapply on_use; [ solve [eauto 4 with span] | assumption | intros ? ? ? ? ? | intros ? ? ? ? ]
  | eapply sx_use; [ solve [eauto 4 with span] | assumption | intros ? ? ? ? ? | intros ? ? ? ? ]
  | eapply grows_use; [ solve [eauto 4 with span] | assumption
    | let EX := fresh "EX" in intros ? ? ? EX ? ? ?; cbv beta in EX; nfin EX; try (match type of EX with _ = ?X => is_var X; subst X end)
    | intros ? ? ? ? ] ].
Ltac st :=
  match goal with
  | |- ex _ _ _ _ => unfold ex; intros ?
  | |- on _ _ _ _ _ => unfold on; intros ?
  | |- sx _ _ _ _ => unfold sx; intros ?
  | |- grows _ _ _ _ _ _ => unfold grows; intros ?
  | |- wo (pbind _ _) _ _ _ => apply wo_bind
  | |- wo (pcatch _ _ _) _ _ _ => apply wo_catch
  | |- wo (deepest _ _ _) _ _ _ => apply wo_deepest
  | |- wo (deepest_unpack _) _ _ _ => apply wo_deepest_unpack; intros
  | |- wo (pret _) _ _ _ => apply wo_ret
  | |- wo (perr _) _ _ _ => apply wo_err
  | |- wo (pthrow _) _ _ _ => apply wo_throw
  | |- wo (ppanic _) _ _ _ => apply wo_panic
  | |- wo pfuel _ _ _ => apply wo_fuel
  | |- wo getpos _ _ _ => apply wo_getpos
  | |- wo (setpos _) _ _ _ => apply wo_setpos
  | |- wo adv _ _ _ => eapply wo_adv'; [eassumption|assumption|intros ? ?]
  | |- wo (unwrap_p _) _ _ _ => apply wo_unwrap; intros
  | |- wo (psub _ _) _ _ _ => apply wo_psub'; intros ?
  | |- wo (peek _) _ _ _ => apply wo_peek
  | |- wo (prev_end _) _ _ _ => eapply wo_prev_end'
  | |- wo (look _ _ _ _) _ _ _ => eapply wo_look'; [eassumption|reflexivity|assumption|intros ? ? (? & ? & ? & ?)|]
  | |- wo (look_var _ _ _) _ _ _ => eapply wo_look_var'; [eassumption|assumption|intros ? ? (? & ? & ? & ?)|]
  | |- wo (look_string _ _ _) _ _ _ => eapply wo_look_string'; [eassumption|assumption|intros ? ? (? & ? & ? & ?)|]
  | |- wo (look_ces _ _ _) _ _ _ => eapply wo_look_ces'; [eassumption|assumption|intros ? ? (? & ? & ? & ?)|]
  | |- wo (sees _ _) _ _ _ => apply wo_sees; intros
  | |- _ => use
  | |- wo (match ?x with _ => _ end) _ _ _ => let E := fresh "E" in destruct x eqn:E
  | |- wo (let (_, _) := ?x in _) _ _ _ => destruct x
  | |- _ => progress cbv beta zeta
  end.
Ltac rew := repeat match goal with EX : @eq (list region) _ _ |- _ => progress rewrite EX; clear EX end.
Ltac fit := facts; unfold fits; nf; repeat split; first [ln | ns | assumption | reflexivity].
Ltac sfit := facts; unfold sfits; nf; rew; nf; repeat split; first [ln | ns].
Ltac fin := lazymatch goal with
  | |- fits _ _ _ => fit
  | |- sfits _ _ _ => sfit
  | |- sfits _ _ _ /\ _ => split; [sfit|facts; ln]
  | |- fits _ _ _ /\ _ => split; [fit|facts; ln]
  | |- _ = 0 /\ exists X, _ => split; [ln|]; facts; nf; rew; nf; eexists; split; [solve [reflexivity | rewrite <- ?app_assoc; cbn [app]; reflexivity | nf; reflexivity] | solve [ns]]
  end.
Ltac go := repeat st; try solve [facts; ln | fin].
