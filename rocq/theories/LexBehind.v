(** * LexBehind: names stand behind an opening tag (proofs for C38, C39) *)
From Verif Require Import Base Tokens Ast Lexer Parser Driver Spec SpecRun SpecMixed SmallFacts LexBase LexMono LexSteps LexRun LexStr LexCrash LexInv LexTotal Emit Mixed.
From Coq Require Import String Lia.
Local Open Scope list_scope.

Lemma loop_from code lo n f : lo <= blen code -> forall acc s, inv code True lo s ->
  match tokenize_loop code n f acc s with DOk (l, _) => exists l', l = acc ++ l' /\ Forall (tokin code lo) l' | _ => True end.
Proof.
  intros LO. induction n as [|n IH]; intros acc s Iv; cbn [tokenize_loop]; [exact I|].
  pose proof (next_from code True lo LO (or_introl I) f s Iv (or_introl I)) as G. unfold hx in G. destruct (next_token code f s) as [t s'|e s'|p|] eqn:E; auto.
  destruct G as (I' & T & _).
  assert (X : forall t', t' = t -> match tokenize_loop code n f (acc ++ [t']) s' with DOk (l, _) => exists l', l = acc ++ l' /\ Forall (tokin code lo) l' | _ => True end).
  { intros t' ->. specialize (IH (acc ++ [t]) s' I'). destruct (tokenize_loop code n f (acc ++ [t]) s') as [[l sf]| | |]; auto. destruct IH as (l' & -> & F). exists (t :: l'). rewrite <- app_assoc. split; [reflexivity|]. constructor; auto. }
  destruct t as [[k| | | | | | | |] sp]; try (apply X; reflexivity). destruct k; try (apply X; reflexivity). exists []. rewrite app_nil_r. split; [reflexivity|constructor].
Qed.
(** ** The tokens up to the first tag *)
Definition tag_tok (t : tokspan) : Prop := fst t = Kw KOpenTag \/ fst t = Kw KOpenTagWithEcho.
Definition at_tag (code : str) (s : tst) : Prop := forall inp, spot code s inp -> inp = [] \/ exists q, inp = s2l "<?" ++ q.
Definition html_tok (t : tokspan) : Prop := exists w, fst t = TInlineHtml w.
Lemma find_sub_some p s : forall n, find_sub p s = Some n -> exists a b, s = a ++ p ++ b /\ blen a = n.
Proof.
  induction s as [|c s IH]; intros n H; cbn [find_sub] in H.
  - destruct (starts_with p []) eqn:W; [|discriminate]. injection H as <-. apply starts_with_iff in W as (b & W). exists [], b. auto.
  - destruct (starts_with p (c :: s)) eqn:W.
    + injection H as <-. apply starts_with_iff in W as (b & W). exists [], b. auto.
    + destruct (find_sub p s) as [m|]; [|discriminate]. injection H as <-. destruct (IH m eq_refl) as (a & b & -> & B). exists (c :: a), b. cbn. rewrite B. auto.
Qed.
Lemma alias_far code alias k m s : k = KOpenTag \/ k = KOpenTagWithEcho ->
  hx True (match_token_alias code alias k (ASet m)) s (fun t s' => tag_tok t /\ queue s' = queue s /\ src_pos s' = src_pos s + blen alias) (nothing s).
Proof.
  intros K. unfold match_token_alias. apply hx_bind, hx_input. intros inp H. destruct (starts_with_ci inp alias); [|split; reflexivity].
  apply hx_bind, hx_pos, hx_bind, hx_advb. intros w r H' B _. apply hx_bind, hx_pos, hx_bind. unfold hx, do_act, set_mode. cbn. rewrite B. split; [|auto]. unfold tag_tok. cbn [fst]. destruct K as [-> | ->]; auto.
Qed.
Definition first_token (code : str) (s : tst) (t : tokspan) (s' : tst) : Prop :=
  is_end t \/ queue s' = queue s /\ (tag_tok t /\ 2 <= src_pos s' \/ html_tok t /\ lmode s' = LInitial /\ at_tag code s' /\ ~ at_tag code s).
Lemma initial_far code s : lmode s = LInitial -> hx True (initial_token code) s (first_token code s) (fun _ _ => True).
Proof.
  intros M. unfold initial_token. apply hx_bind, hx_input. intros [|c r] H; [left; reflexivity|]. set (inp := c :: r) in *.
  assert (AL : forall a k, (k = KOpenTag \/ k = KOpenTagWithEcho) -> 2 <= blen a -> hx True (match_token_alias code a k (ASet LInScripting)) s (first_token code s) (nothing s)).
  { intros a k K N. eapply hx_mono; [apply alias_far, K| |auto]. intros t s' (A & B & C). right. split; [exact B|]. left. split; [exact A|lia]. }
  apply hx_none; [apply AL; [auto|cbn; lia]|]. apply hx_none; [apply AL; [auto|cbn; lia]|]. apply hx_none; [apply AL; [auto|cbn; lia]|]. cbv zeta.
  destruct (negb _) eqn:N; [|apply hx_ret; left; reflexivity].
  apply hx_bind, hx_pos, hx_bind, hx_advb. intros w r' H' B _. apply hx_ret. right. split; [reflexivity|]. right. split; [eexists; reflexivity|]. split; [exact M|]. split.
  - intros i Hi. pose proof (spot_fun _ _ _ _ H H') as E. unfold spot in Hi. cbn [src_pos set_pos] in Hi. destruct (find_sub (s2l "<?") inp) as [n|] eqn:F.
    + destruct (find_sub_some _ _ _ F) as (a & b & E2 & BA). rewrite E2 in H. pose proof (spot_next _ _ _ _ H) as X. rewrite BA, <- B in X. rewrite X in Hi. injection Hi as <-. right. exists b. reflexivity.
    + pose proof (spot_next code s inp [] ltac:(rewrite app_nil_r; exact H)) as X. rewrite <- B in X. rewrite X in Hi. injection Hi as <-. auto.
  - intros T. destruct (T _ H) as [X|(q & X)]; [discriminate|]. assert (F : find_sub (s2l "<?") inp = Some 0) by (rewrite X; reflexivity). rewrite F in N. discriminate.
Qed.
Lemma next_first code f s : lmode s = LInitial -> inv code True 0 s -> match next_token code f s with TOk t s' => first_token code s t s' | _ => True end.
Proof.
  intros M Iv. destruct f as [|[|f]]; [exact I|exact I|]. change (next_token code (S (S f)) s) with (nt_loop code (next_token code (S f)) (S f) (S f) s). rewrite nt_scan by congruence. unfold scan. rewrite M.
  pose proof (initial_far code s M) as X. pose proof (h_initial code True 0 (Nat.le_0_l _) 0 (or_introl I) s Iv) as Y. unfold hx in X, Y. destruct (initial_token code s) as [t s'|e s'|p|]; auto.
  destruct Y as (Y & _). destruct e; auto. congruence.
Qed.
(** nothing, or one token of HTML, then nothing, or a tag *)
Definition beginning (ts : list tokspan) : Prop :=
  exists hs gs rest, ts = hs ++ gs ++ rest /\ late 2 rest /\ (hs = [] \/ exists t, hs = [t] /\ html_tok t) /\ (gs = [] /\ rest = [] \/ exists t, gs = [t] /\ tag_tok t).
Lemma loop_step code n f acc s : tokenize_loop code (S n) f acc s =
  match next_token code f s with
  | TOk t s' => match fst t with Kw KEnd => DOk (acc, s') | _ => tokenize_loop code n f (acc ++ [t]) s' end
  | TErr e s' => DErr (e, s') | TPanic p => DPanic p | TFuel => DFuel end.
Proof. cbn [tokenize_loop]. destruct (next_token code f s) as [[[[]| | | | | | | |] sp] s'|e s'|p|]; reflexivity. Qed.
Lemma loop_behind code n f : forall (hs : list tokspan) s, lmode s = LInitial -> queue s = [] -> inv code True 0 s -> hs = [] \/ (exists t, hs = [t] /\ html_tok t) /\ at_tag code s ->
  match tokenize_loop code n f hs s with DOk (l, _) => beginning l | _ => True end.
Proof.
  induction n as [|n IH]; intros hs s M Q Iv HS; [exact I|]. rewrite loop_step.
  pose proof (next_inv code True (or_introl I) f s Iv (or_introl I)) as G. unfold hx in G. pose proof (next_first code f s M Iv) as FAR.
  destruct (next_token code f s) as [t s'|e s'|p|] eqn:E; auto. destruct G as (I' & T & _).
  assert (HS' : hs = [] \/ exists t, hs = [t] /\ html_tok t) by tauto.
  destruct FAR as [FAR|(Q' & [(W & FAR)|(W & M' & A' & NA)])].
  - rewrite FAR. exists hs, [], []. rewrite !app_nil_r. split; [reflexivity|]. split; [constructor|]. split; [exact HS'|auto].
  - assert (B : 2 <= blen code) by (destruct I' as [_ _ _ _ Z _ _]; lia).
    assert (G2 : inv code True 2 s') by (destruct I' as [G1 G2 G3 G4 G5 G6 G7]; constructor; auto; [lia|rewrite Q', Q; constructor]).
    pose proof (loop_from code 2 n f B (hs ++ [t]) s' G2) as Z.
    assert (R : match tokenize_loop code n f (hs ++ [t]) s' with DOk (l, _) => beginning l | _ => True end).
    { destruct (tokenize_loop code n f (hs ++ [t]) s') as [[l sf]| | |]; auto. destruct Z as (l' & -> & F). exists hs, [t], l'. rewrite <- app_assoc. split; [reflexivity|]. split; [|eauto].
      eapply Forall_impl; [|exact F]. intros x [[A _] _]. exact A. }
    destruct W as [W|W]; rewrite W; exact R.
  - assert (N : hs = []) by (destruct HS as [|(_ & HS)]; [assumption|contradiction]). subst hs. destruct W as (w & W). rewrite W. apply IH; auto; [congruence|]. right. split; [|exact A']. exists t. split; [reflexivity|]. exists w. exact W.
Qed.
Lemma starts_so src f ts s : tokenize f src = DOk (ts, s) -> beginning ts.
Proof. intros E. pose proof (loop_behind src f f [] tst_init eq_refl eq_refl (init_inv _ _) (or_introl eq_refl)) as G. unfold tokenize in E. rewrite E in G. exact G. Qed.
(** what the parser sees of it *)
Definition opening (toks : list tokspan) : Prop :=
  exists pre rest, toks = pre ++ rest /\ behind_tag rest /\
  (pre = [] \/ (exists a, pre = [(Kw KEcho, a)]) \/ (exists w a, pre = [(Kw KEcho, a); (TCes w, a); (Kw KSemiColon, a)]) \/
   exists w a b, pre = [(Kw KEcho, a); (TCes w, a); (Kw KSemiColon, a); (Kw KEcho, b)]).
Lemma opening_source src f ts s : tokenize f src = DOk (ts, s) -> opening (filter_tokens ts).
Proof.
  intros E. destruct (starts_so src f ts s E) as (hs & gs & rest & -> & L & H & G). unfold filter_tokens. rewrite !flat_map_app, app_assoc. exists (filter_tokens hs ++ filter_tokens gs), (filter_tokens rest).
  split; [reflexivity|]. split; [apply late2_filter, L|].
  destruct H as [->|([t sp] & -> & w & H)]; [|cbn [fst] in H; subst t]; (destruct G as [(-> & _)|([g sp'] & -> & [G|G])]; [|cbn [fst] in G; subst g..]); cbn; eauto 10.
Qed.
