(** * ParserFacts: consequences of the passes over the parser *)
From Verif Require Import Base Tokens Ast AstMap AstInd Lexer Parser Printer Driver Spec Wp ParserTermination ParserMono ParserRel.
From Coq Require Import String.

(** ** Termination *)
Lemma parse_top_total toks : parse_top toks <> PFuel.
Proof.
  unfold parse_top, parse_fuel. pose proof (ptsl_f toks _ (parse_statement_enough toks) 0) as H.
  unfold forw, wp in H. intros E. rewrite E in H. exact H.
Qed.
Lemma parse_top_fuel toks f : parse_fuel toks <= f ->
  parse_top_statement_list toks (parse_statement toks f) 0 = parse_top toks.
Proof.
  intros L. pose proof (ptsl_m toks _ _ (proj2 (knot_m toks (parse_fuel toks) f L))) as H.
  specialize (H 0). pose proof (parse_top_total toks) as T. unfold parse_top in *.
  destruct H as [H|H]; [contradiction|auto].
Qed.
Lemma mk_serror_total data e a b pe sx : mk_serror data e a b pe sx <> DFuel.
Proof. unfold mk_serror. destruct line_from_position; [|discriminate]. destruct line_range as [[? ?]|]; discriminate. Qed.
Lemma parse_tokens_total data end_pos all : parse_tokens data end_pos all <> DFuel.
Proof.
  unfold parse_tokens. pose proof (parse_top_total (filter_tokens all)) as T.
  destruct parse_top; try discriminate; [|contradiction].
  destruct nth_error; [apply mk_serror_total|].
  destruct List.length; [discriminate|]. destruct nth_error; [apply mk_serror_total|discriminate].
Qed.

(** ** Two runs *)
Section Run.
Variable J : inv.
Hypothesis HJ : inv_ok J.
Variables (fv : str -> str) (fz : Z -> Z) (fd : str -> str) (fs : str -> str).
Hypothesis fs_app : forall a b, fs (a ++ b) = fs a ++ fs b.
Hypothesis fs_nil : forall a, fs a = [] <-> a = [].
Lemma parse_top_rel toks1 toks2 :
  Forall2 (tokrel J fv fz fd fs) toks1 toks2 ->
  (forall s, fv s = s) \/ Forall (fun t => fst t <> Kw KDollarCurlyBracesOpen) toks1 ->
  match parse_top toks1, parse_top toks2 with
  | POk l p, POk l' p' => p = p' /\ map (map_stmt (M1 fv fz fd fs)) l = strip l' /\
      Forall (ok_atom J) (atoms l) /\ Forall (ok_atom J) (atoms l')
  | PErr e p, PErr e' p' => p = p' /\ e = e'
  | PPanic x, PPanic y => x = y
  | _, _ => False
  end.
Proof.
  intros HT Hdc.
  pose proof (top_r J HJ fv fz fd fs toks1 toks2 HT Hdc _ _
    (proj2 (knot_r J HJ fv fz fd fs fs_app fs_nil toks1 toks2 HT Hdc (parse_fuel toks1) (parse_fuel toks2)
      ltac:(unfold parse_fuel; rewrite (len_eq J fv fz fd fs toks1 toks2 HT); lia))) 0) as K.
  pose proof (parse_top_total toks1) as T. unfold parse_top in *.
  match goal with |- match ?a with _ => _ end => destruct a eqn:E1 end; try contradiction;
  match goal with |- match ?a with _ => _ end => destruct a eqn:E2 end; try contradiction; auto.
Qed.
End Run.

Definition any : inv := mkInv (fun _ => True) (fun _ => True) (fun _ => True) (fun _ => True) (fun _ => True) (fun _ => True) (fun _ => True).
Lemma any_ok : inv_ok any.
Proof. constructor; cbn; auto. Qed.
Lemma any_span sp : ok_span any sp.
Proof. repeat split. Qed.
Lemma any_token t : ok_token any t.
Proof. destruct t; exact I. Qed.
Lemma map_tok_id t : map_tok (fun s => s) (fun z => z) (fun d => d) (fun s => s) t = t.
Proof. destruct t; reflexivity. Qed.

Lemma M1_id : M1 (fun s => s) (fun z => z) (fun d => d) (fun s => s) = no_spans.
Proof. reflexivity. Qed.

Lemma span_independence toks toks' : map fst toks = map fst toks' ->
  Forall2 (fun t t' : tokspan => Nat.min 2 (sp_start (snd t)) = Nat.min 2 (sp_start (snd t'))) toks toks' ->
  same_outcome (parse_top toks) (parse_top toks').
Proof.
  intros E S.
  assert (F : Forall2 (tokrel any (fun s => s) (fun z => z) (fun d => d) (fun s => s)) toks toks').
  { revert E. induction S; cbn; intros E; constructor; injection E as E1 E2; auto.
    unfold tokrel. rewrite map_tok_id. repeat split; auto using any_span, any_token. }
  pose proof (parse_top_rel any any_ok (fun s => s) (fun z => z) (fun d => d) (fun s => s)
    ltac:(reflexivity) ltac:(reflexivity) toks toks' F ltac:(left; reflexivity)) as K.
  unfold same_outcome. destruct (parse_top toks), (parse_top toks'); intuition.
Qed.

(** ** Where the leaves come from *)
Definition src_inv (toks : list tokspan) (n : nat) : inv :=
  mkInv (fun x => x <= n)
        (fun d => d = None \/ exists t, In t toks /\ d = sp_doc (snd t))
        (fun s => In (TVariable s) (map fst toks) \/ name_in toks s)
        (name_in toks)
        (fun s => exists parts, Forall (text_in toks) parts /\ s = List.concat parts)
        (fun z => In (TInt z) (map fst toks))
        (fun d => In (TDouble d) (map fst toks)).
Lemma src_ok toks n : inv_ok (src_inv toks n).
Proof.
  constructor; cbn; auto with arith; try lia.
  - intros k s E. right. eauto.
  - intros a b (p & F & ->) (q & G & ->). exists (p ++ q). rewrite concat_app, Forall_app. auto.
  - exists []. auto.
Qed.
Lemma leaves_ok toks n l p : (forall t, In t toks -> sp_start (snd t) <= n /\ sp_end (snd t) <= n) ->
  parse_top toks = POk l p -> Forall (ok_atom (src_inv toks n)) (atoms l).
Proof.
  intros B E.
  assert (G : forall t, In t toks -> tokrel (src_inv toks n) (fun s => s) (fun z => z) (fun d => d) (fun s => s) t t).
  { intros [t sp] I. pose proof (B _ I) as (B1 & B2). pose proof (in_map fst _ _ I) as I'. cbn in B1, B2, I'.
    assert (O1 : ok_token (src_inv toks n) t).
    { destruct t; cbn; unfold name_in, text_in; auto;
      exists [s]; (split; [constructor; [auto|constructor]|cbn; rewrite app_nil_r; reflexivity]). }
    assert (O2 : ok_span (src_inv toks n) sp).
    { repeat split; auto. right. exists (t, sp). auto. }
    unfold tokrel. rewrite map_tok_id. repeat split; auto; apply O2. }
  assert (F : Forall2 (tokrel (src_inv toks n) (fun s => s) (fun z => z) (fun d => d) (fun s => s)) toks toks).
  { revert G. generalize (src_inv toks n). clear. intros i G. induction toks; constructor.
    - apply G. left; auto.
    - apply IHtoks. intros. apply G. right; auto. }
  pose proof (parse_top_rel _ (src_ok toks n) (fun s => s) (fun z => z) (fun d => d) (fun s => s)
    ltac:(reflexivity) ltac:(reflexivity) toks toks F ltac:(left; reflexivity)) as K.
  rewrite E in K. apply K.
Qed.

Lemma max_span (toks : list tokspan) : exists n, forall t, In t toks -> sp_start (snd t) <= n /\ sp_end (snd t) <= n.
Proof.
  induction toks as [|t l (n & IH)]; [exists 0; intros ? []|].
  exists (Nat.max n (Nat.max (sp_start (snd t)) (sp_end (snd t)))). intros x [<-|I]; [lia|].
  specialize (IH _ I). lia.
Qed.

(** ** Renaming *)
Section Rename.
Variables (fv : str -> str) (fz : Z -> Z) (fd : str -> str) (g : N -> str).
Hypothesis g_ne : forall c, g c <> [].
Lemma rename_parse toks :
  (forall s, fv s = s) \/ Forall (fun t => fst t <> Kw KDollarCurlyBracesOpen) toks ->
  match parse_top toks, parse_top (map (fun t => (map_tok fv fz fd (flat_map g) (fst t), snd t)) toks) with
  | POk l p, POk l' p' => p = p' /\ strip l' = map (map_stmt (mkMaps (fun _ => span_new) fv fz fd (flat_map g))) l
  | PErr e p, PErr e' p' => p = p' /\ e = e'
  | PPanic x, PPanic y => x = y
  | _, _ => False
  end.
Proof.
  intros D.
  assert (F : Forall2 (tokrel any fv fz fd (flat_map g)) toks
     (map (fun t => (map_tok fv fz fd (flat_map g) (fst t), snd t)) toks)).
  { clear D. induction toks; cbn; constructor; auto. unfold tokrel. cbn.
    repeat split; auto using any_span, any_token. }
  pose proof (parse_top_rel any any_ok fv fz fd (flat_map g) ltac:(intros; apply flat_map_app)
    ltac:(intros [|c r]; cbn; [tauto|]; split; [|discriminate]; intros X; apply app_eq_nil in X; destruct (g_ne c); tauto)
    _ _ F D) as K.
  destruct (parse_top toks); try contradiction; match type of K with match ?x with _ => _ end => destruct x end; intuition.
Qed.
End Rename.

(** ** Comments *)
Lemma filter_drop all : filter_tokens (drop_comments all) = filter_tokens all.
Proof.
  induction all as [|[t sp] l IH]; auto. unfold drop_comments, filter_tokens in *. cbn [filter fst flat_map].
  rewrite <- IH. destruct t; reflexivity.
Qed.
Definition alike (t t' : tokspan) : Prop :=
  fst t = fst t' /\ Nat.min 2 (sp_start (snd t)) = Nat.min 2 (sp_start (snd t')).
Lemma filter_alike l l' : Forall2 alike l l' -> Forall2 alike (filter_tokens l) (filter_tokens l').
Proof.
  intros H. induction H as [|[t sp] [t' sp'] l l' [E S] F IH]; cbn; [constructor|]. cbn in E, S. subst t'.
  unfold filter_token at 1 3. cbn [fst snd].
  destruct t as [k| | | | | | | |]; try destruct k; cbn [app]; repeat (constructor; [split; auto|]); auto.
Qed.
Lemma alike_outcome l l' : Forall2 alike l l' -> same_outcome (parse_top l) (parse_top l').
Proof.
  intros H. apply span_independence.
  - induction H as [|? ? ? ? [E _]]; cbn; congruence.
  - induction H as [|? ? ? ? [_ E]]; constructor; auto.
Qed.
Lemma alike_intro l l' : map fst l = map fst l' ->
  Forall2 (fun t t' : tokspan => Nat.min 2 (sp_start (snd t)) = Nat.min 2 (sp_start (snd t'))) l l' -> Forall2 alike l l'.
Proof. intros E S. revert E. induction S; cbn; intros E; constructor; injection E as E1 E2; auto. split; auto. Qed.

Lemma comments_dont_matter all all' :
  map fst (drop_comments all) = map fst (drop_comments all') ->
  Forall2 (fun t t' : tokspan => Nat.min 2 (sp_start (snd t)) = Nat.min 2 (sp_start (snd t')))
    (drop_comments all) (drop_comments all') ->
  same_outcome (parse_top (filter_tokens all)) (parse_top (filter_tokens all')).
Proof.
  intros E S. rewrite <- (filter_drop all), <- (filter_drop all').
  apply alike_outcome, filter_alike, alike_intro; auto.
Qed.

(** ** The printer *)
Definition nb (o : out) : Prop := Forall (fun p => p <> Boom) o.
Lemma render_nb o : nb o -> exists s, render o = Some s.
Proof.
  induction o as [|[s|] o IH]; cbn; intros H; [eauto| |].
  - inversion H; subst. destruct IH as (x & ->); eauto.
  - inversion H; subst. congruence.
Qed.
Lemma nb_app a b : nb a -> nb b -> nb (a ++ b).
Proof. unfold nb. rewrite Forall_app. auto. Qed.
Lemma nb_t s : nb (t s).
Proof. repeat constructor. discriminate. Qed.
Lemma nb_w s : nb (w s).
Proof. repeat constructor. discriminate. Qed.
Lemma nb_nil : nb [].
Proof. constructor. Qed.
Lemma nb_nl : nb nl.
Proof. repeat constructor. discriminate. Qed.
Lemma nb_indent n : nb (indent n).
Proof. induction n; cbn [indent]; auto using nb_nil, nb_app, nb_t. Qed.
Lemma nb_writeln n s : nb (writeln n s).
Proof. unfold writeln. auto using nb_app, nb_t, nb_indent, nb_nl. Qed.
Lemma nb_sep s l : nb s -> Forall nb l -> nb (sep_by s l).
Proof.
  intros S F. induction F as [|a r A F IH]; cbn; [apply nb_nil|]. destruct r; auto using nb_app.
Qed.
Lemma nb_flat {A} (f : A -> out) l : Forall (fun a => nb (f a)) l -> nb (flat_map f l).
Proof. induction 1; cbn; auto using nb_nil, nb_app. Qed.
Lemma nb_map {A} (f : A -> out) l : Forall (fun a => nb (f a)) l -> Forall nb (map f l).
Proof. induction 1; cbn; auto. Qed.
Lemma nb_if (b : bool) x y : nb x -> nb y -> nb (if b then x else y).
Proof. destruct b; auto. Qed.
Lemma nb_path p : nb (pr_path p).
Proof. unfold pr_path. destruct (namespace p); auto using nb_app, nb_t, nb_w, nb_if, nb_nil. Qed.
Lemma nb_all {A} (f : A -> out) l : (forall a, nb (f a)) -> Forall (fun a => nb (f a)) l.
Proof. intros H. induction l; auto. Qed.
Create HintDb nb.
#[export] Hint Resolve nb_app nb_t nb_w nb_nil nb_nl nb_indent nb_writeln nb_sep nb_flat nb_map nb_if nb_path nb_all : nb.
Lemma nb_ty x : nb (pr_ty x).
Proof. destruct x as [| | | | | | |[p|]]; cbn [pr_ty]; auto with nb. Qed.
Lemma nb_const c : nb (pr_const c).
Proof. destruct c; cbn; auto with nb; repeat constructor; discriminate. Qed.
Lemma nb_cmods m : nb (pr_cmods m).
Proof. unfold pr_cmods. auto with nb. Qed.
Lemma nb_mmods m : nb (pr_mmods m).
Proof. unfold pr_mmods. auto 10 with nb. Qed.
Lemma nb_curly c e o : nb o -> nb (curly_parens c e o).
Proof. unfold curly_parens. auto with nb. Qed.
Lemma nb_parens e o : nb o -> nb (parens e o).
Proof. apply nb_curly. Qed.
Lemma nb_string s : nb (pr_string s).
Proof. unfold pr_string. auto with nb. Qed.
Lemma nb_suffix o : nb (unop_suffix o).
Proof. destruct o; cbn; auto with nb. Qed.
Lemma nb_include o : nb (include_str o).
Proof. destruct o; cbn; auto with nb. Qed.
#[export] Hint Resolve nb_ty nb_const nb_cmods nb_mmods nb_curly nb_parens nb_string nb_suffix nb_include : nb.
Lemma nb_trait u : nb (pr_trait_use u).
Proof. destruct u as [p m l|[p|] m mods [a|]]; cbn [pr_trait_use]; auto 15 with nb. Qed.
Lemma nb_use n l : nb (pr_use n l).
Proof.
  apply nb_flat, nb_all. intros [p [a|]]; cbn [uc_path uc_alias]; auto 10 with nb.
Qed.
#[export] Hint Resolve nb_trait nb_use : nb.

(** leaves the printer can cope with *)
Definition printable (a : atom) : Prop :=
  match a with ABin _ => False | ACast (TyObject (Some _)) => False | _ => True end.
Definition pg {A} (at_ : A -> list atom) (pr : nat -> A -> out) (x : A) : Prop :=
  Forall printable (at_ x) -> forall n, nb (pr n x).
Lemma all_pg {A} (at_ : A -> list atom) pr l n :
  Forall (pg at_ pr) l -> Forall printable (flat_map at_ l) -> Forall (fun a => nb (pr n a)) l.
Proof.
  intros H. induction H as [|a r A0 F IH]; cbn; intros G; constructor; apply Forall_app in G; destruct G; auto.
Qed.
Lemma nb_list {A} (l : list A) x y : nb x -> nb y -> nb (match l with [] => x | _ :: _ => y end).
Proof. destruct l; auto. Qed.
Lemma all_imp {A} (P Q : A -> Prop) (at_ : A -> list atom) l :
  (forall a, P a -> Forall printable (at_ a) -> Q a) ->
  Forall P l -> Forall printable (flat_map at_ l) -> Forall Q l.
Proof. intros H F. induction F; cbn; intros G; constructor; apply Forall_app in G; destruct G; auto. Qed.
Section Nb.
Variable show : str -> str.
Ltac split_ok :=
  repeat match goal with
  | H : Forall _ (_ ++ _) |- _ => apply Forall_app in H; destruct H
  | H : Forall _ (_ :: _) |- _ => apply Forall_cons_iff in H; destruct H
  end.
Ltac go :=
  repeat first
  [ apply nb_app | apply nb_t | apply nb_w | apply nb_nil | apply nb_nl | apply nb_indent | apply nb_writeln
  | apply nb_path | apply nb_ty | apply nb_const | apply nb_cmods | apply nb_mmods | apply nb_curly | apply nb_parens
  | apply nb_string | apply nb_suffix | apply nb_include | apply nb_trait | apply nb_use
  | apply nb_sep | apply nb_map | apply nb_flat
  | match goal with |- Forall (fun a => nb (?f ?n a)) _ => eapply all_pg; [eassumption|assumption] end
  | solve [match goal with H : pg _ _ ?x |- nb (_ _ ?x) => apply H; assumption end]
  | match goal with |- nb (if ?b then _ else _) => destruct b end
  | apply nb_list
  | match goal with |- nb (match ?o with Some _ => _ | None => _ end) => destruct o; cbn [opt_atoms] in * end
  | apply nb_list
  | solve [match goal with H : forall name, pg _ _ ?x |- nb _ => apply (H _ ltac:(eassumption)) end]
  | solve [apply nb_all; intros; auto 10 with nb]
  | match goal with H : Forall _ ?l |- Forall _ ?l => each H end ]
with each H :=
  eapply all_imp; [|exact H|eassumption];
  let a := fresh "a" in intros a ? ?;
  repeat match goal with
  | x : _ * _ |- _ => destruct x; cbn [fst snd] in *
  | H : _ /\ _ |- _ => destruct H
  | H : optP _ ?o |- _ => destruct o; cbn [optP opt_atoms] in *
  end; split_ok; go.
Lemma printable_nb :
  (forall x, pg atoms_expr (pr_expr show) x) /\ (forall x, pg atoms_expr_ (pr_expr_ show) x) /\
  (forall x, pg atoms_variable (pr_var show) x) /\
  (forall x, forall name, pg atoms_fundecl (fun n => pr_fun show n name) x) /\
  (forall x, pg atoms_param (pr_param show) x) /\
  (forall x, pg atoms_stmt (pr_stmt show) x) /\ (forall x, pg atoms_stmt_ (pr_stmt_ show) x) /\
  (forall x, pg atoms_decl (pr_decl show) x) /\ (forall x, pg atoms_member (pr_member show) x) /\
  (forall x, pg atoms_catch (pr_catch show) x) /\ (forall x, pg atoms_swcase (pr_case show) x).
Proof.
  apply ast_ind; intros; intros F n;
  cbn [atoms_expr atoms_expr_ atoms_variable atoms_fundecl atoms_param atoms_stmt atoms_stmt_ atoms_decl atoms_member
       atoms_catch atoms_swcase opt_atoms] in F;
  cbn [pr_expr pr_expr_ pr_var pr_fun pr_param pr_stmt pr_stmt_ pr_decl pr_member pr_catch pr_case];
  split_ok;
  repeat match goal with H : optP _ ?o |- _ => destruct o; cbn [optP opt_atoms] in * end;
  go.
  - contradiction.
  - destruct x0 as [| | | | | | |[p|]]; cbn; auto with nb. contradiction.
  - cbn [flat_map] in H4. split_ok. go.
  - cbn [flat_map] in H4. split_ok. go.
Qed.

(** printing does not look at positions *)
Lemma map_ext_F {A B} (f g : A -> B) l : Forall (fun a => f a = g a) l -> map f l = map g l.
Proof. induction 1; cbn; congruence. Qed.
Lemma flat_ext_F {A B} (f g : A -> list B) l : Forall (fun a => f a = g a) l -> flat_map f l = flat_map g l.
Proof. induction 1; cbn; congruence. Qed.
Lemma flat_map_map {A B C} (f : B -> list C) (g : A -> B) l : flat_map f (map g l) = flat_map (fun x => f (g x)) l.
Proof. induction l; cbn; congruence. Qed.
Lemma wraps_strip e : wraps (enode (map_expr no_spans e)) = wraps (enode e).
Proof. destruct e as [[] ?]; reflexivity. Qed.
Lemma curly_strip c e o : curly_parens c (map_expr no_spans e) o = curly_parens c e o.
Proof. unfold curly_parens. rewrite wraps_strip. reflexivity. Qed.
Definition ps {A} (mp : maps -> A -> A) (pr : nat -> A -> out) (x : A) : Prop := forall n, pr n (mp no_spans x) = pr n x.
Lemma all_ps {A} (mp : maps -> A -> A) pr l n : Forall (ps mp pr) l -> Forall (fun a => pr n (mp no_spans a) = pr n a) l.
Proof. intros H. eapply Forall_impl; [|exact H]. intros a E. apply E. Qed.
Lemma match_map {A B C} (f : A -> B) l (x y y' : C) : y = y' ->
  match map f l with [] => x | _ :: _ => y end = match l with [] => x | _ :: _ => y' end.
Proof. intros ->. destruct l; reflexivity. Qed.
Ltac eqs :=
  repeat first
  [ reflexivity
  | apply match_map
  | solve [match goal with H : ps _ _ ?x |- _ => apply H end]
  | solve [match goal with H : forall name, ps _ _ ?x |- _ => apply H end]
  | rewrite flat_map_map | rewrite map_map
  | match goal with |- parens (map_expr _ _) _ = _ => unfold parens; rewrite curly_strip end
  | rewrite curly_strip
  | match goal with |- _ ++ _ = _ ++ _ => f_equal end
  | match goal with |- sep_by _ _ = sep_by _ _ => f_equal end
  | match goal with |- curly_parens _ _ _ = curly_parens _ _ _ => f_equal end
  | match goal with |- parens _ _ = parens _ _ => f_equal end
  | match goal with |- _ :: _ = _ :: _ => f_equal end
  | match goal with |- (if ?b then _ else _) = _ => destruct b end
  | match goal with
    | H : Forall _ ?l |- map _ ?l = map _ ?l => apply map_ext_F; eapply Forall_impl; [|exact H];
      let a := fresh "a" in intros a ?;
      repeat match goal with
      | x : _ * _ |- _ => destruct x; cbn [fst snd option_map] in *
      | H : _ /\ _ |- _ => destruct H
      | H : optP _ ?o |- _ => destruct o; cbn [optP option_map] in *
      end
    | H : Forall _ ?l |- flat_map _ ?l = flat_map _ ?l => apply flat_ext_F; eapply Forall_impl; [|exact H];
      let a := fresh "a" in intros a ?;
      repeat match goal with
      | x : _ * _ |- _ => destruct x; cbn [fst snd option_map] in *
      | H : _ /\ _ |- _ => destruct H
      | H : optP _ ?o |- _ => destruct o; cbn [optP option_map] in *
      end
    | |- map _ ?l = map _ ?l => apply map_ext; let a := fresh "a" in intros a; repeat match goal with x : _ * _ |- _ => destruct x end
    end ].
Lemma print_strip :
  (forall x, ps map_expr (pr_expr show) x) /\ (forall x, ps map_expr_ (pr_expr_ show) x) /\
  (forall x, ps map_variable (pr_var show) x) /\
  (forall x, forall name, ps map_fundecl (fun n => pr_fun show n name) x) /\
  (forall x, ps map_param (pr_param show) x) /\
  (forall x, ps map_stmt (pr_stmt show) x) /\ (forall x, ps map_stmt_ (pr_stmt_ show) x) /\
  (forall x, ps map_decl (pr_decl show) x) /\ (forall x, ps map_member (pr_member show) x) /\
  (forall x, ps map_catch (pr_catch show) x) /\ (forall x, ps map_swcase (pr_case show) x).
Proof.
  apply ast_ind; intros; intros n;
  repeat match goal with H : optP _ ?o |- _ => destruct o; cbn [optP] in * end;
  cbn [map_expr map_expr_ map_variable map_fundecl map_param map_stmt map_stmt_ map_decl map_member map_catch map_swcase option_map
       no_spans m_sp m_var m_int m_dbl m_str];
  cbn [pr_expr pr_expr_ pr_var pr_fun pr_param pr_stmt pr_stmt_ pr_decl pr_member pr_catch pr_case];
  unfold id;
  eqs.
Qed.
End Nb.

Lemma strip_print show l l' : strip l = strip l' -> print_statements show l = print_statements show l'.
Proof.
  intros E.
  assert (G : forall l, flat_map (pr_stmt show 0) (strip l) = flat_map (pr_stmt show 0) l).
  { intros x. induction x as [|s x IH]; [reflexivity|]. unfold strip in *. cbn [map flat_map]. rewrite IH. f_equal.
    destruct (print_strip show) as (_ & _ & _ & _ & _ & K & _). apply K. }
  unfold print_statements. rewrite <- (G l), <- (G l'), E. reflexivity.
Qed.
Lemma render_app a b : render (a ++ b) =
  match render a, render b with Some x, Some y => Some (x ++ y) | _, _ => None end.
Proof.
  induction a as [|[s|] a IH]; cbn; [destruct (render b); auto| |reflexivity].
  rewrite IH. destruct (render a), (render b); rewrite ?app_assoc; reflexivity.
Qed.
Lemma print_app show l l' : print_statements show (l ++ l') =
  match print_statements show l, print_statements show l' with Some x, Some y => Some (x ++ y) | _, _ => None end.
Proof. unfold print_statements. rewrite flat_map_app. apply render_app. Qed.

Lemma parsed_printable show toks l p : parse_top toks = POk l p -> exists s, print_statements show l = Some s.
Proof.
  intros E. destruct (max_span toks) as (n & B). pose proof (leaves_ok toks n l p B E) as F.
  apply render_nb. apply nb_flat.
  assert (G : Forall printable (atoms l)).
  { eapply Forall_impl; [|exact F]. intros [] A; cbn in *; auto. destruct A as (k & A).
    destruct t as [| | | | | | |[?|]]; auto. destruct k; cbn in A; congruence. }
  unfold atoms in G. clear F E B. induction l; cbn in G; constructor; apply Forall_app in G; destruct G; auto.
  destruct (printable_nb show) as (_ & _ & _ & _ & _ & K & _). apply K; auto.
Qed.
Lemma parse_tokens_ok data e all l : parse_tokens data e all = DOk l ->
  exists p, parse_top (filter_tokens all) = POk l p.
Proof.
  unfold parse_tokens. destruct parse_top eqn:E; try discriminate.
  - intros H. injection H as ->. eauto.
  - unfold mk_serror.
    repeat match goal with |- context [match ?x with _ => _ end] => destruct x; try discriminate end.
Qed.
Lemma parse_str_ok f code l : parse_str f code = DOk l ->
  exists toks s, tokenize f code = DOk (toks, s) /\ parse_tokens (lines s) (blen code) toks = DOk l.
Proof.
  unfold parse_str. destruct tokenize as [[toks s]|[e s]| |]; try discriminate; eauto.
  unfold mk_serror. repeat match goal with |- context [match ?x with _ => _ end] => destruct x; try discriminate end.
Qed.
Lemma parsed_source_printable show f code l : parse_str f code = DOk l -> exists s, print_statements show l = Some s.
Proof.
  intros H. apply parse_str_ok in H. destruct H as (toks & s & _ & H). apply parse_tokens_ok in H.
  destruct H as (p & H). eapply parsed_printable; eauto.
Qed.
Lemma comments_same_program all all' data data' e e' l show :
  map fst (drop_comments all) = map fst (drop_comments all') ->
  Forall2 (fun t t' : tokspan => Nat.min 2 (sp_start (snd t)) = Nat.min 2 (sp_start (snd t')))
    (drop_comments all) (drop_comments all') ->
  parse_tokens data e all = DOk l ->
  exists l', parse_tokens data' e' all' = DOk l' /\ strip l' = strip l /\ print_statements show l' = print_statements show l.
Proof.
  intros E S H. apply parse_tokens_ok in H. destruct H as (p & H).
  pose proof (comments_dont_matter all all' E S) as K. rewrite H in K. unfold same_outcome in K.
  unfold parse_tokens. destruct (parse_top (filter_tokens all')); try contradiction. destruct K as (_ & K).
  eauto using strip_print.
Qed.
