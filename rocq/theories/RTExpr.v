(** * RTExpr: printed expressions are read back (C20) *)
From Verif Require Import Base Tokens Ast AstMap AstInd Lexer Parser Printer Driver Spec SpecProg SpecRT SmallFacts ParserRel ParserFacts LexBase LexSteps LexTok LexWords LexNum LexFacts LexRun ParseRun ParseTac ParseExpr ParseStmt ParseDecl Emit ProgNames TextTok RTBase.
From Coq Require Import String Ascii.

(** ** Building texts *)
Definition seenby (a : str -> bool) (x : str) (ts : list token) : Prop :=
  forall st r vs, a r = true -> seen LInScripting st r vs -> seen LInScripting st (x ++ r) (ts ++ vs).
Definition uncast (a : str -> bool) (x : str) : Prop := forall r, a r = true -> cast_tail (x ++ r) = None.
Lemma text_cat (h : N -> bool) (a1 a : str -> bool) x y ts1 ts2 : text h a1 x ts1 -> (forall r, a r = true -> a1 (y ++ r) = true) -> seenby a y ts2 ->
  text h a (x ++ y) (ts1 ++ ts2).
Proof.
  intros ((c & z & -> & H) & C & S) A Y. split; [|split].
  - exists c, (z ++ y). auto.
  - intros r R. rewrite <- app_assoc. apply C; auto.
  - intros st r vs R V. rewrite <- !app_assoc. apply S; auto.
Qed.
Lemma text_lit (h : N -> bool) (a : str -> bool) x ts : head_is h x = true -> uncast a x -> seenby a x ts -> text h a x ts.
Proof. intros H C S. split; [|split; auto]. destruct x as [|c y]; [discriminate|]. exists c, y. auto. Qed.
Lemma text_by h a x ts : text h a x ts -> seenby a x ts.
Proof. intros (_ & _ & S). exact S. Qed.
Lemma text_uncast h a x ts : text h a x ts -> uncast a x.
Proof. intros (_ & C & _). exact C. Qed.

(** ** Separated lists *)
Fixpoint sepj (sep : str) (l : list str) : str :=
  match l with [] => [] | [x] => x | x :: r => x ++ sep ++ sepj sep r end.
Lemma out_sep s l : out_str (sep_by (t s) l) = sepj (s2l s) (map out_str l).
Proof.
  induction l as [|a [|b l] IH]; [reflexivity|reflexivity|].
  change (sep_by (t s) (a :: b :: l)) with (a ++ t s ++ sep_by (t s) (b :: l)). rewrite !out_app, out_t, IH. reflexivity.
Qed.
Lemma sepj_by (a : str -> bool) s xs tss : (forall r, a (s2l s ++ r) = true) ->
  (forall st r vs, seen LInScripting st r vs -> seen LInScripting st (s2l s ++ r) (Kw KComma :: vs)) ->
  Forall2 (seenby a) xs tss -> seenby a (sepj (s2l s) xs) (commas tss).
Proof.
  intros A C F. induction F as [|x ts xs tss X F IH]; [intros st r vs _ R; exact R|].
  destruct F as [|y ts' xs tss Y F]; [exact X|]. intros st r vs R V. rewrite commas_cons.
  change (sepj (s2l s) (x :: y :: xs)) with (x ++ s2l s ++ sepj (s2l s) (y :: xs)). rewrite <- !app_assoc. apply X; auto.
Qed.
Lemma comma_sp st r vs : seen LInScripting st r vs -> seen LInScripting st (s2l ", " ++ r) (Kw KComma :: vs).
Proof. intros R. do 2 lx1. exact R. Qed.
Lemma comma_only st r vs : seen LInScripting st r vs -> seen LInScripting st (s2l "," ++ r) (Kw KComma :: vs).
Proof. intros R. lx1; [|exact R]. destruct r; reflexivity. Qed.
Lemma sepj_uncast (a : str -> bool) s xs : (forall r, a (s2l s ++ r) = true) -> xs <> [] -> Forall (uncast a) xs -> uncast a (sepj (s2l s) xs).
Proof.
  intros A NE F. destruct F as [|x xs X F]; [congruence|]. destruct xs as [|y xs]; [exact X|]. intros r R.
  change (sepj (s2l s) (x :: y :: xs)) with (x ++ s2l s ++ sepj (s2l s) (y :: xs)). rewrite <- !app_assoc. apply X, A.
Qed.
(** a list in parentheses *)
Lemma seen_list st xs tss r vs : Forall2 (fun x ts => uncast aft x /\ seenby aft x ts) xs tss -> seen LInScripting st r vs ->
  seen LInScripting st (s2l "(" ++ sepj (s2l ", ") xs ++ s2l ")" ++ r) (Kw KParenthesesOpen :: commas tss ++ Kw KParenthesesClose :: vs).
Proof.
  intros F R. apply seen_paren.
  - destruct xs as [|x xs]; [reflexivity|]. apply (sepj_uncast aft ", " (x :: xs)); [reflexivity|discriminate| |reflexivity].
    clear - F. remember (x :: xs) as l. clear Heql. induction F as [|? ? ? ? [H _]]; constructor; auto.
  - apply (sepj_by aft ", " xs tss); [reflexivity|intros; apply comma_sp; auto| |reflexivity|].
    + clear - F. induction F as [|? ? ? ? [_ H]]; constructor; auto.
    + lx1; [|exact R]. destruct r; reflexivity.
Qed.

Lemma wrapped_wraps x : wrapped x = wraps x.
Proof. destruct x; reflexivity. Qed.
Definition sh (ts : list token) : Prop := forall l, stm_expr_head (ts ++ l).
Lemma sh_app a b : sh a -> sh (a ++ b).
Proof. intros H l. rewrite <- app_assoc. apply H. Qed.
Definition is_inst (e : expr_) : bool := match e with EInstanceOf _ _ => true | _ => false end.

Section Sf.
Variable sf : str -> str.
Definition ptext (n : nat) (e : expr) : str := out_str (pr_expr sf n e).
Definition kindT (x : expr_) (s : str) (ts : list token) : Prop :=
  if is_number x then text hsoft aft s ts else if atomic x || is_inst x then text hword follows s ts else text hfull aft s ts.
Definition J (x : expr_) (ts : list token) (e : expr) : Prop :=
  if varlike x then Var ts e else if atomic x then Operand oplike ts e else if is_inst x then Chain 16 15 ts e else Full ts e.
Definition GEx (e : expr) (ts : list token) : Prop :=
  (forall n, kindT (enode e) (ptext n e) ts) /\ J (enode e) ts (strip_expr e) /\ sh ts.
Definition GE (e : expr) : Prop := good sf e = true -> exists ts, GEx e ts.

Lemma ge_text e ts n : GEx e ts -> text hfull aft (ptext n e) ts.
Proof.
  intros (T & _ & _). specialize (T n). unfold kindT in T. destruct (is_number (enode e)); [apply text_full_soft, T|].
  destruct (_ || _); [apply text_full_word, T|exact T].
Qed.
Lemma operand_is_full ts e : Operand oplike ts e -> Full ts e.
Proof. apply full_closing, closing_oplike. Qed.
Lemma ge_full e ts : GEx e ts -> Full ts (strip_expr e).
Proof.
  intros (_ & G & _). unfold J in G. destruct (varlike _); [apply operand_is_full, var_operand, G|].
  destruct (atomic _); [apply operand_is_full, G|]. destruct (is_inst _); [eapply chain_full; [|exact G]; lia|exact G].
Qed.
Definition num_text (x : expr_) (s : str) (ts : list token) : Prop := if is_number x then text hsoft aft s ts else text hword follows s ts.
Lemma num_soft x s ts : num_text x s ts -> text hsoft aft s ts.
Proof. unfold num_text. destruct (is_number x); auto. apply text_weak; auto using soft_word, aft_follows. Qed.
Lemma num_wrap x : wrapped x = true -> is_number x = false.
Proof. destruct x; auto; discriminate. Qed.
Lemma num_var x : varlike x = true -> is_number x = false.
Proof. destruct x; auto; discriminate. Qed.
Lemma num_inst x : is_inst x = true -> is_number x = false.
Proof. destruct x; auto; discriminate. Qed.
Lemma paren_text e ts n : GEx e ts -> wrapped (enode e) = true ->
  text hword follows (out_str (parens e (pr_expr sf n e))) (Kw KParenthesesOpen :: ts ++ [Kw KParenthesesClose]).
Proof.
  intros G W. pose proof (ge_text _ _ n G) as T. unfold ptext in T. unfold parens, curly_parens. rewrite <- wrapped_wraps, W. outs.
  apply text_lit; [reflexivity|intros r _; rewrite <- !app_assoc; apply cast_other; reflexivity|].
  intros st r vs F R. rewrite <- !app_assoc. cbn [app]. apply seen_paren; [apply (text_cast _ _ _ _ _ T); reflexivity|].
  rewrite <- app_assoc. apply (text_seen _ _ _ _ _ _ _ T); [reflexivity|]. cbn [app]. lx1; [|exact R]. destruct r; reflexivity.
Qed.
Lemma sh_paren ts : sh (Kw KParenthesesOpen :: ts).
Proof. intros l. exact Logic.I. Qed.
(** the base of an access *)
Definition GBase (e : expr) (ts : list token) : Prop :=
  (forall n, text hword follows (out_str (parens e (pr_expr sf n e))) ts) /\ Var ts (strip_expr e) /\ sh ts.
Lemma ge_base e ts : GEx e ts -> base_ok (enode e) = true -> exists ts', GBase e ts'.
Proof.
  intros G B. unfold base_ok in B. destruct (wrapped (enode e)) eqn:W.
  - eexists. split; [intros n; apply paren_text; eauto|]. split; [|apply sh_paren]. apply var_paren. apply ge_full, G.
  - cbn [orb] in B. exists ts. destruct G as (T & G & S). split; [|split; [unfold J in G; rewrite B in G; exact G|exact S]].
    intros n. specialize (T n). unfold kindT in T. rewrite (num_var _ B) in T. unfold atomic in T. rewrite B in T. cbn [orb] in T.
    unfold parens, curly_parens. rewrite <- wrapped_wraps, W. exact T.
Qed.
(** the operand of a unary operator *)
Definition GUn (e : expr) (ts : list token) : Prop :=
  (forall n, num_text (enode e) (out_str (parens e (pr_expr sf n e))) ts) /\ Operand oplike ts (strip_expr e) /\ sh ts.
Lemma ge_un e ts : GEx e ts -> wrapped (enode e) || atomic (enode e) = true -> exists ts', GUn e ts'.
Proof.
  intros G B. destruct (wrapped (enode e)) eqn:W.
  - eexists. split; [intros n; unfold num_text; rewrite (num_wrap _ W); apply paren_text; eauto|]. split; [|apply sh_paren]. apply var_operand, var_paren. apply ge_full, G.
  - cbn [orb] in B. exists ts. destruct G as (T & G & S). split; [|split; [|exact S]].
    + intros n. specialize (T n). unfold kindT in T. unfold num_text. unfold parens, curly_parens. rewrite <- wrapped_wraps, W.
      destruct (is_number _); [exact T|]. rewrite B in T. exact T.
    + unfold J in G. rewrite B in G. destruct (varlike _); [apply var_operand, G|exact G].
Qed.
(** the operand of a binary operator *)
Definition GOp (e : expr) (ts : list token) : Prop :=
  (forall n, num_text (enode e) (out_str (parens e (pr_expr sf n e))) ts) /\ Chain 16 15 ts (strip_expr e) /\ sh ts.
Lemma ge_op e ts : GEx e ts -> operand_ok (enode e) = true -> exists ts', GOp e ts'.
Proof.
  intros G B. unfold operand_ok in B. destruct (wrapped (enode e) || atomic (enode e)) eqn:W.
  - destruct (ge_un e ts G W) as (ts' & A & O & S). exists ts'. split; [exact A|]. split; [|exact S]. eapply chain_weak; [| |apply operand_chain, O]; lia.
  - cbn [orb] in B. exists ts. apply orb_false_elim in W. destruct W as [W1 W2]. destruct G as (T & G & S). split; [|split; [|exact S]].
    + intros n. specialize (T n). unfold kindT in T. unfold num_text, parens, curly_parens. rewrite <- wrapped_wraps, W1.
      change (is_inst (enode e) = true) in B. rewrite (num_inst _ B), B in *. rewrite orb_true_r in T. exact T.
    + unfold J in G. change (is_inst (enode e) = true) in B. assert (V : varlike (enode e) = false) by (unfold atomic in W2; apply orb_false_elim in W2; tauto).
      rewrite V, W2, B in G. exact G.
Qed.
Lemma ge_var e ts : GEx e ts -> varlike (enode e) = true -> (forall n, text hword follows (ptext n e) ts) /\ Var ts (strip_expr e) /\ sh ts.
Proof.
  intros (T & G & S) B. unfold kindT, J in *. rewrite B in G. unfold atomic in T. rewrite B, (num_var _ B) in T. cbn [orb] in T. auto.
Qed.
Lemma ge_atom e ts : GEx e ts -> atomic (enode e) = true -> is_number (enode e) = false ->
  (forall n, text hword follows (ptext n e) ts) /\ Operand oplike ts (strip_expr e) /\ sh ts.
Proof.
  intros (T & G & S) B N. unfold kindT, J in *. rewrite B, N in *. split; [exact T|]. split; [|exact S]. destruct (varlike _); [apply var_operand, G|exact G].
Qed.

(** ** Leaves *)
Ltac gex := unfold GEx; cbn [enode kindT J is_number is_inst atomic varlike orb]; unfold kindT, J; cbn [enode is_number is_inst atomic varlike orb].
Lemma ge_path p sp : name_expr_ok p = true -> GEx (Ex (EPath p) sp) (path_tokens p).
Proof.
  intros P. gex. split; [intros n; unfold ptext; cbn [pr_expr pr_expr_]; rewrite out_path; apply name_text_ok, P|].
  split; [apply post_operand; auto; apply name_expr_post, P|].
  intros l. destruct (path_head (is_absolute p) (frags p) (frags_ne p)) as (t & r & E & T). unfold path_tokens. rewrite E.
  destruct t as [k| | | | | | | |]; try discriminate; [|exact Logic.I]. destruct k; try discriminate. exact Logic.I.
Qed.
Lemma ge_const c sp : match c with CTrue | CFalse | CNull => true | _ => false end = true -> exists ts, GEx (Ex (EConst c) sp) ts.
Proof.
  intros H. assert (X : exists w : string, pr_const c = t w /\ SpecProg.plain_word (s2l w) = true /\ cast_word (s2l w) = false /\ resolve_constant (Ex (EPath (path_of false [s2l w])) span_new) = Ex (EConst c) span_new).
  { destruct c; try discriminate; [exists "null"%string|exists "true"%string|exists "false"%string]; repeat split. }
  destruct X as (w & W1 & W2 & W3 & W4). exists [TString (s2l w)]. destruct (plain_word_facts _ W2) as (I & _). destruct (ident_label _ I) as (N1 & N2 & c0 & y & N3 & N4). gex. split; [|split].
  - intros n. unfold ptext. cbn [pr_expr pr_expr_]. rewrite W1, out_t. split; [eauto|split].
    + intros r F. apply cast_label; auto using follows_label.
    + intros st r vs F R. apply seen_plain; auto.
  - cbn [strip_expr map_expr map_expr_ no_spans m_sp]. rewrite <- W4. apply post_operand; auto. apply post_name. left. exists false, [s2l w]. split; [discriminate|]. auto.
  - intros l. exact Logic.I.
Qed.
Lemma ge_string s sp : string_ok s = true -> GEx (Ex (EString s) sp) [TCes s].
Proof.
  intros P. gex. split; [intros n; apply string_text, P|]. split; [apply var_string|]. intros l. exact Logic.I.
Qed.
Lemma ge_int z sp : int_ok z = true -> GEx (Ex (EInt z) sp) [TInt z].
Proof.
  intros P. gex. split; [intros n; unfold ptext; cbn [pr_expr pr_expr_]; rewrite out_w; apply int_text, P|].
  split; [apply post_operand; auto; apply post_scalar; reflexivity|]. intros l. exact Logic.I.
Qed.
Lemma ge_double d sp : double_ok sf d = true -> GEx (Ex (EDouble d) sp) [TDouble d].
Proof.
  intros P. gex. split; [intros n; unfold ptext; cbn [pr_expr pr_expr_]; rewrite out_w; apply double_text, P|].
  split; [apply post_operand; auto; apply post_scalar; reflexivity|]. intros l. exact Logic.I.
Qed.
Lemma ge_vname v sp : name_ok v = true -> GEx (Ex (EVar (VName v)) sp) [TVariable v].
Proof.
  intros P. gex. split; [intros n; unfold ptext; cbn [pr_expr pr_expr_ pr_var]; outs; apply var_text, P|].
  split; [apply var_simple|]. intros l. exact Logic.I.
Qed.

(** ** Lists *)
Lemma all_ge {A} (P Q : A -> Prop) (R : list token -> A -> Prop) (l : list A) : Forall P l -> (forall a, P a -> exists ts, R ts a) -> exists tss, Forall2 R tss l.
Proof.
  intros F H. induction F as [|a l X F (tss & IH)]; [exists []; constructor|]. destruct (H a X) as (ts & T). exists (ts :: tss). constructor; auto.
Qed.
Lemma forall2_mapr {A B C} (R : A -> C -> Prop) (f : B -> C) tss l : Forall2 (fun ts a => R ts (f a)) tss l -> Forall2 R tss (map f l).
Proof. intros F. induction F; cbn; constructor; auto. Qed.
Lemma forall2_texts {A B} (R : list token -> A -> Prop) (f : A -> B) (Q : B -> list token -> Prop) tss l : Forall2 R tss l -> (forall ts a, R ts a -> Q (f a) ts) -> Forall2 Q (map f l) tss.
Proof. intros F H. induction F; cbn; constructor; auto. Qed.
Lemma forall2_weak {A B} (R Q : A -> B -> Prop) tss l : Forall2 R tss l -> (forall ts a, R ts a -> Q ts a) -> Forall2 Q tss l.
Proof. intros F H. induction F; constructor; auto. Qed.
Lemma forall2_ne {A B} (R : A -> B -> Prop) tss l : Forall2 R tss l -> some_list l = true -> tss <> [].
Proof. intros F H. destruct F; discriminate. Qed.
(** several expressions *)
Definition GEs (l : list expr) (tss : list (list token)) : Prop := Forall2 (fun ts e => GEx e ts) tss l.
Lemma ge_all l : Forall GE l -> forallb (good sf) l = true -> exists tss, GEs l tss.
Proof.
  intros F G. induction F as [|e l X F IH]; [exists []; constructor|]. cbn in G. apply andb_prop in G. destruct G as [G1 G2].
  destruct (X G1) as (ts & T). destruct (IH G2) as (tss & TS). exists (ts :: tss). constructor; auto.
Qed.
Lemma ges_full l tss : GEs l tss -> Forall2 Full tss (map strip_expr l).
Proof. intros G. apply forall2_mapr. eapply forall2_weak; [exact G|]. intros ts e. apply ge_full. Qed.
Lemma ges_texts l tss n : GEs l tss -> Forall2 (fun x ts => uncast aft x /\ seenby aft x ts) (map (ptext n) l) tss.
Proof.
  intros G. eapply forall2_texts; [exact G|]. intros ts e X. pose proof (ge_text _ _ n X) as T. split; [eapply text_uncast|eapply text_by]; exact T.
Qed.
Lemma out_args n l : out_str (sep_by (t ", ") (map (pr_expr sf n) l)) = sepj (s2l ", ") (map (ptext n) l).
Proof. rewrite out_sep, map_map. reflexivity. Qed.
(** arguments *)
Definition argp (e : expr) : Prop := match e with Ex (EUnpack e') _ => GE e' | e => GE e end.
Definition good_arg (e : expr) : bool := match e with Ex (EUnpack e') _ => good sf e' | e => good sf e end.
Lemma ge_arg e : argp e -> good_arg e = true -> exists ts, Arg ts (strip_expr e) /\ forall n, uncast aft (ptext n e) /\ seenby aft (ptext n e) ts.
Proof.
  intros P G. assert (D : (exists e' sp, e = Ex (EUnpack e') sp) \/ (GE e /\ good sf e = true)).
  { destruct e as [x sp]. destruct x; auto. left. eauto. }
  destruct D as [(e' & sp & ->)|[P' G']].
  - cbn in P, G. destruct (P G) as (ts & T). exists (Kw KEllipsis :: ts). split.
    + right. exists ts, (strip_expr e'). split; [reflexivity|]. split; [apply ge_full, T|reflexivity].
    + intros n. pose proof (ge_text _ _ n T) as X. unfold ptext in *. cbn [pr_expr pr_expr_]. outs. split.
      * intros r _. rewrite <- app_assoc. apply cast_other; reflexivity.
      * intros st r vs F R. rewrite <- app_assoc. cbn [app]. lx1; [|apply (text_by _ _ _ _ X); auto]. eapply text_stops; [exact X|reflexivity].
  - destruct (P' G') as (ts & T). exists ts. split; [left; apply ge_full, T|]. intros n. pose proof (ge_text _ _ n T) as X.
    split; [eapply text_uncast|eapply text_by]; exact X.
Qed.
Definition GArgs (l : list expr) (tss : list (list token)) : Prop :=
  Forall2 Arg tss (map strip_expr l) /\ forall n, Forall2 (fun x ts => uncast aft x /\ seenby aft x ts) (map (ptext n) l) tss.
Lemma ge_args l : Forall argp l -> forallb good_arg l = true -> exists tss, GArgs l tss.
Proof.
  intros F G. induction F as [|e l X F IH]; [exists []; split; constructor|]. cbn in G. apply andb_prop in G. destruct G as [G1 G2].
  destruct (ge_arg e X G1) as (ts & T1 & T2). destruct (IH G2) as (tss & TS1 & TS2). exists (ts :: tss). split; [constructor; auto|]. intros n. constructor; [apply T2|apply TS2].
Qed.
(** pairs *)
Definition pairp (kv : option expr * expr) : Prop := optP GE (fst kv) /\ GE (snd kv).
Definition good_pair (kv : option expr * expr) : bool := match kv with (k, v) => match k with Some k => good sf k | None => true end && good sf v end.
Definition pr_pair (n : nat) (kv : option expr * expr) : out :=
  match kv with (Some k, v) => pr_expr sf n k ++ t " => " ++ pr_expr sf n v | (None, v) => pr_expr sf n v end.
Lemma ge_pair kv : pairp kv -> good_pair kv = true -> exists ts, Pair ts (strip_pair kv) /\ forall n, text hfull aft (out_str (pr_pair n kv)) ts.
Proof.
  intros [P1 P2] G. destruct kv as [[k|] v]; cbn [fst snd optP good_pair pr_pair] in *.
  - apply andb_prop in G. destruct G as [G1 G2]. destruct (P1 G1) as (tk & K). destruct (P2 G2) as (tv & V).
    exists (tk ++ Kw KDoubleArrow :: tv). split; [exists tk, tv; split; [reflexivity|]; split; apply ge_full; auto|].
    intros n. rewrite !out_app, out_t. pose proof (ge_text _ _ n K) as TK. pose proof (ge_text _ _ n V) as TV. eapply text_cat; [exact TK|reflexivity|].
    intros st r vs F R. rewrite <- app_assoc. cbn [app]. do 3 lx1. apply (text_by _ _ _ _ TV); auto.
  - destruct (P2 G) as (ts & T). exists ts. split; [apply ge_full, T|]. intros n. apply ge_text, T.
Qed.
Definition GPairs (l : list (option expr * expr)) (tss : list (list token)) : Prop :=
  Forall2 Pair tss (map strip_pair l) /\ forall n, Forall2 (text hfull aft) (map (fun kv => out_str (pr_pair n kv)) l) tss.
Lemma ge_pairs l : Forall pairp l -> forallb good_pair l = true -> exists tss, GPairs l tss.
Proof.
  intros F G. induction F as [|e l X F IH]; [exists []; split; constructor|]. cbn in G. apply andb_prop in G. destruct G as [G1 G2].
  destruct (ge_pair e X G1) as (ts & T1 & T2). destruct (IH G2) as (tss & TS1 & TS2). exists (ts :: tss). split; [constructor; auto|]. intros n. constructor; [apply T2|apply TS2].
Qed.
Lemma texts_by h xs tss : Forall2 (text h aft) xs tss -> seenby aft (sepj (s2l ", ") xs) (commas tss).
Proof.
  intros F. apply sepj_by; [reflexivity|intros; apply comma_sp; auto|]. eapply forall2_weak; [exact F|]. intros x ts. apply text_by.
Qed.
Lemma texts_un h xs tss : Forall2 (text h aft) xs tss -> Forall2 (fun x ts => uncast aft x /\ seenby aft x ts) xs tss.
Proof. intros F. eapply forall2_weak; [exact F|]. intros x ts T. split; [eapply text_uncast|eapply text_by]; exact T. Qed.
Lemma out_pairs n l : out_str (sep_by (t ", ") (map (fun kv : option expr * expr => match kv with (Some k, v) => pr_expr sf n k ++ t " => " ++ pr_expr sf n v | (None, v) => pr_expr sf n v end) l)) =
  sepj (s2l ", ") (map (fun kv => out_str (pr_pair n kv)) l).
Proof. rewrite out_sep, map_map. reflexivity. Qed.
Lemma stops_any op r : op <> "."%string -> bad op = [] -> stops op r = true.
Proof. intros N B. unfold stops. rewrite B. destruct r; auto. destruct (str_eqb (s2l op) (s2l ".")) eqn:E; auto. exfalso. apply N. apply str_eqb_eq in E. destruct op as [|c [|]]; try discriminate. cbn in E. injection E as E. apply (f_equal Ascii.ascii_of_N) in E. rewrite Ascii.ascii_N_embedding in E. subst. reflexivity. Qed.
Lemma ge_array l sp : Forall pairp l -> forallb good_pair l = true -> exists ts, GEx (Ex (EArray l) sp) ts.
Proof.
  intros F G. destruct (ge_pairs l F G) as (tss & T1 & T2). eexists. gex. split; [|split; [apply var_array; exact T1|intros x; exact Logic.I]].
  intros n. unfold ptext. cbn [pr_expr pr_expr_]. rewrite !out_app, out_pairs, !out_t. apply text_lit; [reflexivity|intros r _; apply cast_other; reflexivity|].
  intros st r vs A R. rewrite <- !app_assoc. cbn [app]. lx1; [apply stops_any; [discriminate|reflexivity]|].
  rewrite <- app_assoc. apply (texts_by _ _ _ (T2 n)); [reflexivity|]. cbn [app]. lx1; [apply stops_any; [discriminate|reflexivity]|exact R].
Qed.

Ltac st_ := first [reflexivity | apply stops_any; [discriminate|reflexivity] | eapply text_stops; [eassumption|reflexivity]].
Ltac lx := lx1; try (solve [st_]).
Ltac apps := cbn [app]; rewrite <- ?app_assoc; cbn [app].
(** ** Keywords with an expression *)
Lemma kw_text e ts n (wd : string) k r st vs : GEx e ts -> word_token (s2l wd) = Kw k -> Spec.identifier (s2l wd) = true -> aft r = true ->
  seen LInScripting st r vs -> seen LInScripting st (s2l wd ++ s2l " " ++ ptext n e ++ r) (Kw k :: ts ++ vs).
Proof.
  intros G W I A R. apply seen_kw; auto. lx. apply (text_by _ _ _ _ (ge_text _ _ n G)); auto.
Qed.
Lemma kw_paren e ts n (wd : string) k r st vs : GEx e ts -> word_token (s2l wd) = Kw k -> Spec.identifier (s2l wd) = true ->
  seen LInScripting st r vs -> seen LInScripting st (s2l wd ++ s2l "(" ++ ptext n e ++ s2l ")" ++ r) (Kw k :: Kw KParenthesesOpen :: ts ++ Kw KParenthesesClose :: vs).
Proof.
  intros G W I R. pose proof (ge_text _ _ n G) as T. apply seen_kw; auto. apply seen_paren; [apply (text_cast _ _ _ _ _ T); reflexivity|].
  apply (text_by _ _ _ _ T); [reflexivity|]. lx. exact R.
Qed.
Lemma ge_clone e sp ts : GEx e ts -> GEx (Ex (EClone e) sp) (Kw KClone :: ts).
Proof.
  intros G. gex. split; [|split; [|intros l; exact Logic.I]].
  - intros n. unfold ptext. cbn [pr_expr pr_expr_]. outs. apply text_lit; [reflexivity|intros r _; reflexivity|].
    intros st r vs A R. apps. apply (kw_text e ts n "clone" KClone); auto.
  - apply (full_closing closing); auto. apply post_operand; [apply closing_oplike|]. apply post_clone, ge_full, G.
Qed.
Lemma ge_empty e sp ts : GEx e ts -> GEx (Ex (EEmpty e) sp) (Kw KEmpty :: Kw KParenthesesOpen :: ts ++ [Kw KParenthesesClose]).
Proof.
  intros G. gex. split; [|split; [|intros l; exact Logic.I]].
  - intros n. unfold ptext. cbn [pr_expr pr_expr_]. outs. apply text_lit; [reflexivity|intros r _; reflexivity|].
    intros st r vs A R. apps. apply (kw_paren e ts n "empty" KEmpty); auto.
  - apply post_operand; auto. apply post_empty, ge_full, G.
Qed.
Lemma ge_exit e sp ts : GEx e ts -> GEx (Ex (EExit (Some e)) sp) (Kw KExit :: Kw KParenthesesOpen :: ts ++ [Kw KParenthesesClose]).
Proof.
  intros G. gex. split; [|split; [|intros l; exact Logic.I]].
  - intros n. unfold ptext. cbn [pr_expr pr_expr_]. outs. apply text_lit; [reflexivity|intros r _; reflexivity|].
    intros st r vs A R. apps. apply (kw_paren e ts n "exit" KExit); auto.
  - apply post_operand; auto. apply post_exit, ge_full, G.
Qed.
Lemma ge_isset l sp tss : GEs l tss -> some_list l = true -> GEx (Ex (EIsset l) sp) (Kw KIsset :: Kw KParenthesesOpen :: commas tss ++ [Kw KParenthesesClose]).
Proof.
  intros G NE. gex. split; [|split; [|intros x; exact Logic.I]].
  - intros n. unfold ptext. cbn [pr_expr pr_expr_]. rewrite !out_app, out_args, !out_t. apply text_lit; [reflexivity|intros r _; reflexivity|].
    intros st r vs A R. apps. change (s2l "isset(") with (s2l "isset" ++ s2l "("). apps. apply seen_kw; auto.
    apply seen_list; [apply ges_texts, G|exact R].
  - apply post_operand; auto. apply post_isset; [eapply forall2_ne; eauto|apply ges_full, G].
Qed.
Lemma ge_include i e sp ts : GEx e ts -> exists ts', GEx (Ex (EInclude i e) sp) ts'.
Proof.
  intros G. assert (X : exists (wd : string) k, include_str i = t wd /\ word_token (s2l wd) = Kw k /\ Spec.identifier (s2l wd) = true /\ include_of k = Some i /\ head_is hfull (s2l wd) = true /\
     (forall r, cast_tail (s2l wd ++ s2l " " ++ r) = None) /\ (forall l, stm_expr_head (Kw k :: l))).
  { destruct i; [exists "include"%string, KInclude|exists "include_once"%string, KIncludeOnce|exists "require"%string, KRequire|exists "require_once"%string, KRequireOnce]; repeat split. }
  destruct X as (wd & k & X1 & X2 & X3 & X4 & X5 & X6 & X7). exists (Kw k :: ts). gex. split; [|split; [|intros l; apply X7]].
  - intros n. unfold ptext. cbn [pr_expr pr_expr_]. rewrite X1. outs. apply text_lit.
    + destruct (s2l wd); [discriminate|exact X5].
    + intros r _. apps. apply X6.
    + intros st r vs A R. apps. apply (kw_text e ts n wd k); auto.
  - apply (full_closing closing); auto. apply post_operand; [apply closing_oplike|]. apply post_include; auto. apply ge_full, G.
Qed.

(** ** Yield *)
Lemma from_stops w r : ends_word r = true -> starts_with (s2l "from") w = false -> starts_with (s2l "from") (w ++ r) = false.
Proof.
  intros E. assert (G : forall p, forallb (fun c => negb (ends_word [c])) p = true -> forall w, starts_with p w = false -> starts_with p (w ++ r) = false); [|apply (G (s2l "from") eq_refl)].
  induction p as [|c p IH]; intros P v X; [discriminate|]. cbn [forallb] in P. apply andb_prop in P. destruct P as [P1 P2]. destruct v as [|d v].
  - cbn [app]. destruct r as [|d r]; [reflexivity|]. cbn [starts_with]. destruct (N.eqb_spec c d) as [->|]; [|reflexivity]. change (ends_word (d :: r)) with (ends_word [d]) in E. rewrite E in P1. discriminate.
  - cbn [app starts_with] in *. destruct (c =? d)%N; [|reflexivity]. cbn [andb] in *. apply IH; assumption.
Qed.
Lemma from_parens b n r : (from_first b = false -> forall r, ends_word r = true -> starts_with (s2l "from") (ptext n b ++ r) = false) ->
  negb (wrapped (enode b)) && from_first b = false -> ends_word r = true -> starts_with (s2l "from") (out_str (parens b (pr_expr sf n b)) ++ r) = false.
Proof.
  intros IH F R. unfold parens, curly_parens. change (wraps (enode b)) with (wrapped (enode b)). destruct (wrapped (enode b)).
  - rewrite !out_app, out_t. reflexivity.
  - apply IH; assumption.
Qed.
Lemma op_word o r : ends_word (s2l (op_str o) ++ r) = true.
Proof. destruct o; reflexivity. Qed.
Lemma unfrom : forall e n, from_first e = false -> forall r, ends_word r = true -> starts_with (s2l "from") (ptext n e ++ r) = false.
Proof.
  fix IH 1. intros [x sp] n F r R. unfold ptext. cbn [pr_expr]. cbn [from_first] in F.
  destruct x; try discriminate F; cbn [pr_expr_ from_first_] in *; rewrite ?out_app, ?out_t, <- ?app_assoc; try reflexivity.
  - unfold pr_path. outs. destruct (is_absolute p); outs; [reflexivity|]. cbn [negb andb] in F. destruct (namespace p) as [ns|]; outs; apply from_stops; auto.
  - destruct c; reflexivity.
  - rewrite out_w. destruct (show_N_head 0) as (c & y & E & D), z as [|p|p]; cbn [show_Z]; [rewrite E| |reflexivity].
    + destruct (N.eqb_spec c 102) as [->|N]; [discriminate D|]. cbn [app]. change (starts_with (s2l "from") (c :: ?r)) with ((102 =? c)%N && starts_with (s2l "rom") r). apply N.eqb_neq in N. rewrite N.eqb_sym, N. reflexivity.
    + destruct (show_N_head (Npos p)) as (c' & y' & E' & D'). rewrite E'. destruct (N.eqb_spec c' 102) as [->|N]; [discriminate D'|]. cbn [app].
      change (starts_with (s2l "from") (c' :: ?r)) with ((102 =? c')%N && starts_with (s2l "rom") r). apply N.eqb_neq in N. rewrite N.eqb_sym, N. reflexivity.
  - destruct v; cbn [pr_var]; outs; reflexivity.
  - destruct t; reflexivity.
  - apply from_parens; [apply IH|exact F|]. destruct l as [|i l]; [exact R|]. cbn [flat_map]. outs. reflexivity.
  - apply from_parens; [apply IH|exact F|]. destruct l as [|i l]; [exact R|]. cbn [flat_map]. outs. reflexivity.
  - apply from_parens; [apply IH|exact F|]. destruct l as [|i l]; [exact R|]. cbn [flat_map]. outs. reflexivity.
  - apply IH; [exact F|reflexivity].
  - destruct o; cbn [unop_prefix fst snd unop_suffix]; try reflexivity; apply IH; auto.
  - apply from_parens; [apply IH|exact F|apply op_word].
  - apply IH; [exact F|reflexivity].
  - destruct d. cbn [pr_fun]. outs. reflexivity.
  - apply IH; [exact F|reflexivity].
  - apply IH; [exact F|apply op_word].
  - apply IH; [exact F|reflexivity].
  - apply from_parens; [apply IH|exact F|reflexivity].
Qed.
Lemma ge_yield e sp ts : GEx e ts -> from_first e = false -> GEx (Ex (EYield (Some e)) sp) (Kw KYield :: ts).
Proof.
  intros G F. gex. split; [|split; [|intros l; exact Logic.I]].
  - intros n. unfold ptext. cbn [pr_expr pr_expr_]. outs. apply text_lit; [reflexivity|intros r _; reflexivity|].
    intros st r vs A R. apps. pose proof (ge_text _ _ n G) as T.
    change (s2l "yield " ++ ?x) with (s2l "yield" ++ s2l " " ++ x). apply (seen_step LInScripting st _ (Kw KYield) LInScripting st (ptext n e ++ r) (ts ++ vs)); [discriminate| |discriminate| |reflexivity].
    + apply step_yield; [reflexivity| |reflexivity|]; [|apply unfrom; [exact F|apply follows_word, aft_follows, A]].
      destruct T as ((c & y & E & C) & _). rewrite E. intros d z X. injection X as <- _. revert C. clear. unfold SpecMixed.white. cbn [forallb]. intros C. destruct ((c =? 32) || (c =? 9) || (c =? 13) || (c =? 10))%N eqn:W; [|reflexivity]. repeat (apply orb_prop in W; destruct W as [W|W]); apply N.eqb_eq in W; subst c; discriminate C.
    + apply (text_by _ _ _ _ T); auto.
  - apply (full_closing closing); auto. apply post_operand; [apply closing_oplike|]. apply post_yield, ge_full, G.
Qed.

(** ** Classes *)
(** what may follow a class where it is the operand of [::] *)
Definition folc (r : str) : bool := follows r && negb (head_is (N.eqb 41) (skip_blank r)).
Lemma class_text p : class_ok p = true -> exists ts, Cls ts p /\ seenby follows (path_text p) ts /\ text hword folc (path_text p) ts /\ forall x, sh (ts ++ Kw KScopeOp :: x).
Proof.
  assert (FF : forall r, folc r = true -> follows r = true /\ head_is (N.eqb 41) (skip_blank r) = false).
  { intros r F. apply andb_prop in F. destruct F as [F1 F2]. apply negb_true_iff in F2. auto. }
  unfold class_ok. destruct (path_ok p) eqn:P.
  - intros _. exists (path_tokens p). assert (S : seenby follows (path_text p) (path_tokens p)) by (intros st r vs F R; apply seen_path; auto).
    split; [apply path_cls|]. split; [exact S|]. split.
    + split; [apply path_head_text, P|]. split; [|intros st r vs F R; apply S; auto; apply FF, F]. intros r F. apply FF in F. apply cast_path; [exact P|apply follows_label; tauto|tauto].
    + intros x l. destruct (path_head (is_absolute p) (frags p) (frags_ne p)) as (t & r & E & T). unfold path_tokens. rewrite E.
      destruct t as [k| | | | | | | |]; try discriminate; [|exact Logic.I]. destruct k; try discriminate. exact Logic.I.
  - cbn [orb]. destruct p as [abs ns i]. unfold is_static. cbn [is_absolute namespace Ast.identifier]. destruct abs; [discriminate|]. destruct ns; [discriminate|]. cbn.
    intros H. apply str_eqb_eq in H. subst i. exists [Kw KStatic]. change (path_text (mkPath false None (s2l "static"))) with (s2l "static").
    assert (S : seenby follows (s2l "static") [Kw KStatic]) by (intros st r vs F R; apply (seen_kw st "static" KStatic); auto).
    split; [right; auto|]. split; [exact S|]. split; [|intros x l; exact Logic.I].
    split; [eexists; eexists; split; reflexivity|]. split; [|intros st r vs F R; apply S; auto; apply FF, F].
    intros r F. apply FF in F. apply cast_label; [discriminate|reflexivity|apply follows_label; tauto|tauto].
Qed.
Definition class_ref (e : expr) : bool :=
  match e with Ex (EPath p) _ => class_ok p | Ex (EVar (VName v)) _ => name_ok v | _ => false end.
Lemma ge_cref e : class_ref e = true -> exists ts, ClsRef ts (strip_expr e) /\ forall n, seenby follows (ptext n e) ts.
Proof.
  destruct e as [x sp]. destruct x as [p| | | | | | |v| | | | | | | | | | | | | | | | | | | | | | |]; try discriminate; cbn [class_ref].
  - intros P. destruct (class_text p P) as (ts & C & S & _). exists ts. split; [left; eauto|]. intros n. unfold ptext. cbn [pr_expr pr_expr_]. rewrite out_path. exact S.
  - destruct v as [v|]; [|discriminate]. intros V. exists [TVariable v]. split; [right; split; [apply var_simple|eauto]|].
    intros n. unfold ptext. cbn [pr_expr pr_expr_ pr_var]. outs. apply (text_by _ _ _ _ (var_text v V)).
Qed.
Lemma ge_new b l sp tss : class_ref b = true -> GArgs l tss -> exists ts, GEx (Ex (ENew b l) sp) ts.
Proof.
  intros B (A1 & A2). destruct (ge_cref b B) as (tc & C & S). exists (Kw KNew :: tc ++ call_toks tss). gex. split; [|split; [|intros x; exact Logic.I]].
  - intros n. unfold ptext. cbn [pr_expr pr_expr_]. rewrite !out_app, out_args, !out_t. apply text_lit; [reflexivity|intros r _; reflexivity|].
    intros st r vs A R. apps. do 2 lx. apply S; [reflexivity|]. rewrite call_app. apply seen_list; [apply A2|exact R].
  - apply post_operand; auto. apply post_new; auto.
Qed.
Lemma ge_instanceof a b sp ts : GEx a ts -> atomic (enode a) = true -> is_number (enode a) = false -> class_ref b = true -> exists ts', GEx (Ex (EInstanceOf a b) sp) ts'.
Proof.
  intros G A N B. destruct (ge_cref b B) as (tc & C & S). destruct (ge_atom a ts G A N) as (T & O & H). exists (ts ++ Kw KInstanceOf :: tc). gex. split; [|split; [|apply sh_app, H]].
  - intros n. unfold ptext. cbn [pr_expr pr_expr_]. outs. eapply text_cat; [apply T|reflexivity|]. intros st r vs F R. apps. do 3 lx. apply S; auto.
  - eapply (chain_instanceof 18 17); [lia|lia|apply operand_chain, O| |exact C]. intros x y E. destruct a as [[]]; discriminate.
Qed.

(** ** Accesses *)
Definition Idx (ts : list token) (i : option expr) : Prop :=
  match i with Some e => exists te, ts = Kw KSquareBracketOpen :: te ++ [Kw KSquareBracketClose] /\ Full te e | None => ts = [Kw KSquareBracketOpen; Kw KSquareBracketClose] end.
Lemma var_idxs b tss l : Forall2 Idx tss l -> forall ts l0, Var ts (Ex (EArrayIdx b l0) span_new) -> Var (ts ++ List.concat tss) (Ex (EArrayIdx b (l0 ++ l)) span_new).
Proof.
  intros F. induction F as [|ti i tss l I F IH]; intros ts l0 V; [cbn; rewrite !app_nil_r; exact V|].
  replace (l0 ++ i :: l) with ((l0 ++ [i]) ++ l) by (rewrite <- app_assoc; reflexivity). cbn [List.concat]. rewrite app_assoc. apply IH.
  destruct i as [e|]; [destruct I as (te & -> & E); apply (var_idx _ _ _ te e V E)|]. cbn in I. subst ti. apply (var_idx_none _ _ _ V).
Qed.
Lemma var_idxs0 b ts tss l : is_idx (enode b) = false -> Var ts (strip_expr b) -> Forall2 Idx tss l -> some_list l = true -> Var (ts ++ List.concat tss) (Ex (EArrayIdx (strip_expr b) l) span_new).
Proof.
  intros N V F S. destruct F as [|ti i tss l I F]; [discriminate|]. cbn [List.concat]. rewrite app_assoc. apply (var_idxs _ _ _ F _ [i]).
  assert (E : forall j, push_idx (strip_expr b) j 0 = Ex (EArrayIdx (strip_expr b) [j]) span_new) by (intros j; destruct b as [x sp]; destruct x; try reflexivity; discriminate).
  destruct i as [e|]; [destruct I as (te & -> & E')|cbn in I; subst ti]; rewrite <- E; [apply var_idx; auto|apply var_idx_none; auto].
Qed.
Definition pr_idx (n : nat) (i : option expr) : out := t "[" ++ (match i with Some e => pr_expr sf n e | None => [] end) ++ t "]".
Lemma ge_idx i : optP GE i -> match i with Some e => good sf e | None => true end = true ->
  exists ts, Idx ts (option_map strip_expr i) /\ forall n st r vs, seen LInScripting st r vs -> seen LInScripting st (out_str (pr_idx n i) ++ r) (ts ++ vs).
Proof.
  intros P G. destruct i as [e|]; cbn [optP] in P.
  - destruct (P G) as (ts & X). eexists. split; [cbn; eexists; split; [reflexivity|apply ge_full, X]|].
    intros n st r vs R. unfold pr_idx. pose proof (ge_text _ _ n X) as T. outs. lx. apps. apply (text_by _ _ _ _ T); [reflexivity|]. lx. exact R.
  - eexists. split; [cbn; reflexivity|]. intros n st r vs R. unfold pr_idx. outs. do 2 lx. exact R.
Qed.
Lemma seen_flat {A} (f : A -> out) l tss st r vs : Forall2 (fun ts a => forall st r vs, seen LInScripting st r vs -> seen LInScripting st (out_str (f a) ++ r) (ts ++ vs)) tss l ->
  seen LInScripting st r vs -> seen LInScripting st (out_str (flat_map f l) ++ r) (List.concat tss ++ vs).
Proof.
  intros F R. induction F as [|ts a tss l H F IH]; [exact R|]. cbn [flat_map List.concat]. rewrite out_app, <- !app_assoc. apply H, IH.
Qed.
Lemma ge_arrayidx b l sp ts : GBase b ts -> is_idx (enode b) = false -> some_list l = true -> Forall (optP GE) l ->
  forallb (fun i : option expr => match i with Some e => good sf e | None => true end) l = true -> exists ts', GEx (Ex (EArrayIdx b l) sp) ts'.
Proof.
  intros (T & V & S) N NE F G.
  assert (X : exists tss, Forall2 Idx tss (map (option_map strip_expr) l) /\ forall n, Forall2 (fun ts i => forall st r vs, seen LInScripting st r vs -> seen LInScripting st (out_str (pr_idx n i) ++ r) (ts ++ vs)) tss l).
  { clear NE. induction F as [|i l X F IH]; [exists []; split; constructor|]. cbn in G. apply andb_prop in G. destruct G as [G1 G2].
    destruct (ge_idx i X G1) as (ti & T1 & T2). destruct (IH G2) as (tss & TS1 & TS2). exists (ti :: tss). split; [constructor; auto|]. intros n. constructor; [apply T2|apply TS2]. }
  destruct X as (tss & T1 & T2). exists (ts ++ List.concat tss). gex. split; [|split; [|apply sh_app, S]].
  - intros n. unfold ptext. cbn [pr_expr pr_expr_]. rewrite out_app. eapply text_cat; [apply T| |].
    + intros r R. destruct l; [discriminate|]. reflexivity.
    + intros st r vs A R. apply (seen_flat (pr_idx n)); auto.
  - apply var_idxs0; auto. destruct l; auto.
Qed.
Lemma var_props b tss l : Forall2 Prop_ tss l -> forall ts l0, Var ts (Ex (EObjMember b l0) span_new) ->
  Var (ts ++ flat_map (cons (Kw KObjectOp)) tss) (Ex (EObjMember b (l0 ++ l)) span_new).
Proof.
  intros F. induction F as [|ti i tss l I F IH]; intros ts l0 V; [cbn; rewrite !app_nil_r; exact V|].
  replace (l0 ++ i :: l) with ((l0 ++ [i]) ++ l) by (rewrite <- app_assoc; reflexivity). cbn [flat_map]. rewrite app_assoc. apply IH.
  apply (var_prop _ _ _ ti i V I).
Qed.
Lemma var_props0 b ts tss l : is_prop (enode b) = false -> Var ts (strip_expr b) -> Forall2 Prop_ tss l -> some_list l = true ->
  Var (ts ++ flat_map (cons (Kw KObjectOp)) tss) (Ex (EObjMember (strip_expr b) l) span_new).
Proof.
  intros N V F S. destruct F as [|ti i tss l I F]; [discriminate|]. cbn [flat_map]. rewrite app_assoc. apply (var_props _ _ _ F _ [i]).
  assert (E : forall j, push_prop (strip_expr b) j 0 = Ex (EObjMember (strip_expr b) [j]) span_new) by (intros j; destruct b as [x sp]; destruct x; try reflexivity; discriminate).
  rewrite <- E. apply var_prop; auto.
Qed.
Definition good_prop (i : expr) : bool :=
  match i with Ex (EVar (VName v)) _ => name_ok v | Ex (EPath p) _ => prop_name_ok p | Ex x _ => wrapped x && good sf i end.
Definition pr_prop (n : nat) (i : expr) : out := t "->" ++ curly_parens true i (pr_expr sf n i).
Lemma word_of_eq p w : word_of p = Some w -> p = path_identifier false w /\ path_text p = w.
Proof.
  destruct p as [abs ns i]. unfold word_of. cbn [is_absolute namespace Ast.identifier]. destruct abs; [discriminate|]. destruct ns; [discriminate|]. intros [= ->]. split; reflexivity.
Qed.
Lemma ge_prop i : GE i -> good_prop i = true ->
  exists ts, Prop_ ts (strip_expr i) /\ forall n st r vs, ends_word r = true -> seen LInScripting st r vs -> seen LInScripting st (out_str (pr_prop n i) ++ r) ((Kw KObjectOp :: ts) ++ vs).
Proof.
  intros P G. assert (D : (exists v sp, i = Ex (EVar (VName v)) sp /\ name_ok v = true) \/ (exists p sp, i = Ex (EPath p) sp /\ prop_name_ok p = true) \/ (wrapped (enode i) = true /\ good sf i = true)).
  { destruct i as [x sp]. destruct x as [p| | | | | | |v| | | | | | | | | | | | | | | | | | | | | | |]; try (right; right; apply andb_prop in G; exact G).
    - right. left. eauto.
    - destruct v as [v|e]; [left; eauto|]. discriminate. }
  destruct D as [(v & sp & -> & V)|[(p & sp & -> & H)|[W G']]].
  - exists [TVariable v]. split; [left; eauto|]. intros n st r vs E R. unfold pr_prop, curly_parens. cbn [enode wraps pr_expr pr_expr_ pr_var]. outs.
    change (s2l "$" ++ v ++ r) with (36%N :: v ++ r). apply seen_prop_other; auto. apply (seen_var st v r vs); auto.
  - unfold prop_name_ok in H. destruct (word_of p) as [w|] eqn:W; [|discriminate]. destruct (word_of_eq p w W) as [E1 E2]. exists [TString w]. split; [right; left; exists w; split; [reflexivity|]; rewrite E1; reflexivity|].
    intros n st r vs E R. unfold pr_prop, curly_parens. cbn [enode wraps pr_expr pr_expr_]. outs. rewrite out_path, E2. apply seen_prop_name; auto.
  - destruct (P G') as (ts & X). exists (Kw KCurlyBracesOpen :: ts ++ [Kw KCurlyBracesClose]). split; [right; right; exists ts; split; [reflexivity|apply ge_full, X]|].
    intros n st r vs E R. unfold pr_prop, curly_parens. rewrite <- wrapped_wraps, W. outs. apply (seen_prop_other st 123%N); auto.
    apply (seen_curly st (out_str (pr_expr sf n i) ++ s2l "}" ++ r)). apps. apply (text_by _ _ _ _ (ge_text _ _ n X)); [reflexivity|]. apply seen_curly_close, R.
Qed.
Lemma ge_objmember b l sp ts : GBase b ts -> is_prop (enode b) = false -> some_list l = true -> Forall GE l -> forallb good_prop l = true -> exists ts', GEx (Ex (EObjMember b l) sp) ts'.
Proof.
  intros (T & V & S) N NE F G.
  assert (X : exists tss, Forall2 Prop_ tss (map strip_expr l) /\
     forall n st r vs, ends_word r = true -> seen LInScripting st r vs -> seen LInScripting st (out_str (flat_map (pr_prop n) l) ++ r) (flat_map (cons (Kw KObjectOp)) tss ++ vs)).
  { clear NE. induction F as [|i l X F IH]; [exists []; split; [constructor|auto]|]. cbn in G. apply andb_prop in G. destruct G as [G1 G2].
    destruct (ge_prop i X G1) as (ti & T1 & T2). destruct (IH G2) as (tss & TS1 & TS2). exists (ti :: tss). split; [constructor; auto|].
    intros n st r vs E R. cbn [flat_map]. rewrite out_app, <- !app_assoc. apply T2; [|apply TS2; auto]. destruct l; [exact E|reflexivity]. }
  destruct X as (tss & T1 & T2). exists (ts ++ flat_map (cons (Kw KObjectOp)) tss). gex. split; [|split; [|apply sh_app, S]].
  - intros n. unfold ptext. cbn [pr_expr pr_expr_]. rewrite out_app. eapply text_cat; [apply T| |].
    + intros r R. destruct l; [discriminate|]. reflexivity.
    + intros st r vs A R. apply (T2 n); auto using follows_word.
  - apply var_props0; auto. destruct l; auto.
Qed.

(** ** Static members *)
Lemma any_word_text w : any_word w = true -> exists t, Ident t w /\ seenby follows w [t].
Proof.
  unfold any_word. intros H. destruct (SpecProg.plain_word w) eqn:P.
  - exists (TString w). split; [left; reflexivity|]. intros st r vs F R. apply seen_plain; auto.
  - cbn [orb] in H. apply existsb_exists in H. destruct H as (s & I & E). apply str_eqb_eq in E. subst w. clear P.
    assert (X : forallb (fun s => match word_token (s2l s) with Kw k => is_reserved_non_modifier k && match repr k with Some r => String.eqb r s | None => false end && Spec.identifier (s2l s) | _ => false end) reserved = true) by (vm_compute; reflexivity).
    rewrite forallb_forall in X. specialize (X s I). destruct (word_token (s2l s)) as [k| | | | | | | |] eqn:W; try discriminate X. apply andb_prop in X. destruct X as [X X3]. apply andb_prop in X. destruct X as [X1 X2].
    destruct (repr k) as [r|] eqn:Y; [|discriminate X2]. apply String.eqb_eq in X2. subst r. exists (Kw k). split; [right; exists k, s; auto|]. intros st r vs F R. apply seen_kw; auto.
Qed.
Lemma member_text m : member_name_ok m = true -> exists t w, Ident t w /\ m = path_identifier false w /\ seenby follows (path_text m) [t].
Proof.
  unfold member_name_ok. destruct (word_of m) as [w|] eqn:W; [|discriminate]. destruct (word_of_eq m w W) as [E1 E2]. rewrite E2. intros H.
  destruct (any_word_text w H) as (t & T1 & T2). exists t, w. auto.
Qed.
Lemma resolve_ok p : const_class_ok p = true -> resolve_constant (Ex (EPath p) span_new) = Ex (EPath p) span_new.
Proof.
  unfold const_class_ok. destruct (name_expr_ok p) eqn:N.
  - intros _. unfold name_expr_ok in N. apply andb_prop in N. destruct N as [_ C]. rewrite <- (path_frags p). unfold frags. rewrite name_path_of.
    apply no_const. destruct (namespace p) as [ns|]; [left; apply split_ne|right]. apply andb_prop in C. destruct C as [C _]. destruct (const_name _); [discriminate|reflexivity].
  - cbn [orb]. destruct p as [abs ns i]. unfold is_static. cbn [is_absolute namespace Ast.identifier]. destruct abs; [discriminate|]. destruct ns; [discriminate|]. cbn.
    intros H. apply str_eqb_eq in H. subst i. reflexivity.
Qed.
Lemma const_class p : const_class_ok p = true -> class_ok p = true.
Proof. unfold const_class_ok, class_ok, name_expr_ok. destruct (path_ok p); auto. Qed.
(** variables behind [::] *)
Definition sv (i : expr) : bool := is_var (enode i) && good sf i.
Definition sv_name (i : expr) : str := match enode i with EVar (VName v) => v | _ => [] end.
Lemma sv_is i : sv i = true -> exists v sp, i = Ex (EVar (VName v)) sp /\ name_ok v = true.
Proof. destruct i as [x sp]. unfold sv. cbn. destruct x as [p| | | | | | |v| | | | | | | | | | | | | | | | | | | | | | |]; try discriminate. destruct v as [v|e]; [|discriminate]. cbn. eauto. Qed.
Definition sv_toks (l : list expr) : list token := flat_map (fun i => [Kw KScopeOp; TVariable (sv_name i)]) l.
Lemma var_svs b l : forallb sv l = true -> forall ts l0, Var ts (Ex (EStaticMember b l0) span_new) -> Var (ts ++ sv_toks l) (Ex (EStaticMember b (l0 ++ map strip_expr l)) span_new).
Proof.
  induction l as [|i l IH]; intros G ts l0 V; [cbn; rewrite !app_nil_r; exact V|]. cbn [forallb] in G. apply andb_prop in G. destruct G as [G1 G2].
  cbn [map sv_toks flat_map]. replace (l0 ++ strip_expr i :: map strip_expr l) with ((l0 ++ [strip_expr i]) ++ map strip_expr l) by (rewrite <- app_assoc; reflexivity).
  rewrite app_assoc. apply IH; auto. destruct (sv_is i G1) as (v & sp & -> & N). apply (var_static false _ _ v V).
Qed.
Definition pr_sv (n : nat) (i : expr) : out := t "::" ++ parens i (pr_expr sf n i).
Lemma seen_svs l n : forallb sv l = true -> seenby follows (out_str (flat_map (pr_sv n) l)) (sv_toks l).
Proof.
  induction l as [|i l IH]; intros G st r vs F R; [exact R|]. cbn [forallb] in G. apply andb_prop in G. destruct G as [G1 G2].
  cbn [flat_map sv_toks]. rewrite out_app, <- !app_assoc. destruct (sv_is i G1) as (v & sp & -> & N). unfold pr_sv, parens, curly_parens. cbn [enode wraps pr_expr pr_expr_ pr_var]. outs.
  cbn [sv_name enode app]. lx. change (s2l "$" ++ v ++ ?r) with (36%N :: v ++ r). apply (seen_var st v); auto; [|apply IH; auto]. destruct l; [apply follows_word, F|reflexivity].
Qed.
Lemma sv_head n l r : some_list l = true -> exists y, out_str (flat_map (pr_sv n) l) ++ r = s2l "::" ++ y.
Proof. destruct l; [discriminate|]. intros _. cbn [flat_map]. unfold pr_sv. rewrite !out_app, out_t, <- !app_assoc. eauto. Qed.
Lemma sv_not_const b l : forallb sv l = true -> is_const_member b l = false.
Proof. unfold is_const_member. destruct b; auto. destruct l as [|[[] ?] [|]]; auto; discriminate. Qed.
Lemma ge_const_member p m sp1 sp2 sp : const_class_ok p = true -> member_name_ok m = true ->
  exists ts, GEx (Ex (EStaticMember (Ex (EPath p) sp1) [Ex (EPath m) sp2]) sp) ts.
Proof.
  intros P M. destruct (class_text p (const_class p P)) as (tc & C & S & T & H). destruct (member_text m M) as (tk & w & M1 & M2 & M3).
  exists (tc ++ [Kw KScopeOp; tk]). gex. cbn [negb is_const_member]. split; [|split; [|apply H]].
  - intros n. unfold ptext. cbn [pr_expr pr_expr_ flat_map]. unfold parens, curly_parens. cbn [enode wraps pr_expr pr_expr_]. rewrite !out_app, !out_path, !out_t, app_nil_r.
    eapply text_cat; [exact T|reflexivity|]. intros st r vs F R. rewrite <- app_assoc. cbn [app]. lx. apply (M3 st r vs F R).
  - apply post_operand; auto. pose proof (post_const tc p tk w C M1) as X. rewrite (resolve_ok p P) in X. rewrite M2. exact X.
Qed.
Lemma atomic_sm b l : atomic (EStaticMember b l) = true.
Proof. unfold atomic. apply orb_true_r. Qed.
Lemma ge_class_vars p sp1 l sp : class_ok p = true -> some_list l = true -> forallb sv l = true -> exists ts, GEx (Ex (EStaticMember (Ex (EPath p) sp1) l) sp) ts.
Proof.
  intros P NE G. destruct (class_text p P) as (tc & C & S & T & H). exists (tc ++ sv_toks l). gex. cbn [enode]. rewrite atomic_sm, (sv_not_const _ _ G). cbn [negb orb]. split; [|split].
  - intros n. unfold ptext. cbn [pr_expr pr_expr_]. change (parens (Ex (EPath p) sp1) (pr_path p)) with (pr_path p). rewrite out_app, out_path.
    eapply text_cat; [exact T| |apply (seen_svs l n G)]. intros r F. destruct (sv_head n l r NE) as (y & E). unfold pr_sv in E. rewrite E. reflexivity.
  - destruct l as [|i l]; [discriminate|]. cbn [forallb] in G. apply andb_prop in G. destruct G as [G1 G2]. destruct (sv_is i G1) as (v & sp' & -> & N). cbn [sv_toks flat_map sv_name enode].
    rewrite app_assoc. apply (var_svs _ _ G2 _ [_]). apply var_scoped_var, C.
  - destruct l as [|i l]; [discriminate|]. apply H.
Qed.
Lemma ge_base_vars b l sp ts : GBase b ts -> is_smember (enode b) = false -> is_const_member (enode b) l = false -> some_list l = true -> forallb sv l = true ->
  exists ts', GEx (Ex (EStaticMember b l) sp) ts'.
Proof.
  intros (T & V & S) N K NE G. exists (ts ++ sv_toks l). gex. rewrite atomic_sm, K. cbn [negb orb]. split; [|split; [|apply sh_app, S]].
  - intros n. unfold ptext. cbn [pr_expr pr_expr_]. rewrite out_app.
    eapply text_cat; [apply T| |apply (seen_svs l n G)]. intros r F. destruct (sv_head n l r NE) as (y & E). unfold pr_sv in E. rewrite E. reflexivity.
  - destruct l as [|i l]; [discriminate|]. cbn [forallb] in G. apply andb_prop in G. destruct G as [G1 G2]. destruct (sv_is i G1) as (v & sp' & -> & N'). cbn [sv_toks flat_map sv_name enode].
    rewrite app_assoc. apply (var_svs _ _ G2 _ [_]).
    assert (E : forall j, push_static (strip_expr b) j 0 = Ex (EStaticMember (strip_expr b) [j]) span_new) by (intros j; destruct b as [x sp'']; destruct x; try reflexivity; discriminate).
    pose proof (var_static false _ _ v V) as X. rewrite E in X. exact X.
Qed.

(** ** Calls *)
Lemma call_text h a x ts l tss n : text h a x ts -> (forall r, a (s2l "(" ++ r) = true) -> GArgs l tss ->
  text h follows (x ++ s2l "(" ++ sepj (s2l ", ") (map (ptext n) l) ++ s2l ")") (ts ++ call_toks tss).
Proof.
  intros T A (_ & G). eapply text_cat; [exact T|intros r _; rewrite <- app_assoc; apply A|]. intros st r vs F R. apps. rewrite call_app. apply seen_list; [apply G|exact R].
Qed.
Lemma ge_call_fn p sp1 l sp tss : path_ok p = true -> GArgs l tss -> exists ts, GEx (Ex (ECall (Ex (EPath p) sp1) l) sp) ts.
Proof.
  intros P G. destruct (class_text p) as (tc & _ & _ & T & _); [unfold class_ok; rewrite P; reflexivity|].
  assert (T' : text hword folc (path_text p) (path_tokens p)).
  { destruct T as (T1 & T2 & _). split; [exact T1|]. split; [exact T2|]. intros st r vs F R. apply seen_path; auto. apply andb_prop in F. tauto. }
  exists (path_tokens p ++ call_toks tss). gex. split; [|split].
  - intros n. unfold ptext. cbn [pr_expr pr_expr_]. rewrite !out_app, out_path, out_args, !out_t. eapply call_text; [exact T'|reflexivity|exact G].
  - pose proof (var_fn (is_absolute p) (frags p) tss _ (frags_ne p) (proj1 G)) as X. rewrite path_frags in X. exact X.
  - apply sh_app. intros x. destruct (path_head (is_absolute p) (frags p) (frags_ne p)) as (t & r & E & H). unfold path_tokens. rewrite E.
    destruct t as [k| | | | | | | |]; try discriminate; [|exact Logic.I]. destruct k; try discriminate. exact Logic.I.
Qed.
Lemma ge_call_static p m sp1 sp2 sp3 l sp tss : class_ok p = true -> member_name_ok m = true -> GArgs l tss ->
  exists ts, GEx (Ex (ECall (Ex (EStaticMember (Ex (EPath p) sp1) [Ex (EPath m) sp2]) sp3) l) sp) ts.
Proof.
  intros P M G. destruct (class_text p P) as (tc & C & _ & T & H). destruct (member_text m M) as (tk & w & M1 & M2 & M3).
  exists ((tc ++ [Kw KScopeOp; tk]) ++ call_toks tss). gex. split; [|split].
  - intros n. unfold ptext. cbn [pr_expr pr_expr_ flat_map]. unfold parens, curly_parens. cbn [enode wraps pr_expr pr_expr_]. rewrite !out_app, !out_path, out_args, !out_t, app_nil_r.
    eapply call_text; [|intros r; instantiate (1 := follows); reflexivity|exact G].
    eapply text_cat; [exact T|reflexivity|]. intros st r vs F R. rewrite <- app_assoc. cbn [app]. lx. apply (M3 st r vs F R).
  - rewrite M2, <- app_assoc. cbn [app]. apply (var_scoped_call tc p tk w tss); auto. apply G.
  - apply sh_app, H.
Qed.
Lemma ge_call b l sp ts tss : GEx b ts -> varlike (enode b) = true -> GArgs l tss -> exists ts', GEx (Ex (ECall b l) sp) ts'.
Proof.
  intros B V G. destruct (ge_var b ts B V) as (T & X & S). exists (ts ++ call_toks tss). gex. split; [|split; [|apply sh_app, S]].
  - intros n. unfold ptext. cbn [pr_expr pr_expr_]. rewrite !out_app, out_args, !out_t. eapply call_text; [apply T|reflexivity|exact G].
  - apply var_call; auto. apply G.
Qed.

(** ** Operators *)
Lemma hsoft_lt c : hsoft c = true -> (60 =? c)%N = false.
Proof. intros H. destruct (N.eqb_spec 60 c) as [<-|]; auto; discriminate. Qed.
Lemma op_follows h o x ts r : (forall c, h c = true -> hsoft c = true) -> forall a, text h a x ts -> follows (s2l (op_str o) ++ x ++ r) = true /\ (o <> OConcat -> aft (s2l (op_str o) ++ x ++ r) = true).
Proof.
  intros HS a ((c & y & -> & C) & _). apply HS, hsoft_lt in C. unfold aft, follows. cbn [app].
  destruct o; (split; [|intros D]); try congruence; try reflexivity; change (s2l "<<<") with [60; 60; 60]%N;
    [change (s2l (op_str OLt)) with [60]%N|change (s2l (op_str OLt)) with [60]%N|change (s2l (op_str OSl)) with [60; 60]%N|change (s2l (op_str OSl)) with [60; 60]%N]; cbn [app starts_with]; rewrite C, ?andb_false_r; reflexivity.
Qed.
Lemma op_kind o : exists k x r, precedence k = Some x /\ binop_of k = Some o /\ assoc_right k = Some r /\ 1 <= x /\ x <= 15 /\ easy_op (op_str o) k = true.
Proof.
  destruct o; [exists KDot|exists KPlus|exists KMinus|exists KMul|exists KDiv|exists KPow|exists KMod|exists KBoolOr|exists KBoolAnd|exists KIsIdentical|exists KIsNotIdentical
    |exists KIsEqual|exists KIsNotEqual|exists KLt|exists KGt|exists KIsSmallerOrEqual|exists KIsGreaterOrEqual|exists KAmpersand|exists KBwOr|exists KBwXor|exists KSpaceShip|exists KSl|exists KSr];
    eexists; eexists; (split; [reflexivity|]); (split; [reflexivity|]); (split; [reflexivity|]); (split; [lia|]); (split; [lia|]); reflexivity.
Qed.
Lemma ge_binary o a b sp ta tb : GOp a ta -> GOp b tb -> concat_ok o (enode a) (enode b) = true -> exists ts, GEx (Ex (EBinary o a b) sp) ts.
Proof.
  intros (T1 & C1 & S1) (T2 & C2 & S2) K. destruct (op_kind o) as (k & x & r & P1 & P2 & P3 & P4 & P5 & P6). exists (ta ++ Kw k :: tb). gex. split; [|split; [|apply sh_app, S1]].
  - intros n. specialize (T1 n). specialize (T2 n). unfold ptext. cbn [pr_expr pr_expr_]. rewrite !out_app, out_t.
    assert (X : seenby aft (s2l (op_str o) ++ out_str (parens b (pr_expr sf n b))) (Kw k :: tb)).
    { intros st y vs F R. rewrite <- app_assoc. cbn [app]. apply seen_op; auto; [|apply (text_by _ _ _ _ (num_soft _ _ _ T2)); auto].
      destruct o; try (eapply text_stops; [apply (num_soft _ _ _ T2)|reflexivity]). cbn in K. apply andb_prop in K. destruct K as [_ K]. apply negb_true_iff in K.
      unfold num_text in T2. rewrite K in T2. eapply text_stops; [exact T2|reflexivity]. }
    destruct (is_number (enode a)) eqn:N.
    + eapply text_cat; [apply text_full_soft; apply (num_soft _ _ _ T1)| |exact X]. intros y _. rewrite <- app_assoc.
      apply (op_follows _ o _ _ y (fun c H => H) _ (num_soft _ _ _ T2)). intros ->. cbn in K. rewrite N in K. discriminate.
    + unfold num_text in T1. rewrite N in T1. eapply text_cat; [eapply text_weak; [| |exact T1]; [auto using soft_word, full_soft|intros ? Q; exact Q]| |exact X]. intros y _. rewrite <- app_assoc.
      apply (op_follows _ o _ _ y (fun c H => H) _ (num_soft _ _ _ T2)).
  - eapply chain_full; [|eapply (chain_bin 16 15 16 15 x o k r); eauto]; unfold right_bound; try destruct r; lia.
Qed.
Lemma ge_unary o e sp ts : GUn e ts -> match o with UPreInc | UPreDec | UPostInc | UPostDec => false | _ => true end = true -> exists ts', GEx (Ex (EUnary o e) sp) ts'.
Proof.
  intros (T & O & S) K.
  assert (X : exists k, unop_of (Kw k) = Some o /\ easy_op (fst (unop_prefix o)) k = true /\ snd (unop_prefix o) = true /\ unop_suffix o = [] /\
     forallb (fun c => negb (hsoft c)) (bad (fst (unop_prefix o))) = true /\ exists c, s2l (fst (unop_prefix o)) = [c] /\ hfull c = true /\ is_lower c = false /\ ((c =? 32) || (c =? 9))%N = false).
  { destruct o; try discriminate; [exists KPlus|exists KMinus|exists KBoolNot|exists KBwNot|exists KSilence]; repeat (split; [reflexivity|]); eexists; repeat split; reflexivity. }
  destruct X as (k & X1 & X2 & X3 & X4 & X5 & c & X6 & X7 & X8 & X9). exists (Kw k :: ts). gex. split; [|split].
  - intros n. specialize (T n). apply num_soft in T. unfold ptext. cbn [pr_expr pr_expr_]. rewrite X3, X4. rewrite !out_app, out_t, out_nil, app_nil_r. apply text_lit; rewrite ?X6.
    + exact X7.
    + intros r _. apply cast_other; auto.
    + intros st r vs A R. rewrite <- X6. rewrite <- app_assoc. cbn [app]. apply seen_op; auto; [|apply (text_by _ _ _ _ T); auto]. eapply text_stops; [exact T|exact X5].
  - apply operand_is_full. apply operand_unop; auto.
  - intros l. cbn [app]. destruct k; try exact Logic.I; discriminate.
Qed.
Lemma ge_preinc o e sp ts : GEx e ts -> varlike (enode e) = true -> o = UPreInc \/ o = UPreDec -> exists ts', GEx (Ex (EUnary o e) sp) ts'.
Proof.
  intros G V K. destruct (ge_var e ts G V) as (T & O & S).
  assert (X : exists k, unop_of (Kw k) = Some o /\ easy_op (fst (unop_prefix o)) k = true /\ snd (unop_prefix o) = false /\ unop_suffix o = [] /\
     forallb (fun c => negb (hword c)) (bad (fst (unop_prefix o))) = true /\ exists c y, s2l (fst (unop_prefix o)) = c :: y /\ hfull c = true /\ is_lower c = false /\ ((c =? 32) || (c =? 9))%N = false).
  { destruct K as [-> | ->]; [exists KIncrement|exists KDecrement]; repeat (split; [reflexivity|]); eexists; eexists; repeat split; reflexivity. }
  destruct X as (k & X1 & X2 & X3 & X4 & X5 & c & z & X6 & X7 & X8 & X9). exists (Kw k :: ts). gex. split; [|split].
  - intros n. specialize (T n). unfold ptext. cbn [pr_expr pr_expr_]. rewrite X3, X4. rewrite !out_app, out_t, out_nil, app_nil_r. apply text_lit; rewrite ?X6.
    + exact X7.
    + intros r _. apply cast_other; auto.
    + intros st r vs A R. rewrite <- X6. rewrite <- app_assoc. cbn [app]. apply seen_op; auto; [|apply (text_by _ _ _ _ T); auto using aft_follows]. eapply text_stops; [exact T|exact X5].
  - apply operand_is_full. apply operand_unop; auto using var_operand.
  - intros l. cbn [app]. destruct k; try exact Logic.I; discriminate.
Qed.
Lemma ge_postinc o e sp ts : GEx e ts -> varlike (enode e) = true -> o = UPostInc \/ o = UPostDec -> exists ts', GEx (Ex (EUnary o e) sp) ts'.
Proof.
  intros G V K. destruct (ge_var e ts G V) as (T & O & S).
  assert (X : exists k (x : string), ((k, o) = (KIncrement, UPostInc) \/ (k, o) = (KDecrement, UPostDec)) /\ easy_op x k = true /\ snd (unop_prefix o) = false /\ fst (unop_prefix o) = EmptyString /\ unop_suffix o = t x /\
     (forall r, follows (s2l x ++ r) = true) /\ (forall r, stops x r = true)).
  { destruct K as [-> | ->]; [exists KIncrement, "++"%string|exists KDecrement, "--"%string]; (split; [auto|]); repeat (split; [reflexivity|]); intros r; destruct r; reflexivity. }
  destruct X as (k & x & X1 & X2 & X3 & X4 & X5 & X6 & X7). exists (ts ++ [Kw k]). gex. split; [|split; [|apply sh_app, S]].
  - intros n. unfold ptext. cbn [pr_expr pr_expr_]. rewrite X3, X4, X5. rewrite !out_app, !out_t. change (s2l "") with (@nil N). cbn [app].
    eapply text_cat; [eapply text_weak; [| |apply T]; [auto using soft_word, full_soft|intros ? Q; exact Q]|intros r _; apply X6|]. intros st r vs A R. cbn [app]. apply seen_op; auto.
  - apply (full_closing closing); auto. apply var_incdec; auto.
Qed.
Lemma ge_cast c e sp ts : GEx e ts -> castable c = true -> exists ts', GEx (Ex (ECast c e) sp) ts'.
Proof.
  intros G K. assert (X : exists k (w : string), cast_ty k = Some c /\ cast_str c = t w /\ In (w, k) cast_words /\ forall l, stm_expr_head (Kw k :: l)).
  { destruct c as [| | | | | | |[]]; try discriminate; [exists KCastArray, "array"%string|exists KCastBool, "bool"%string|exists KCastInt, "int"%string|exists KCastDouble, "double"%string|exists KCastString, "string"%string|exists KCastObject, "object"%string];
      repeat split; cbn; tauto. }
  destruct X as (k & w & X1 & X2 & X3 & X4). exists (Kw k :: Kw KParenthesesOpen :: ts ++ [Kw KParenthesesClose]). gex. split; [|split; [|intros l; apply X4]].
  - intros n. unfold ptext. cbn [pr_expr pr_expr_]. rewrite X2. outs. apply text_lit; [reflexivity|intros r _; apply cast_other; reflexivity|].
    intros st r vs A R. apps. change (s2l ")(" ++ ?r) with (s2l ")" ++ s2l "(" ++ r).
    pose proof (ge_text _ _ n G) as T.
    destruct (cast_text_tail [] w [] k (s2l "(" ++ out_str (pr_expr sf n e) ++ s2l ")" ++ r) X3) as (z & Z1 & Z2); [constructor|constructor|].
    replace (s2l "(" ++ s2l w ++ s2l ")" ++ s2l "(" ++ out_str (pr_expr sf n e) ++ s2l ")" ++ r) with (s2l "(" ++ z) by (rewrite <- Z1; unfold cast_text; cbn [app]; rewrite <- !app_assoc; reflexivity).
    eapply seen_cast; [exact Z2|]. apply seen_paren; [apply (text_cast _ _ _ _ _ T); reflexivity|]. apply (text_by _ _ _ _ T); [reflexivity|]. lx. exact R.
  - apply post_operand; auto. apply post_cast; auto. apply var_operand, var_paren, ge_full, G.
Qed.

(** ** Assignments *)
Lemma assign_text a ta b tb n (op : string) (ks : list kind) : (forall n, text hword follows (ptext n a) ta) -> GEx b tb -> (forall r, follows (s2l op ++ r) = true) ->
  (forall st r vs, seen LInScripting st (ptext n b ++ r) (tb ++ vs) -> seen LInScripting st (s2l op ++ ptext n b ++ r) (map Kw ks ++ tb ++ vs)) ->
  text hfull aft (ptext n a ++ s2l op ++ ptext n b) (ta ++ map Kw ks ++ tb).
Proof.
  intros T G F S. eapply text_cat; [eapply text_weak; [| |apply T]; [auto using soft_word, full_soft|intros ? Q; exact Q]|intros r _; rewrite <- app_assoc; apply F|].
  intros st r vs A R. rewrite <- !app_assoc. apply S. apply (text_by _ _ _ _ (ge_text _ _ n G)); auto.
Qed.
Lemma post_full ts e : Post closing ts e -> Full ts e.
Proof. intros P. apply (full_closing closing); auto. apply post_operand; auto. apply closing_oplike. Qed.
Lemma ge_assign a b sp ta tb : GEx a ta -> varlike (enode a) = true -> GEx b tb -> exists ts, GEx (Ex (EAssign a b) sp) ts.
Proof.
  intros A V B. destruct (ge_var a ta A V) as (T & O & S). exists (ta ++ map Kw [KEqual] ++ tb). gex. split; [|split; [|apply sh_app, S]].
  - intros n. unfold ptext. cbn [pr_expr pr_expr_]. outs. apply assign_text; [exact T|exact B|reflexivity|]. pose proof (ge_text _ _ n B) as TB. intros st r vs R. cbn [map app]. lx. exact R.
  - apply post_full. apply (var_assign ta (strip_expr a) tb (strip_expr b) KEqual OEq); auto; [apply ge_full, B|apply (full_no_amp tb _ (ge_full _ _ B))].
Qed.
Lemma ge_assign_ref a b sp ta tb : GEx a ta -> varlike (enode a) = true -> GEx b tb -> exists ts, GEx (Ex (EAssignRef a b) sp) ts.
Proof.
  intros A V B. destruct (ge_var a ta A V) as (T & O & S). exists (ta ++ map Kw [KEqual; KAmpersand] ++ tb). gex. split; [|split; [|apply sh_app, S]].
  - intros n. unfold ptext. cbn [pr_expr pr_expr_]. outs. apply assign_text; [exact T|exact B|reflexivity|]. pose proof (ge_text _ _ n B) as TB. intros st r vs R. cbn [map app]. do 2 lx. exact R.
  - apply post_full. apply (var_assign_ref ta (strip_expr a) tb (strip_expr b)); auto. apply ge_full, B.
Qed.
Lemma ge_compound a o b sp ta tb : GEx a ta -> varlike (enode a) = true -> compound_ok o = true -> GEx b tb -> exists ts, GEx (Ex (ECompound a o b) sp) ts.
Proof.
  intros A V K B. destruct (ge_var a ta A V) as (T & O & S).
  assert (X : exists k (w : string), assign_of (Some (Kw k, span_new)) = Some o /\ easy_op w k = true /\ s2l (op_str o) ++ s2l "=" = s2l w /\ (forall r, follows (s2l w ++ r) = true) /\ (forall c, hfull c = true -> forall r, stops w (c :: r) = true) /\ o <> OEq).
  { assert (SF : forall w, forallb (fun c => negb (hfull c)) (bad w) = true -> forall c, hfull c = true -> forall r, stops w (c :: r) = true) by (intros w W c C r; apply (stops_class hfull); auto).
    destruct o; try discriminate; [exists KConcatEqual, ".="%string|exists KPlusEqual, "+="%string|exists KMinusEqual, "-="%string|exists KMulEqual, "*="%string|exists KDivEqual, "/="%string|exists KModEqual, "%="%string
      |exists KXorEqual, "^="%string|exists KSlEqual, "<<="%string|exists KSrEqual, ">>="%string]; (split; [reflexivity|]); (split; [reflexivity|]); (split; [reflexivity|]); (split; [intros r; reflexivity|]); (split; [apply SF; reflexivity|discriminate]). }
  destruct X as (k & w & X1 & X2 & X3 & X4 & X5 & X6). exists (ta ++ map Kw [k] ++ tb). gex. split; [|split; [|apply sh_app, S]].
  - intros n. unfold ptext. cbn [pr_expr pr_expr_]. outs. rewrite (app_assoc (s2l (op_str o))), X3. apply assign_text; [exact T|exact B|exact X4|]. pose proof (ge_text _ _ n B) as TB. intros st r vs R. cbn [map app]. apply seen_op; auto.
    destruct TB as ((c & y & E & C) & _). rewrite E. apply X5, C.
  - apply post_full. assert (E : EAssign (strip_expr a) (strip_expr b) = EAssign (strip_expr a) (strip_expr b)) by reflexivity.
    pose proof (var_assign ta (strip_expr a) tb (strip_expr b) k o O (ge_full _ _ B) (full_no_amp tb _ (ge_full _ _ B)) X1) as Y. destruct o; try congruence; exact Y.
Qed.
Lemma ge_list_assign l sp1 b sp tb : Forall pairp l -> forallb good_pair l = true -> GEx b tb -> exists ts, GEx (Ex (EAssign (Ex (EList l) sp1) b) sp) ts.
Proof.
  intros F G B. destruct (ge_pairs l F G) as (tss & T1 & T2). eexists. gex. split; [|split; [apply post_full; apply list_assign; [exact T1|apply ge_full, B]|intros x; exact Logic.I]].
  intros n. unfold ptext. cbn [pr_expr pr_expr_]. rewrite !out_app, out_pairs, !out_t. apply text_lit; [reflexivity|intros r _; reflexivity|].
  intros st r vs A R. apps. change (s2l "list(") with (s2l "list" ++ s2l "("). apps. apply (seen_kw st "list" KList); auto. apply seen_list; [apply (texts_un hfull), T2|].
  pose proof (ge_text _ _ n B) as TB. lx. apply (text_by _ _ _ _ TB); auto.
Qed.
Lemma ge_ternary c th e sp tc te : GOp c tc -> match th with Some t => exists tt, GOp t tt | None => True end -> GOp e te -> exists ts, GEx (Ex (ETernary c th e) sp) ts.
Proof.
  intros (T1 & C1 & S1) M (T3 & C3 & S3).
  assert (X : exists tt, match option_map strip_expr th with Some t => exists mt ft, 4 < mt /\ Chain mt ft tt t | None => tt = [] end /\
     forall n st r vs, seen LInScripting st (s2l ":" ++ r) vs -> seen LInScripting st (s2l "?" ++ out_str (match th with Some e => parens e (pr_expr sf n e) | None => [] end) ++ s2l ":" ++ r) (Kw KQuestionMark :: tt ++ vs)).
  { destruct th as [t|].
    - destruct M as (tt & T & C & S). exists tt. split; [exists 16, 15; split; [lia|exact C]|]. intros n st r vs R. specialize (T n). apply num_soft in T. lx. apply (text_by _ _ _ _ T); auto.
    - exists []. split; [reflexivity|]. intros n st r vs R. rewrite out_nil. cbn [app]. lx. exact R. }
  destruct X as (tt & X1 & X2). exists (tc ++ Kw KQuestionMark :: tt ++ Kw KColon :: te). gex. split; [|split; [|apply sh_app, S1]].
  - intros n. specialize (T1 n). specialize (T3 n). apply num_soft in T1. apply num_soft in T3. unfold ptext. cbn [pr_expr pr_expr_]. rewrite !out_app, !out_t.
    eapply text_cat; [apply text_full_soft, T1|intros r _; reflexivity|]. intros st r vs A R. apps. apply X2. lx. apply (text_by _ _ _ _ T3); auto.
  - eapply chain_full; [|eapply (chain_ternary 16 15 16 15); [lia|lia|lia|lia|exact C1|exact X1|exact C3]]. lia.
Qed.
End Sf.
