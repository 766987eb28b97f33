(** * RTStmt: printed statements are read back (C20) *)
From Verif Require Import Base Tokens Ast AstMap AstInd Lexer Parser Printer Driver Spec SpecProg SpecRT SmallFacts ParserRel ParserFacts LexBase LexSteps LexTok LexWords LexNum LexFacts LexRun ParseRun ParseTac ParseExpr ParseStmt ParseDecl Emit ProgNames RTBase RTExpr.
From Coq Require Import String Ascii.

Definition sby (x : str) (ts : list token) : Prop := forall st r vs, seen LInScripting st r vs -> seen LInScripting st (x ++ r) (ts ++ vs).
Ltac st_ := first [reflexivity | apply stops_any; [discriminate|reflexivity] | eapply text_stops; [eassumption|reflexivity]].
Ltac lx := first [apply seen_indent | lx1]; try (solve [st_]).
Ltac apps := cbn [app]; rewrite <- ?app_assoc; cbn [app].

Section Sf.
Variable sf : str -> str.
Local Notation GE := (RTExpr.GE sf).
Local Notation GEx := (RTExpr.GEx sf).
Local Notation ptext := (RTExpr.ptext sf).
Ltac ex G n := apply (text_by _ _ _ _ (ge_text sf _ _ n G)); [reflexivity|].

(** ** Statement lists *)
Definition GS (s : stmt) : Prop := good_stmt sf s = true -> exists ts, Stm ts (strip_stmt s) /\ forall n, sby (out_str (pr_stmt sf n s)) ts.
Lemma gs_all l : Forall GS l -> forallb (good_stmt sf) l = true ->
  exists tss, Forall2 Stm tss (map strip_stmt l) /\ forall n, sby (out_str (flat_map (pr_stmt sf n) l)) (List.concat tss).
Proof.
  intros F G. induction F as [|s l X F IH]; [exists []; split; [constructor|intros n st r vs R; exact R]|]. cbn [forallb] in G. apply andb_prop in G. destruct G as [G1 G2].
  destruct (X G1) as (ts & T1 & T2). destruct (IH G2) as (tss & S1 & S2). exists (ts :: tss). split; [constructor; auto|]. intros n st r vs R. cbn [flat_map List.concat].
  rewrite out_app, <- !app_assoc. apply T2, S2, R.
Qed.
Definition block (n : nat) (b : list stmt) : out := t "{" ++ nl ++ flat_map (pr_stmt sf (S n)) b ++ indent n ++ t "}" ++ nl.
Lemma gs_block b : Forall GS b -> forallb (good_stmt sf) b = true -> exists tb, Braced tb (map strip_stmt b) /\ forall n, sby (out_str (block n b)) tb.
Proof.
  intros F G. destruct (gs_all b F G) as (tss & S1 & S2). eexists. split; [apply braced_all, S1|]. intros n st r vs R. unfold block. outs. apps.
  do 2 lx. apps. apply S2. do 3 lx. exact R.
Qed.

(** ** Variables with values, parameters *)
Definition pr_init (n : nat) (o : option expr) : out := match o with Some e => t "=" ++ pr_expr sf n e | None => [] end.
Definition good_opt (o : option expr) : bool := match o with Some e => good sf e | None => true end.
Lemma ge_svar name o : name_ok name = true -> optP GE o -> good_opt o = true ->
  exists ti, Init ti (option_map strip_expr o) /\ forall n, seenby aft (s2l "$" ++ name ++ out_str (pr_init n o)) (TVariable name :: ti).
Proof.
  intros N P G. destruct o as [e|].
  - destruct (P G) as (ts & T). exists (Kw KEqual :: ts). split; [exists ts; split; [reflexivity|apply (ge_full sf), T]|]. intros n st r vs A R. unfold pr_init. outs. apps.
    apply (seen_var st name); [exact N|reflexivity|]. pose proof (ge_text sf _ _ n T) as X. lx. apps. apply (text_by _ _ _ _ X); auto.
  - exists []. split; [reflexivity|]. intros n st r vs A R. unfold pr_init. outs. apply (seen_var st name); auto. apply follows_word, aft_follows, A.
Qed.
Definition pr_hint (x : option ty) : out := match x with Some x => pr_ty x ++ t " " | None => [] end.
Definition dollar_head (c : N) : bool := existsb (N.eqb c) [36; 38; 46]%N.
Lemma dollar_skip c y : dollar_head c = true -> head_is (N.eqb 41) (skip_blank (s2l " " ++ c :: y)) = false /\ is_lower c = false /\ ((c =? 32) || (c =? 9))%N = false.
Proof.
  unfold dollar_head. cbn [existsb]. intros H. assert (D : (c = 36 \/ c = 38 \/ c = 46)%N).
  { repeat (apply orb_prop in H; destruct H as [H|H]; [apply N.eqb_eq in H; auto|]). discriminate. }
  destruct D as [-> |[-> | ->]]; repeat split.
Qed.
Lemma hint_text x : hint_ok x = true -> exists tt, Hint tt x /\ sby (out_str (pr_hint x)) tt /\ forall c y, dollar_head c = true -> cast_tail (out_str (pr_hint x) ++ c :: y) = None.
Proof.
  destruct x as [x|]; [|intros _; exists []; split; [reflexivity|]; split; [intros st r vs R; exact R|intros c y D; destruct (dollar_skip c y D) as (_ & D1 & D2); apply cast_other; auto]].
  destruct x as [| | | | | | |[p|]]; try discriminate; intros P.
  - exists [Kw KArray]. split; [reflexivity|]. split.
    + intros st r vs R. unfold pr_hint, pr_ty. outs. do 2 lx. exact R.
    + intros c y D. unfold pr_hint, pr_ty. outs. apply cast_label; [discriminate|reflexivity|reflexivity|right; apply (dollar_skip c y D)].
  - exists [Kw KCallable]. split; [reflexivity|]. split.
    + intros st r vs R. unfold pr_hint, pr_ty. outs. do 2 lx. exact R.
    + intros c y D. unfold pr_hint, pr_ty. outs. apply cast_label; [discriminate|reflexivity|reflexivity|right; apply (dollar_skip c y D)].
  - exists (path_tokens p). split; [apply path_path|]. split.
    + intros st r vs R. unfold pr_hint, pr_ty. outs. rewrite out_path. apps. apply seen_path; [exact P|reflexivity|]. lx. exact R.
    + intros c y D. unfold pr_hint, pr_ty. outs. rewrite out_path. apply cast_path; [exact P|reflexivity|]. intros _ _ _. apply (dollar_skip c y D).
Qed.
Definition GP (p : param) : Prop := good_param sf p = true -> exists ts, Param ts (strip_param p) /\ forall n, uncast aft (out_str (pr_param sf n p)) /\ seenby aft (out_str (pr_param sf n p)) ts.
Lemma gp_param name a v x d : optP GE d -> GP (mkParam name a v x d).
Proof.
  intros P G. change (name_ok name && hint_ok x && good_opt d = true) in G. apply andb_prop in G. destruct G as [G G3]. apply andb_prop in G. destruct G as [G1 G2].
  destruct (hint_text x G2) as (tt & H1 & H2 & H3). destruct (ge_svar name d G1 P G3) as (ti & I1 & I2).
  exists (tt ++ flag a KAmpersand ++ flag v KEllipsis ++ TVariable name :: ti). split; [exists tt, ti; auto|]. intros n.
  set (tail := out_str (if a then t "&" else []) ++ out_str (if v then t "..." else []) ++ s2l "$" ++ name ++ out_str (pr_init n d)).
  assert (E : out_str (pr_param sf n (mkParam name a v x d)) = out_str (pr_hint x) ++ tail).
  { unfold tail. cbn [pr_param]. fold (pr_hint x). outs. reflexivity. }
  rewrite E. split.
  - intros r _. rewrite <- app_assoc. assert (D : exists c y, tail ++ r = c :: y /\ dollar_head c = true) by (unfold tail; destruct a, v; outs; eexists; eexists; split; reflexivity).
    destruct D as (c & y & D1 & D2). rewrite D1. apply H3, D2.
  - intros st r vs A R. rewrite <- app_assoc. apps. apply H2. unfold tail. specialize (I2 n). destruct a, v; outs; cbn [flag app].
    + do 2 lx. apply (I2 st r vs A) in R. apps. apps. rewrite <- !app_assoc in R. exact R.
    + lx. apply (I2 st r vs A) in R. rewrite <- !app_assoc in R. exact R.
    + lx. apply (I2 st r vs A) in R. rewrite <- !app_assoc in R. exact R.
    + apply (I2 st r vs A) in R. rewrite <- !app_assoc in R. exact R.
Qed.
(** a list in parentheses *)
Lemma seen_list_gen (s : string) st xs tss r vs : (forall r, aft (s2l s ++ r) = true) ->
  (forall st r vs, seen LInScripting st r vs -> seen LInScripting st (s2l s ++ r) (Kw KComma :: vs)) ->
  Forall2 (fun x ts => uncast aft x /\ seenby aft x ts) xs tss -> seen LInScripting st r vs ->
  seen LInScripting st (s2l "(" ++ sepj (s2l s) xs ++ s2l ")" ++ r) (Kw KParenthesesOpen :: commas tss ++ Kw KParenthesesClose :: vs).
Proof.
  intros A C F R. apply seen_paren.
  - destruct xs as [|x xs]; [reflexivity|]. apply (sepj_uncast aft s (x :: xs)); [exact A|discriminate| |reflexivity].
    clear - F. remember (x :: xs) as l. clear Heql. induction F as [|? ? ? ? [H _]]; constructor; auto.
  - apply (sepj_by aft s xs tss); [exact A|exact C| |reflexivity|].
    + clear - F. induction F as [|? ? ? ? [_ H]]; constructor; auto.
    + lx. exact R.
Qed.
Lemma gp_all l : Forall GP l -> forallb (good_param sf) l = true ->
  exists tss, Forall2 Param tss (map strip_param l) /\ forall n, Forall2 (fun x ts => uncast aft x /\ seenby aft x ts) (map (fun p => out_str (pr_param sf n p)) l) tss.
Proof.
  intros F G. induction F as [|e l X F IH]; [exists []; split; constructor|]. cbn in G. apply andb_prop in G. destruct G as [G1 G2].
  destruct (X G1) as (ts & T1 & T2). destruct (IH G2) as (tss & TS1 & TS2). exists (ts :: tss). split; [constructor; auto|]. intros n. constructor; [apply T2|apply TS2].
Qed.

(** ** Functions *)
Definition pr_usev (u : bool * str) : out := (if fst u then t "&" else []) ++ t "$" ++ w (snd u).
Lemma usev_texts us : forallb (fun u : bool * str => name_ok (snd u)) us = true ->
  Forall2 (fun x ts => uncast aft x /\ seenby aft x ts) (map (fun u => out_str (pr_usev u)) us) (map use_toks us).
Proof.
  induction us as [|[a v] us IH]; intros G; [constructor|]. cbn [forallb snd] in G. apply andb_prop in G. destruct G as [G1 G2]. cbn [map]. constructor; [|apply IH, G2].
  unfold pr_usev, use_toks. cbn [fst snd]. destruct a; outs; (split; [intros r _; apply cast_other; reflexivity|]); intros st r vs A R; cbn [flag app].
  - apps. lx. apply (seen_var st v); auto. apply follows_word, aft_follows, A.
  - apply (seen_var st v); auto. apply follows_word, aft_follows, A.
Qed.
Definition PFn (d : fundecl) : Prop := forall closure abstract name, good_fun sf closure abstract d = true ->
  match name with Some s => SpecProg.plain_word s = true /\ closure = false | None => closure = true end ->
  exists ts, Fun closure abstract ts name (strip_fun d) /\ (forall n, sby (out_str (pr_fun sf n name d)) (Kw KFunction :: ts)) /\ (name = None -> sh (Kw KFunction :: ts)).
Lemma pf_fun ps b us rr : Forall GP ps -> optP (Forall GS) b -> PFn (mkFun ps b us rr).
Proof.
  intros P B closure abstract name G NM.
  change (forallb (good_param sf) ps && forallb (fun u : bool * str => name_ok (snd u)) us && (closure || negb (some_list us)) && match b with Some b => forallb (good_stmt sf) b | None => abstract end = true) in G. apply andb_prop in G. destruct G as [G G4]. apply andb_prop in G. destruct G as [G G3]. apply andb_prop in G. destruct G as [G1 G2].
  destruct (gp_all ps P G1) as (tss & P1 & P2).
  assert (X : exists tb, FBody abstract tb (option_map (map strip_stmt) b) /\ forall n, sby (out_str (match b with Some b => block n b | None => t ";" end)) tb).
  { destruct b as [b|].
    - destruct (gs_block b B G4) as (tb & B1 & B2). exists tb. split; [exact B1|exact B2].
    - exists [Kw KSemiColon]. split; [split; [exact G4|reflexivity]|]. intros n st r vs R. outs. lx. exact R. }
  destruct X as (tb & B1 & B2).
  assert (U : forall st r vs, seen LInScripting st r vs -> seen LInScripting st (out_str (match us with [] => [] | _ => t "use (" ++ sep_by (t ", ") (map pr_usev us) ++ t ") " end) ++ r) (uses_toks us ++ vs)).
  { intros st r vs R. pose proof (usev_texts us G2) as UT. destruct us as [|u us]; [exact R|]. remember (u :: us) as l. outs. rewrite out_sep, map_map.
    replace (uses_toks l) with (Kw KUse :: Kw KParenthesesOpen :: commas (map use_toks l) ++ [Kw KParenthesesClose]) by (rewrite Heql; reflexivity). apps.
    change (s2l "use (") with (s2l "use " ++ s2l "("). apps. do 2 lx. change (s2l ") ") with (s2l ")" ++ s2l " "). apps. apply seen_list; [exact UT|]. lx. exact R. }
  exists (flag rr KAmpersand ++ (match name with Some s => [TString s] | None => [] end) ++ Kw KParenthesesOpen :: commas tss ++ Kw KParenthesesClose :: uses_toks us ++ tb). split; [|split].
  - assert (UE : map (fun u : bool * str => let (ref, v) := u in (ref, m_var no_spans v)) us = us) by (clear; induction us as [|[a v] us IH]; [reflexivity|cbn [map]; rewrite IH; reflexivity]).
    change (strip_fun (mkFun ps b us rr)) with (mkFun (map strip_param ps) (option_map (map strip_stmt) b) (map (fun u : bool * str => let (ref, v) := u in (ref, m_var no_spans v)) us) rr). rewrite UE. exists tss, tb. split; [reflexivity|]. split; [exact P1|]. split; [exact B1|]. destruct name as [s|].
    + destruct NM as [_ ->]. split; [discriminate|]. intros _. split; [|discriminate]. cbn [orb] in G3. destruct us; [reflexivity|discriminate].
    + subst closure. split; [reflexivity|discriminate].
  - intros n st r vs R. apply (B2 n) in R. apply U in R.
    assert (L : seen LInScripting st (s2l "(" ++ sepj (s2l ",") (map (fun p => out_str (pr_param sf n p)) ps) ++ s2l ")" ++ s2l " " ++ out_str (match us with [] => [] | _ => t "use (" ++ sep_by (t ", ") (map pr_usev us) ++ t ") " end) ++ out_str (match b with Some b => block n b | None => t ";" end) ++ r)
      (Kw KParenthesesOpen :: commas tss ++ Kw KParenthesesClose :: uses_toks us ++ tb ++ vs)).
    { apply (seen_list_gen ","); [reflexivity|intros; apply comma_only; auto|apply P2|]. lx. exact R. }
    clear R. cbn [pr_fun]. fold pr_usev. outs. rewrite out_sep, map_map. apps. change (s2l ") ") with (s2l ")" ++ s2l " "). apps.
    do 2 lx. destruct rr, name as [s|]; outs; cbn [flag app].
    + lx; [destruct NM as [PW _]; destruct (plain_word_facts _ PW) as (ID & _); destruct (ident_label _ ID) as (_ & _ & c & y & -> & HC); apply (stops_class hword); [exact HC|reflexivity]|].
      destruct NM as [PW _]. apply seen_plain; [exact PW|reflexivity|]. apps. exact L.
    + lx. apps. exact L.
    + destruct NM as [PW _]. apply seen_plain; [exact PW|reflexivity|]. apps. exact L.
    + apps. exact L.
  - intros -> l. cbn [app]. destruct rr; cbn [flag app stm_expr_head]; [right|left; reflexivity]. split; [reflexivity|]. split; [reflexivity|discriminate].
Qed.
Lemma ge_function d sp : PFn d -> good_fun sf true false d = true -> exists ts, GEx (Ex (EFunction d) sp) ts.
Proof.
  intros P G. destruct (P true false None G eq_refl) as (ts & F & S & H). exists (Kw KFunction :: ts).
  unfold RTExpr.GEx, kindT, J; cbn [enode is_number is_inst atomic varlike orb]. split; [|split; [|apply H; reflexivity]].
  - intros n. unfold RTExpr.ptext. cbn [pr_expr pr_expr_]. apply text_lit; [|intros r _|intros st r vs _ R; apply S, R]; destruct d; reflexivity.
  - apply post_operand; auto. apply post_function, F.
Qed.

(** ** Members of classes *)
Definition all_mm : list member_modifier := [MPublic; MProtected; MPrivate; MStatic; MAbstract; MFinal].
Definition mm_word (m : member_modifier) : string :=
  match m with MPublic => "public" | MProtected => "protected" | MPrivate => "private" | MStatic => "static" | MAbstract => "abstract" | MFinal => "final" end%string.
Definition mm_of (m : member_modifiers) : list member_modifier := filter (member_modifiers_has m) all_mm.
Lemma mm_of_ok m : (m <? 64)%N = true -> member_modifiers_new (mm_of m) = m.
Proof.
  intros H. apply N.ltb_lt in H.
  assert (A : forallb (fun m => N.eqb (member_modifiers_new (mm_of m)) m) (map N.of_nat (seq 0 64)) = true) by (vm_compute; reflexivity).
  rewrite forallb_forall in A. specialize (A m). apply N.eqb_eq, A. apply in_map_iff. exists (N.to_nat m). split; [apply N2Nat.id|]. apply in_seq. lia.
Qed.
Lemma mm_text m : out_str (pr_mmods m) = flat_map (fun x => s2l (mm_word x) ++ s2l " ") (mm_of m).
Proof. unfold pr_mmods, mm_of, all_mm. cbn [filter]. repeat (destruct (member_modifiers_has m _)); reflexivity. Qed.
Lemma mm_by m : sby (out_str (pr_mmods m)) (mods_toks (mm_of m)).
Proof.
  rewrite mm_text. induction (mm_of m) as [|x l IH]; intros st r vs R; [exact R|]. cbn [flat_map mods_toks map]. apps. destruct x; cbn [mm_word mm_kind]; do 2 lx; apply IH, R.
Qed.
Lemma path_names l : Forall2 Path (map path_tokens l) l.
Proof. induction l; cbn; constructor; auto. apply path_path. Qed.
Lemma out_names l : out_str (sep_by (t ", ") (map pr_path l)) = sepj (s2l ", ") (map path_text l).
Proof. rewrite out_sep, map_map. f_equal. apply map_ext. apply out_path. Qed.
Lemma names_by l : forallb path_ok l = true -> seenby follows (sepj (s2l ", ") (map path_text l)) (commas (map path_tokens l)).
Proof.
  intros G. apply sepj_by; [reflexivity|intros; apply comma_sp; auto|]. induction l as [|p l IH]; [constructor|]. cbn [forallb] in G. apply andb_prop in G. destruct G as [G1 G2].
  cbn [map]. constructor; [|apply IH, G2]. intros st r vs F R. apply seen_path; auto.
Qed.
Lemma map_ne {A B} (f : A -> B) l : some_list l = true -> map f l <> [].
Proof. destruct l; discriminate. Qed.
Lemma ge_adapt u : trait_use_ok u = true -> exists ts, Adapt ts u /\ seenby follows (out_str (pr_trait_use u)) ts.
Proof.
  destruct u as [p m names|p m mods [a|]]; cbn [trait_use_ok]; intros G; [| |discriminate].
  - apply andb_prop in G. destruct G as [G G4]. apply andb_prop in G. destruct G as [G G3]. apply andb_prop in G. destruct G as [G1 G2].
    destruct (any_word_text m G2) as (tm & M1 & M2).
    exists (path_tokens p ++ Kw KScopeOp :: tm :: Kw KInsteadof :: commas (map path_tokens names)). split.
    + exists (path_tokens p), tm, (map path_tokens names). split; [reflexivity|]. split; [apply path_path|]. split; [exact M1|]. split; [apply map_ne, G3|apply path_names].
    + intros st r vs F R. cbn [pr_trait_use]. outs. rewrite out_path, out_names. apps. apply seen_path; [exact G1|reflexivity|]. lx. apply M2; [reflexivity|]. do 3 lx.
      apply names_by; auto.
  - apply andb_prop in G. destruct G as [G G4]. apply andb_prop in G. destruct G as [G G3]. apply andb_prop in G. destruct G as [G1 G2]. apply N.eqb_eq in G3. subst mods.
    destruct (any_word_text m G2) as (tm & M1 & M2).
    assert (X : forall st r vs, follows r = true -> seen LInScripting st r vs -> seen LInScripting st (m ++ s2l " as " ++ s2l " " ++ a ++ r) (tm :: Kw KAs :: TString a :: vs)).
    { intros st r vs F R. apply M2; [reflexivity|]. do 3 lx. lx. apply seen_plain; auto. }
    destruct p as [p|]; cbn [opt_all] in G1.
    + exists (path_tokens p ++ [Kw KScopeOp; tm; Kw KAs; TString a]). split; [split; [reflexivity|]; exists (path_tokens p), tm; split; [reflexivity|]; split; [apply path_path|exact M1]|].
      intros st r vs F R. cbn [pr_trait_use]. change (pr_mmods 0%N) with (@nil piece). outs. rewrite out_path. apps. apply seen_path; [exact G1|reflexivity|]. lx. apply X; auto.
    + exists [tm; Kw KAs; TString a]. split; [split; [reflexivity|]; exists tm; split; [reflexivity|exact M1]|].
      intros st r vs F R. cbn [pr_trait_use]. change (pr_mmods 0%N) with (@nil piece). outs. apps. apply X; auto.
Qed.
Lemma ge_adapts us : forallb trait_use_ok us = true ->
  exists tss, Forall2 Adapt tss us /\ forall n, sby (out_str (flat_map (fun u => indent n ++ pr_trait_use u ++ t ";" ++ nl) us)) (adapts_toks tss).
Proof.
  induction us as [|u us IH]; intros G; [exists []; split; [constructor|intros n st r vs R; exact R]|]. cbn [forallb] in G. apply andb_prop in G. destruct G as [G1 G2].
  destruct (ge_adapt u G1) as (ts & T1 & T2). destruct (IH G2) as (tss & S1 & S2). exists (ts :: tss). split; [constructor; auto|]. intros n st r vs R. cbn [flat_map adapts_toks].
  rewrite out_app. fold (adapts_toks tss). outs. apps. lx. apps. apply T2; [reflexivity|]. do 2 lx. apply S2, R.
Qed.
Definition GM (m : member) : Prop := good_member sf m = true -> exists ts, Mem ts [strip_mem m] /\ forall n, sby (out_str (pr_member sf n m)) ts.
Lemma commas1 {A} (ts : list A) (f : list (list A) -> list A) : f [ts] = ts -> f [ts] = ts.
Proof. auto. Qed.
Lemma gm_const mods name e : GE e -> GM (MConst mods name e).
Proof.
  intros P G. change ((mods <? 64)%N && any_word name && good sf e = true) in G. apply andb_prop in G. destruct G as [G G3]. apply andb_prop in G. destruct G as [G1 G2]. destruct (any_word_text name G2) as (tn & N1 & N2).
  destruct (P G3) as (te & T). pose proof (mem_const (mm_of mods) [tn :: Kw KEqual :: te] [(name, strip_expr e)]) as M.
  eexists. split; [|].
  - change [strip_mem (MConst mods name e)] with [MConst mods name (strip_expr e)]. rewrite (mm_of_ok mods G1) in M. apply M; [discriminate|]. constructor; [|constructor].
    exists tn, te. split; [reflexivity|]. split; [exact N1|]. apply (ge_full sf), T.
  - intros n st r vs R. cbn [pr_member]. outs. change (commas [tn :: Kw KEqual :: te]) with (tn :: Kw KEqual :: te). apps. lx. apps. apply mm_by. do 3 lx.
    apply N2; [reflexivity|]. pose proof (ge_text sf _ _ n T) as X. lx. apps. ex T n. lx. exact R.
Qed.
Lemma gm_prop mods name o : optP GE o -> GM (MProp mods name o).
Proof.
  intros P G. change ((mods <? 64)%N && name_ok name && good_opt o = true) in G. apply andb_prop in G. destruct G as [G G3]. apply andb_prop in G. destruct G as [G1 G2].
  destruct (ge_svar name o G2 P G3) as (ti & T1 & T2). pose proof (mem_prop (mm_of mods) [TVariable name :: ti] [(name, option_map strip_expr o)]) as M.
  eexists. split; [|].
  - change [strip_mem (MProp mods name o)] with [MProp mods name (option_map strip_expr o)]. rewrite (mm_of_ok mods G1) in M. apply M; [discriminate|]. constructor; [|constructor].
    exists ti. auto.
  - intros n st r vs R. cbn [pr_member]. fold (pr_init n o). outs. change (commas [TVariable name :: ti]) with (TVariable name :: ti). apps. lx. apps. apply mm_by.
    change (s2l " $") with (s2l " " ++ s2l "$"). apps. lx. specialize (T2 n st (s2l ";" ++ r) (Kw KSemiColon :: vs) eq_refl). rewrite <- !app_assoc in T2. apply T2. lx. exact R.
Qed.
Lemma gm_method mods name d : PFn d -> GM (MMethod mods name d).
Proof.
  intros P G. change ((mods <? 64)%N && SpecProg.plain_word name && good_fun sf false true d = true) in G. apply andb_prop in G. destruct G as [G G3]. apply andb_prop in G. destruct G as [G1 G2].
  destruct (P false true (Some name) G3 (conj G2 eq_refl)) as (ts & F & S & _). pose proof (mem_method (mm_of mods) ts name (strip_fun d) F) as M.
  eexists. split; [|].
  - change [strip_mem (MMethod mods name d)] with [MMethod mods name (strip_fun d)]. rewrite (mm_of_ok mods G1) in M. exact M.
  - intros n st r vs R. cbn [pr_member]. outs. apps. lx. apps. apply mm_by. lx. apply (S n), R.
Qed.
Lemma gm_use names uses : GM (MTraitUse names uses).
Proof.
  intros G. change (some_list names && forallb path_ok names && forallb trait_use_ok uses = true) in G. apply andb_prop in G. destruct G as [G G3]. apply andb_prop in G. destruct G as [G1 G2].
  destruct uses as [|u us].
  - exists (Kw KUse :: commas (map path_tokens names) ++ [Kw KSemiColon]). split; [apply mem_use; [apply map_ne, G1|apply path_names]|].
    intros n st r vs R. cbn [pr_member]. outs. rewrite out_names. apps. lx. do 2 lx. apply names_by; [exact G2|reflexivity|]. do 2 lx. exact R.
  - remember (u :: us) as l. destruct (ge_adapts l G3) as (tss & S1 & S2). assert (NE : tss <> []) by (intros ->; inversion S1; congruence).
    exists (Kw KUse :: commas (map path_tokens names) ++ Kw KCurlyBracesOpen :: adapts_toks tss ++ [Kw KCurlyBracesClose]).
    split; [apply mem_adapt; [apply map_ne, G1|apply path_names|exact NE|exact S1]|].
    intros n st r vs R. cbn [pr_member]. replace (match l with [] => t ";" ++ nl | _ => t "{" ++ nl ++ flat_map (fun u => indent (S n) ++ pr_trait_use u ++ t ";" ++ nl) l ++ indent n ++ t "}" ++ nl end)
      with (t "{" ++ nl ++ flat_map (fun u => indent (S n) ++ pr_trait_use u ++ t ";" ++ nl) l ++ indent n ++ t "}" ++ nl) by (rewrite Heql; reflexivity).
    outs. rewrite out_names. apps. lx. do 2 lx. apply names_by; [exact G2|reflexivity|]. do 2 lx. apps. apply (S2 (S n)). do 3 lx. exact R.
Qed.
Definition mems_out (n : nat) (l : list member) : out := t " {" ++ nl ++ flat_map (fun m => pr_member sf (S n) m ++ nl) l ++ indent n ++ t "}".
Lemma gm_body l : Forall GM l -> forallb (good_member sf) l = true -> exists tm, ClassBody tm (map strip_mem l) /\ forall n, sby (out_str (mems_out n l)) tm.
Proof.
  intros F G. assert (X : exists tss, Forall2 Mem tss (map (fun m => [strip_mem m]) l) /\ forall n, sby (out_str (flat_map (fun m => pr_member sf n m ++ nl) l)) (List.concat tss)).
  { induction F as [|m l X F IH]; [exists []; split; [constructor|intros n st r vs R; exact R]|]. cbn [forallb] in G. apply andb_prop in G. destruct G as [G1 G2].
    destruct (X G1) as (ts & T1 & T2). destruct (IH G2) as (tss & S1 & S2). exists (ts :: tss). split; [constructor; auto|]. intros n st r vs R. cbn [flat_map List.concat]. outs. apps.
    apply T2. lx. apply S2, R. }
  destruct X as (tss & S1 & S2). exists (Kw KCurlyBracesOpen :: List.concat tss ++ [Kw KCurlyBracesClose]). split.
  - replace (map strip_mem l) with (List.concat (map (fun m => [strip_mem m]) l)); [apply class_all, S1|]. clear. induction l as [|m l IH]; [reflexivity|]. cbn [map List.concat app]. rewrite IH. reflexivity.
  - intros n st r vs R. unfold mems_out. outs. apps. do 3 lx. apps. apply (S2 (S n)). do 2 lx. exact R.
Qed.

(** ** Declarations *)
Definition GD (d : decl) : Prop := good_decl sf d = true -> exists ts, Stm ts (St (SDecl (map_decl no_spans d)) span_new) /\ forall n, sby (out_str (pr_decl sf n d)) ts.
Lemma gd_function name d : PFn d -> GD (DFunction name d).
Proof.
  intros P G. change (SpecProg.plain_word name && good_fun sf false false d = true) in G. apply andb_prop in G. destruct G as [G1 G2].
  destruct (P false false (Some name) G2 (conj G1 eq_refl)) as (ts & F & S & _). exists (Kw KFunction :: ts). split; [apply stm_any; apply (stm_function ts name (strip_fun d) F)|].
  intros n st r vs R. cbn [pr_decl]. outs. lx. apply (S n), R.
Qed.
Lemma cm_split m : (m <? 4)%N = true -> exists cms, class_modifiers_new cms = m /\ sby (out_str (pr_cmods m)) (cmods_toks cms).
Proof.
  intros H. apply N.ltb_lt in H. assert (D : (m = 0 \/ m = 1 \/ m = 2 \/ m = 3)%N) by lia.
  destruct D as [-> |[-> |[-> | ->]]]; [exists []|exists [CAbstract]|exists [CFinal]|exists [CAbstract; CFinal]]; (split; [reflexivity|]); intros st r vs R.
  - exact R.
  - change (out_str (pr_cmods 1%N)) with (s2l "abstract "). cbn [cmods_toks map app cm_kind]. do 2 lx. exact R.
  - change (out_str (pr_cmods 2%N)) with (s2l "final "). cbn [cmods_toks map app cm_kind]. do 2 lx. exact R.
  - change (out_str (pr_cmods 3%N)) with (s2l "abstract final "). cbn [cmods_toks map app cm_kind]. do 4 lx. exact R.
Qed.
Lemma gd_class m name base ifaces l : Forall GM l -> GD (DClass m name base ifaces l).
Proof.
  intros P G. change ((m <? 4)%N && SpecProg.plain_word name && opt_all path_ok base && forallb path_ok ifaces && forallb (good_member sf) l = true) in G.
  apply andb_prop in G. destruct G as [G G5]. apply andb_prop in G. destruct G as [G G4]. apply andb_prop in G. destruct G as [G G3]. apply andb_prop in G. destruct G as [G1 G2].
  destruct (cm_split m G1) as (cms & M1 & M2). destruct (gm_body l P G5) as (tm & B1 & B2).
  assert (X : exists tb, Base tb base /\ sby (out_str (match base with Some b => t "extends " ++ pr_path b ++ t " " | None => [] end)) tb).
  { destruct base as [b|]; [|exists []; split; [reflexivity|intros st r vs R; exact R]]. exists (Kw KExtends :: path_tokens b). split; [exists (path_tokens b); split; [reflexivity|apply path_path]|].
    intros st r vs R. outs. rewrite out_path. apps. do 2 lx. apply seen_path; [exact G3|reflexivity|]. lx. exact R. }
  destruct X as (tb & X1 & X2).
  assert (Y : exists ti, Names KImplements ti ifaces /\ seenby follows (out_str (match ifaces with [] => [] | _ => t "implements " ++ sep_by (t ", ") (map pr_path ifaces) end)) ti).
  { destruct ifaces as [|i is]; [exists []; split; [left; auto|intros st r vs _ R; exact R]|]. remember (i :: is) as fs. exists (Kw KImplements :: commas (map path_tokens fs)). split.
    - right. exists (map path_tokens fs). split; [reflexivity|]. split; [apply map_ne; rewrite Heqfs; reflexivity|apply path_names].
    - intros st r vs F R. outs. rewrite out_names. apps. do 2 lx. apply names_by; auto. }
  destruct Y as (ti & Y1 & Y2). exists (cmods_toks cms ++ Kw KClass :: TString name :: tb ++ ti ++ tm). split.
  - apply stm_any. pose proof (stm_class cms name tb base ti ifaces tm (map strip_mem l) X1 Y1 B1) as C. rewrite M1 in C. exact C.
  - intros n st r vs R. cbn [pr_decl]. fold (mems_out n l). outs. apps. lx. apps. apply M2. do 2 lx. apply seen_plain; [exact G2|reflexivity|]. lx. apply X2. apply Y2; [reflexivity|]. apply (B2 n), R.
Qed.
Lemma gd_interface name ifaces l : Forall GM l -> GD (DInterface name ifaces l).
Proof.
  intros P G. change (SpecProg.plain_word name && forallb path_ok ifaces && forallb (good_member sf) l = true) in G.
  apply andb_prop in G. destruct G as [G G3]. apply andb_prop in G. destruct G as [G1 G2]. destruct (gm_body l P G3) as (tm & B1 & B2).
  assert (Y : exists ti, Names KExtends ti ifaces /\ seenby follows (out_str (match ifaces with [] => [] | _ => t " extends " ++ sep_by (t ", ") (map pr_path ifaces) end)) ti /\
    forall r, follows r = true -> follows (out_str (match ifaces with [] => [] | _ => t " extends " ++ sep_by (t ", ") (map pr_path ifaces) end) ++ r) = true).
  { destruct ifaces as [|i is]; [exists []; split; [left; auto|split; [intros st r vs _ R; exact R|auto]]|]. remember (i :: is) as fs. exists (Kw KExtends :: commas (map path_tokens fs)). split; [|split].
    - right. exists (map path_tokens fs). split; [reflexivity|]. split; [apply map_ne; rewrite Heqfs; reflexivity|apply path_names].
    - intros st r vs F R. outs. rewrite out_names. apps. do 3 lx. apply names_by; auto.
    - intros r _. reflexivity. }
  destruct Y as (ti & Y1 & Y2 & Y3). exists (Kw KInterface :: TString name :: ti ++ tm). split.
  - apply stm_any. apply (stm_interface name ti ifaces tm (map strip_mem l) Y1 B1).
  - intros n st r vs R. cbn [pr_decl]. fold (mems_out n l). outs. apps. lx. do 2 lx. apply seen_plain; [exact G1|apply Y3; reflexivity|]. apply Y2; [reflexivity|]. apply (B2 n), R.
Qed.
Lemma gd_trait name l : Forall GM l -> GD (DTrait name l).
Proof.
  intros P G. change (SpecProg.plain_word name && forallb (good_member sf) l = true) in G. apply andb_prop in G. destruct G as [G1 G2]. destruct (gm_body l P G2) as (tm & B1 & B2).
  exists (Kw KTrait :: TString name :: tm). split; [apply stm_any, (stm_trait name tm (map strip_mem l) B1)|].
  intros n st r vs R. cbn [pr_decl]. fold (mems_out n l). outs. apps. lx. do 2 lx. apply seen_plain; [exact G1|reflexivity|]. apply (B2 n), R.
Qed.
Definition pr_svar (n : nat) (v : str * option expr) : out := match v with (s, o) => t "$" ++ w s ++ pr_init n o end.
Lemma gd_static l : Forall (fun kv => optP GE (snd kv)) l -> GD (DStaticVars l).
Proof.
  intros P G. change (some_list l && forallb (fun v : str * option expr => match v with (s, o) => name_ok s && good_opt o end) l = true) in G. apply andb_prop in G. destruct G as [NE G].
  assert (X : exists tss, Forall2 SVar tss (map strip_svar l) /\ forall n, Forall2 (seenby aft) (map (fun v => out_str (pr_svar n v)) l) tss).
  { clear NE. induction P as [|[v o] l X P IH]; [exists []; split; [constructor|intros n; constructor]|]. cbn [forallb] in G. apply andb_prop in G. destruct G as [G1 G2]. apply andb_prop in G1. destruct G1 as [G0 G1].
    destruct (IH G2) as (tss & S1 & S2). destruct (ge_svar v o G0 X G1) as (ti & T1 & T2). exists ((TVariable v :: ti) :: tss). split.
    - constructor; [exists ti; auto|exact S1].
    - intros n. cbn [map pr_svar]. constructor; [|apply S2]. outs. apply T2. }
  destruct X as (tss & S1 & S2). exists (Kw KStatic :: commas tss ++ [Kw KSemiColon]). split.
  - apply stm_any. apply (stm_static tss (map strip_svar l)); [|exact S1]. intros ->. inversion S1 as [E|]. destruct l; discriminate.
  - intros n st r vs R. cbn [pr_decl]. change (fun v : str * option expr => let (s, o) := v in t "$" ++ w s ++ match o with Some e => t "=" ++ pr_expr sf n e | None => [] end) with (pr_svar n).
    outs. rewrite out_sep, map_map. apps. lx. do 2 lx. apply (sepj_by aft ", " _ tss); [reflexivity|intros; apply comma_sp; auto|apply S2|reflexivity|]. do 2 lx. exact R.
Qed.
End Sf.
