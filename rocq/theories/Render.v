(** * Render: messages show the line and mark the token (C48) *)
From Verif Require Import Base Tokens Ast Lexer Parser Driver Spec SmallFacts LexBase LexInv LexTotal SpecPlace Place SpecLines Lines LinesMain SpecRender.
From Coq Require Import String.
Local Open Scope string_scope. Local Open Scope list_scope.

Lemma slice_app x y z : slice (blen x) (blen (x ++ y)) (x ++ y ++ z) = Some y.
Proof.
  unfold slice. rewrite blen_app. destruct (Nat.ltb_spec (blen x + blen y) (blen x)); [lia|]. rewrite drop_app. replace (blen x + blen y - blen x) with (blen y) by lia. apply take_app.
Qed.
Lemma error_shape f src e : clean src -> parse_str f src = DErr e ->
  exists y, SpecPlace.stands src (se_line_start e) y /\ se_line_start e + blen y = se_line_end e /\ slice (se_line_start e) (se_line_end e) src = Some y.
Proof.
  intros CL H. destruct (se_syntax e) eqn:SX.
  - destruct (syntax_error_line f src e CL H ltac:(congruence)) as ((b & (x & y & z & E & A & _)) & _ & _ & LE). exists (y ++ z). rewrite LE, E, <- A. split; [exists x, []; rewrite app_nil_r; auto|]. split; [rewrite !blen_app; reflexivity|]. rewrite <- (app_nil_r (y ++ z)) at 2. apply slice_app.
  - destruct (parse_error_line f src e CL H SX) as ((x & y & z & E & A & B & _) & _). exists y. rewrite E, <- A, <- B. split; [exists x, z; auto|]. split; [rewrite blen_app; reflexivity|apply slice_app].
Qed.
Lemma snippet_cases f src e : clean src -> parse_str f src = DErr e ->
  (se_line_start e <= se_start e /\ se_start e < se_end e -> exists y, SpecPlace.stands src (se_line_start e) y /\ se_line_start e + blen y = se_line_end e /\
     error_snippet e src = inl (marked y (se_start e - se_line_start e) (se_end e - se_start e - 1))) /\
  (se_start e < se_line_start e \/ se_end e <= se_start e -> error_snippet e src = inr POverflow).
Proof.
  intros CL H. destruct (error_shape f src e CL H) as (y & A & B & C). unfold error_snippet. rewrite C. split.
  - intros (L1 & L2). destruct (Nat.ltb_spec (se_start e) (se_line_start e)); [lia|]. destruct (Nat.ltb_spec (se_end e) (se_start e + 1)); [lia|]. exists y. auto.
  - intros D. destruct (Nat.ltb_spec (se_start e) (se_line_start e)); [reflexivity|]. destruct (Nat.ltb_spec (se_end e) (se_start e + 1)); [reflexivity|]. lia.
Qed.

(** ** Where an error is *)
Lemma filter_app a b : filter_tokens (a ++ b) = filter_tokens a ++ filter_tokens b. Proof. apply flat_map_app. Qed.
Lemma filter_span t l : In t (filter_tokens l) -> exists t', In (t', snd t) l.
Proof.
  unfold filter_tokens. rewrite in_flat_map. intros ([k sp] & I & J). exists k. unfold filter_token in J. cbn [fst snd] in J.
  destruct k as [k| | | | | | | |]; try (destruct J as [<-|[]]; exact I); try (destruct J); subst; try exact I.
  - destruct k; try (destruct J as [<-|[]]; exact I); destruct J.
  - destruct H as [<-|[<-|[]]]; exact I.
Qed.
Lemma filter_last l t r : filter_tokens l = r ++ [t] -> exists a t' b, l = a ++ (t', snd t) :: b /\ Forall (fun x => unseen (fst x)) b.
Proof.
  induction l as [|[k sp] l IH] using rev_ind; intros E; [destruct r; discriminate E|]. rewrite filter_app in E. cbn [filter_tokens flat_map] in E. rewrite app_nil_r in E.
  assert (U : filter_token (k, sp) = [] /\ unseen k \/ exists q u, filter_token (k, sp) = q ++ [(u, sp)]).
  { unfold filter_token. cbn [fst snd]. destruct k as [k| | | | | | | |]; [destruct k|..]; first [left; split; [reflexivity|exact Logic.I]|right; eexists [], _; reflexivity|right; eexists [_; _], _; reflexivity]. }
  destruct U as [(U & V)|(q & u & U)]; unfold filter_token in *; cbn [fst snd] in *; rewrite U in E.
  - rewrite app_nil_r in E. destruct (IH E) as (a & t' & b & -> & F). exists a, t', (b ++ [(k, sp)]). split; [rewrite <- app_assoc; reflexivity|]. apply Forall_app. split; [exact F|constructor; [exact V|constructor]].
  - rewrite app_assoc in E. apply app_inj_tail in E as (_ & <-). exists l, k, []. split; [reflexivity|constructor].
Qed.
Lemma error_where f src e : parse_str f src = DErr e -> se_syntax e = None -> exists toks s, tokenize f src = DOk (toks, s) /\
  ((exists t sp, In (t, sp) toks /\ se_start e = sp_start sp /\ se_end e = sp_end sp) \/
   (exists a t sp b, toks = a ++ (t, sp) :: b /\ Forall (fun x => unseen (fst x)) b /\ se_start e = sp_end sp /\ se_end e = sp_end sp + 1)).
Proof.
  intros H SX. unfold parse_str in H. destruct (tokenize f src) as [[toks s]|[x s]| |] eqn:T; try discriminate H.
  2:{ exfalso. destruct (err_span x); [|discriminate]. unfold mk_serror in H. destruct (line_from_position _ _); [|discriminate]. destruct (line_range _ _ _) as [[? ?]|]; [|discriminate]. injection H as <-. discriminate SX. }
  exists toks, s. split; [reflexivity|]. unfold parse_tokens in H. cbv zeta in H. destruct (parse_top _) as [|pe p| |]; try discriminate H.
  assert (MK : forall st en, mk_serror (lines s) (blen src) st en pe None = DErr e -> se_start e = st /\ se_end e = en).
  { intros st en M. unfold mk_serror in M. destruct (line_from_position _ _); [|discriminate]. destruct (line_range _ _ _) as [[? ?]|]; [|discriminate]. injection M as <-. auto. }
  destruct (nth_error (filter_tokens toks) (err_pos pe)) as [t|] eqn:N.
  - left. apply MK in H as (A & B). apply nth_error_In, filter_span in N as (t' & I). exists t', (snd t). auto.
  - right. destruct (List.length (filter_tokens toks)) as [|i] eqn:L; [discriminate|]. destruct (nth_error (filter_tokens toks) i) as [t|] eqn:N2; [|discriminate]. apply MK in H as (A & B).
    apply nth_error_split in N2 as (r & q & E & LR). assert (Q : q = []) by (rewrite E, app_length in L; cbn [List.length] in L; destruct q; [reflexivity|cbn [List.length] in L; lia]). rewrite Q in E.
    apply filter_last in E as (a & t' & b & E & F). exists a, t', (snd t), b. auto.
Qed.

(** ** The token is in the line *)
Lemma laid_plain src lo hi l : SpecPlace.laid src lo hi l -> forall t sp, In (t, sp) l -> plain_token t -> token_at src t (sp_start sp) (sp_end sp).
Proof.
  induction 1 as [lo hi|lo hi t sp l TA _ _ _ IH|lo hi p w z a l _ _ _ _ _ IH|lo hi w v d a l _ _ _ _ _ IH|lo hi k k' f a b parts l K TA TB _ FF _ IH1 _ IH2]; intros t0 sp0 I P.
  - destruct I.
  - destruct I as [E|I]; [|auto]. injection E as <- <-. exact TA.
  - destruct I as [E|I]; [|auto]. injection E as <- <-. destruct P.
  - destruct I as [E|I]; [|auto]. injection E as <- <-. destruct P.
  - destruct I as [E|I]. { injection E as <- <-. exact TA. } apply in_app_or in I as [I|[E|[E|I]]]; auto.
    + injection E as <- <-. destruct FF as [(w & ->)|(w & ->)]; destruct P.
    + injection E as <- <-. exact TB.
Qed.
Lemma words_fine : forallb (fun p : string * kind => negb (existsb (N.eqb 10) (s2l (fst p))) && (0 <? String.length (fst p))%nat && forallb (fun c => c <? 128)%N (s2l (fst p))) (keywords ++ operators ++ tags) = true.
Proof. vm_compute. reflexivity. Qed.
Lemma s2l_len x : List.length (s2l x) = String.length x. Proof. induction x; cbn; auto. Qed.
Lemma name_fine v : name_ok v = true -> quiet v /\ v <> [].
Proof.
  intros H. split; [|intros ->; discriminate H]. apply Forall_forall. intros c I ->. unfold name_ok in H. destruct v as [|c v]; [destruct I|]. apply andb_true_iff in H as [H1 H2]. destruct I as [->|I]; [discriminate H1|]. rewrite forallb_forall in H2. discriminate (H2 _ I).
Qed.
Lemma plain_text src t a b : token_at src t a b -> plain_token t -> exists w, spelled t w /\ SpecPlace.stands src a w /\ quiet w /\ b = a + List.length w /\ w <> [].
Proof.
  intros TA P. destruct t as [k| | | | | | | |]; try (destruct P; fail).
  - assert (X : exists w, In (w, k) (keywords ++ operators ++ tags) /\ SpecPlace.stands src a (s2l w) /\ b = a + String.length w) by (destruct k; try destruct P; try exact TA; destruct TA).
    destruct X as (x & I & S & E). pose proof words_fine as WF. rewrite forallb_forall in WF. specialize (WF _ I). cbn [fst] in WF. rewrite !andb_true_iff in WF. destruct WF as ((W1 & W2) & _).
    exists (s2l x). split; [exists x; auto|]. split; [exact S|]. split; [|split; [rewrite s2l_len; exact E|]].
    + apply quiet_iff. intros J. apply negb_true_iff in W1. rewrite <- not_true_iff_false, existsb_exists in W1. apply W1. exists 10%N. auto.
    + intros Z. apply Nat.ltb_lt in W2. rewrite <- s2l_len, Z in W2. cbn in W2. lia.
  - destruct TA as (S & E). destruct (name_fine _ P) as (Q & NE). exists (s2l "$" ++ s). split; [reflexivity|]. split; [exact S|]. split; [constructor; [discriminate|exact Q]|]. split; [rewrite E; cbn; lia|discriminate].
  - destruct TA as (S & E). destruct (name_fine _ P) as (Q & NE). exists s. repeat split; auto.
Qed.

Lemma app_cut (x r p s : str) : x ++ r = p ++ s -> blen x <= blen p -> exists u, p = x ++ u /\ r = u ++ s.
Proof.
  intros E L. apply app_eq_app in E as (u & [(A & B)|(A & B)]).
  - rewrite A, blen_app in L. destruct u as [|c u]; [|cbn [blen] in L; pose proof (clen_pos c); lia]. exists []. rewrite A, B, !app_nil_r. auto.
  - exists u. auto.
Qed.
Lemma token_marked f src toks s e t sp : clean src -> tokenize f src = DOk (toks, s) -> In (t, sp) toks -> plain_token t ->
  parse_str f src = DErr e -> se_syntax e = None -> se_start e = sp_start sp -> se_end e = sp_end sp ->
  exists pre w post, spelled t w /\ line_at src (se_line e) (se_line_start e) (se_line_end e) /\
    SpecPlace.stands src (se_line_start e) (pre ++ w ++ post) /\ se_line_start e + blen (pre ++ w ++ post) = se_line_end e /\ se_line_start e + blen pre = sp_start sp /\
    error_snippet e src = inl (marked (pre ++ w ++ post) (blen pre) (List.length w - 1)).
Proof.
  intros CL T I P H SX ES EE. pose proof (laid_plain _ _ _ _ (tokens_laid _ _ _ _ T) _ _ I P) as TA. destruct (plain_text _ _ _ _ TA P) as (w & SW & (p & q & EQ & BP) & QW & EN & NE).
  destruct (parse_error_line f src e CL H SX) as (LA & L1 & L2). pose proof (line_nth _ _ _ _ LA) as (N1 & N2). pose proof LA as (x & y & z & EX & BX & BY & _). pose proof (len_le w) as LW.
  assert (TW : forall k, blen p <= k <= blen p + blen w -> forall a, In a (starts 0 src) -> a <= k -> a <= blen p).
  { intros k K a IA LE. assert (U : In a (upto k (starts 0 src))) by (unfold upto; apply filter_In; split; [exact IA|apply Nat.leb_le, LE]).
    pose proof (to_near src p w q k EQ QW K) as E1. pose proof (to_near src p w q (blen p) EQ QW ltac:(lia)) as E2. unfold to in E1, E2. rewrite E1, <- E2 in U. unfold upto in U. apply filter_In in U as (_ & U). apply Nat.leb_le, U. }
  assert (A1 : se_line_start e <= blen p).
  { destruct (se_line e) as [|n]; cbn [nth_error] in N1; [injection N1 as <-; lia|]. apply nth_error_In in N1. apply (TW (se_end e)); auto. rewrite EE, EN. lia. }
  assert (A2 : blen p + blen w <= se_line_end e).
  { destruct (nth_error (starts 0 src) (se_line e)) as [b|] eqn:NB.
    - rewrite N2. destruct (Nat.le_gt_cases (blen p + blen w) b) as [Z|Z]; [exact Z|exfalso]. pose proof (nth_error_In _ _ NB) as IB. assert (b <= blen p) by (apply (TW (blen p + blen w)); auto; lia). pose proof (L2 (S (se_line e)) b _ (nth_line src (S (se_line e)) b NB) ltac:(lia)). lia.
    - rewrite N2, EQ, !blen_app. lia. }
  assert (C1 : exists pre post, p = x ++ pre /\ y = pre ++ w ++ post).
  { destruct (app_cut x (y ++ z) p (w ++ q)) as (pre & E1 & E2); [congruence|lia|]. exists pre. 
    destruct (app_cut (pre ++ w) q y z) as (post & E3 & _); [rewrite <- app_assoc; congruence| |exists post; rewrite E3, <- app_assoc; auto].
    rewrite E1, blen_app in A2. rewrite <- BY, blen_app in A2. rewrite blen_app. lia. }
  destruct C1 as (pre & post & E1 & E2). exists pre, w, post. split; [exact SW|]. split; [exact LA|]. assert (B1 : se_line_start e + blen pre = sp_start sp) by (rewrite <- BP, E1, blen_app; lia).
  split; [exists x, z; rewrite <- E2; auto|]. split; [rewrite <- E2, <- BX, <- BY, blen_app; reflexivity|]. split; [exact B1|].
  assert (LP : 0 < List.length w) by (destruct w; [congruence|cbn; lia]).
  destruct (proj1 (snippet_cases f src e CL H)) as (y' & (x' & z' & E3 & E4) & E5 & ->); [rewrite ES, EE, EN, <- BP; lia|].
  assert (y' = y).
  { destruct (app_cut x (y ++ z) x' (y' ++ z')) as (u & U1 & U2); [congruence|lia|]. assert (u = []) by (rewrite U1, blen_app in E4; destruct u as [|c u]; [reflexivity|cbn [blen] in E4; pose proof (clen_pos c); lia]). subst u. cbn [app] in U2. rewrite <- BY, <- BX, blen_app in E5.
    destruct (app_cut y z y' z' U2 ltac:(lia)) as (v & V1 & _). assert (v = []) by (rewrite V1, blen_app in E5; destruct v as [|c v]; [reflexivity|cbn [blen] in E5; pose proof (clen_pos c); lia]). subst v. rewrite V1, app_nil_r. reflexivity. }
  subst y'. rewrite E2. f_equal. f_equal; rewrite ?ES, ?EE, ?EN; lia.
Qed.
(** the tokens have ended and a newline follows *)
Lemma end_panics f src e : clean src -> parse_str f src = DErr e -> se_syntax e = None -> se_end e = se_start e + 1 -> SpecPlace.stands src (se_start e) [10]%N -> error_snippet e src = inr POverflow.
Proof.
  intros CL H SX EE (a & b & E & BA). apply (snippet_cases f src e CL H). left. destruct (parse_error_line f src e CL H SX) as (LA & L1 & L2). pose proof (line_nth _ _ _ _ LA) as (N1 & N2). set (k := count_occ N.eq_dec a 10%N).
  assert (IN : nth_error (0 :: starts 0 src) (S k) = Some (se_start e + 1)) by (cbn [nth_error]; subst k; rewrite E, starts_at, <- BA; reflexivity).
  pose proof (L2 _ _ _ (nth_line _ _ _ IN) ltac:(lia)) as LE. pose proof (starts_table src _ _ _ _ LE IN N1). lia.
Qed.
Lemma end_shown f src e : clean src -> parse_str f src = DErr e -> se_syntax e = None -> se_end e = se_start e + 1 -> ~ SpecPlace.stands src (se_start e) [10]%N ->
  exists y, SpecPlace.stands src (se_line_start e) y /\ se_line_start e + blen y = se_line_end e /\ error_snippet e src = inl (marked y (se_start e - se_line_start e) 0).
Proof.
  intros CL H SX EE N. destruct (parse_error_line f src e CL H SX) as ((x & y & z & E & A & _ & _ & X & _) & L1 & _). destruct (proj1 (snippet_cases f src e CL H)) as (y' & S & B & R).
  - split; [|lia]. destruct (Nat.le_gt_cases (se_line_start e) (se_start e)) as [Z|Z]; [exact Z|exfalso]. apply N. destruct X as [->|(x' & ->)]; [cbn [blen] in A; lia|]. rewrite blen_app in A. cbn [blen] in A. change (clen 10) with 1 in A. exists x', (y ++ z). split; [rewrite E, <- app_assoc; reflexivity|lia].
  - exists y'. rewrite R. replace (se_end e - se_start e - 1) with 0 by lia. auto.
Qed.
