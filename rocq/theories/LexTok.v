(** * LexTok: every kind of token in script mode *)
From Verif Require Import Base Tokens Lexer Spec SmallFacts LexBase LexSteps LexWords.
From Coq Require Import String.

Section Tok.
Variable code : str.
Notation at_ := (at_ code).
Variable nt : T tokspan.
Variable lf : nat.

(** ** Words *)
Definition quote_b (w r : str) : bool :=
  str_eqb w [98%N] && (starts_with_c 34 r || starts_with_c 39 r || starts_with (s2l "<<<") r).
Lemma label_not c x : is_label_char c = true -> is_label_char x = false -> (c =? x)%N = false.
Proof. intros A B. apply N.eqb_neq. intros ->. congruence. Qed.
Lemma word_no_b w r q : w <> [] -> Forall (fun c => is_label_char c = true) w ->
  head_is is_label_char q = false -> q <> [] -> (w = [98%N] -> starts_with q r = false) -> starts_with (98%N :: q) (w ++ r) = false.
Proof.
  intros N F Q Q0 H. destruct w as [|c w]; [congruence|]. cbn.
  destruct c as [|p]; auto. destruct (Pos.eqb_spec 98 p) as [<-|]; cbn; auto. 
  destruct w as [|d w]; [apply H; auto|]. destruct q as [|x q]; [congruence|]. cbn in *. inversion F as [|? ? ? F']. inversion F'; subst.
  rewrite N.eqb_sym, label_not; auto.
Qed.
Lemma word_plain w r : w <> [] -> Forall (fun c => is_label_char c = true) w -> head_is is_digit w = false ->
  quote_b w r = false -> plain (w ++ r) = true.
Proof.
  intros N F D Q.
  assert (QB : w = [98%N] -> starts_with_c 34 r = false /\ starts_with_c 39 r = false /\ starts_with (s2l "<<<") r = false).
  { intros ->. unfold quote_b in Q. cbn in Q. apply orb_false_elim in Q. destruct Q as [Q Q3]. apply orb_false_elim in Q. tauto. }
  assert (SC : forall x, starts_with [x] r = starts_with_c x r).
  { intros x. destruct r as [|d r]; cbn; rewrite ?andb_true_r, 1?N.eqb_sym; reflexivity. }
  unfold plain. change (s2l "b<<<") with (98%N :: s2l "<<<"). change (s2l "b""") with (98%N :: s2l """"). change (s2l "b'") with (98%N :: s2l "'").
  rewrite (word_no_b w r (s2l "<<<")), (word_no_b w r (s2l """")), (word_no_b w r (s2l "'")); auto; try discriminate;
    try (intros E; destruct (QB E) as (A & B & C); change (s2l "'") with [39%N]; change (s2l """") with [34%N]; rewrite ?SC; auto).
  destruct w as [|c w]; [congruence|]. inversion F as [|? ? L F']; subst. cbn [app head_is] in *.
  unfold no_num, no_var. rewrite D. cbn [starts_with starts_with_c s2l].
  repeat match goal with
  | |- context [(c =? ?x)%N] => rewrite (label_not c x L) by reflexivity
  | |- context [(?x =? c)%N] => rewrite (N.eqb_sym x c), (label_not c x L) by reflexivity
  end.
  unfold is_ws. cbn [head_is].
  rewrite !(label_not c) by (auto; reflexivity). reflexivity.
Qed.
Lemma simple_label c : is_label_char c = true -> simple_token c = None.
Proof. intros L. unfold simple_token. rewrite !(label_not c) by (auto; reflexivity). reflexivity. Qed.
Lemma cast_none_word s w r : at_ s (w ++ r) -> w <> [] -> Forall (fun c => is_label_char c = true) w -> match_cast code s = TErr SENone s.
Proof.
  intros H N F. apply (cast_none0 code s _ H). destruct w as [|c w]; [congruence|]. inversion F; subst. cbn.
  apply label_not; auto.
Qed.
(** [yield]... as part of a longer word *)
Lemma yield_long s w r : at_ s (s2l "yield" ++ w ++ r) -> w <> [] -> Forall (fun c => is_label_char c = true) w ->
  head_is is_label_char r = false -> w <> s2l "from" -> 
  exists k n, n < 5 + List.length w /\ in_scripting_other_token code s = TOk (Kw k, mk_span (src_pos s) (src_pos s + n)) (set_pos (src_pos s + n) s).
Proof.
  intros H N F R X. unfold in_scripting_other_token.
  rewrite (try_entries_at _ _ _ s _ H t1).
  change (find_entry table1 (s2l "yield" ++ w ++ r)) with (@None entry).
  assert (Y : match_yield code s = match starts_with (s2l "from") (w ++ r) with
     | true => TOk (Kw KYieldFrom, mk_span (src_pos s) (src_pos s + 9)) (set_pos (src_pos s + 9) s)
     | false => TOk (Kw KYield, mk_span (src_pos s) (src_pos s + 5)) (set_pos (src_pos s + 5) s) end).
  { unfold match_yield. rewrite (tbind_input _ _ _ _ H), ci_starts by (apply asciib_iff; reflexivity).
    change (to_lower (s2l "yield")) with (s2l "yield"). rewrite starts_with_app.
    unfold tbind at 1, input_pos at 1. unfold tbind at 1.
    rewrite (adv_bytes_n code s (s2l "yield") (w ++ r) 5 H eq_refl).
    pose proof (at_move_eq code s (s2l "yield") (w ++ r) (src_pos s + 5) H eq_refl) as H1.
    unfold tbind at 1, whitespace. rewrite (tbind_input _ _ _ _ H1).
    destruct w as [|c w]; [congruence|]. cbn [app]. rewrite ws_none.
    2: { inversion F; subst. unfold is_ws. rewrite !(label_not c) by (auto; reflexivity). reflexivity. }
    rewrite (tbind_input _ _ _ _ H1), ci_starts by (apply asciib_iff; reflexivity).
    change (to_lower (s2l "from")) with (s2l "from").
    cbn [app]. destruct (starts_with (s2l "from") (c :: w ++ r)) eqn:E.
    - apply starts_with_iff in E. destruct E as (q & E). cbn [app] in H1. rewrite E in H1.
      unfold tbind at 1. cbv beta iota. rewrite (adv_bytes_n code _ (s2l "from") q 4 H1 eq_refl). cbn [src_pos set_pos].
      replace (src_pos s + 5 + 4) with (src_pos s + 9) by lia. reflexivity.
    - reflexivity. }
  unfold ret_token at 1. rewrite Y. destruct (starts_with (s2l "from") (w ++ r)) eqn:E.
  - exists KYieldFrom, 9. split; auto. apply prefix_word in E; auto.
    pose proof (starts_len _ _ E) as L. destruct (Nat.eq_dec (List.length w) 4) as [L'|L']; [|cbn in L; lia].
    apply starts_full in E; auto. congruence.
  - exists KYield, 5. split; auto. destruct w; [congruence|cbn; lia].
Qed.
Theorem word_tok s w r : at_ s (w ++ r) -> identifier w = true -> ends_word r = true -> quote_b w r = false ->
  w <> s2l "yield" -> w <> s2l "yieldfrom" ->
  in_scripting_token code nt lf s =
  TOk (word_token w, mk_span (src_pos s) (src_pos s + List.length w)) (set_pos (src_pos s + List.length w) s).
Proof.
  intros H I E Q Y1 Y2. destruct (ident_facts w I) as (N & F & D & A).
  rewrite ends_label in E. apply negb_true_iff in E.
  rewrite (scripting_plain code nt lf s _ H (word_plain w r N F D Q)).
  unfold label_or_other. unfold tbind at 1. rewrite (label_at code s w r H N F D E).
  unfold tbind at 1, put_pos at 1. rewrite set_pos2, set_pos_id by reflexivity.
  destruct (starts_with (s2l "yield") (w ++ r)) eqn:Y.
  - apply prefix_word in Y; auto. apply starts_with_iff in Y. destruct Y as (w' & ->).
    assert (N' : w' <> []) by (intros ->; rewrite app_nil_r in Y1; congruence).
    assert (X : w' <> s2l "from") by (intros ->; apply Y2; reflexivity).
    rewrite <- app_assoc in H. apply Forall_app in F. destruct F as [_ F].
    destruct (yield_long s w' r H N' F E X) as (k & n & L & ->).
    cbn [snd sp_end mk_span]. replace (_ <=? _) with false by (symmetry; apply Nat.leb_gt; rewrite app_length; cbn [s2l List.length]; lia).
    rewrite (word_token_entry (s2l "yield" ++ w') N) by (apply Forall_app; split; auto; repeat constructor).
    destruct (kw_entry (s2l "yield" ++ w')) eqn:K; [|reflexivity].
    exfalso. apply kw_entry_some in K. destruct K as [K1 K2].
    assert (B : forallb (fun e => negb (starts_with (s2l "yield") (spelling e))) all_entries = true) by (vm_compute; reflexivity).
    rewrite forallb_forall in B. specialize (B _ K1). rewrite K2, starts_with_app in B. discriminate.
  - rewrite (other_at code s _ H Y (cast_none_word s w r H N F)).
    pose proof (word_entry w r N F E) as W. rewrite (word_token_entry w N F).
    destruct (kw_entry w) as [e|] eqn:K.
    + rewrite W. apply kw_entry_some in K. destruct K as [K1 K2].
      assert (V : wordy e = true) by (unfold wordy; rewrite K2; apply forallb_Forall; auto).
      destruct (kw_wordy e K1 V) as [V1 V2]. rewrite V2. unfold entry_result, tbind. rewrite V1. cbn [do_act tret snd sp_end mk_span].
      rewrite (spelling_len e K1), K2, Nat.leb_refl. reflexivity.
    + destruct (other_entry (w ++ r)) as [e|].
      * destruct W as (K1 & V & L). destruct (kw_wordy e K1 V) as [V1 V2]. rewrite V2. unfold entry_result, tbind. rewrite V1. cbn [do_act tret snd sp_end mk_span].
        rewrite (spelling_len e K1). replace (_ <=? _) with false by (symmetry; apply Nat.leb_gt; lia). reflexivity.
      * assert (M : m_token code s = TErr SENone s).
        { unfold m_token. rewrite (tbind_input _ _ _ _ H). destruct w as [|c w]; [congruence|]. inversion F; subst. cbn [app].
          rewrite simple_label; auto. }
        rewrite (ret_none _ _ _ _ M). reflexivity.
Qed.

(** ** Operators *)
Definition act_of (k : kind) : tact :=
  match k with
  | KCloseTag => ASet LInitial | KObjectOp => APush LLookingForProperty
  | KCurlyBracesOpen => APush LInScripting | KCurlyBracesClose => APop | _ => ANone
  end.
Definition op_doc (k : kind) : option str := match k with KCurlyBracesClose => Some [] | _ => None end.
Definition act_eqb (a b : tact) : bool :=
  match a, b with
  | ANone, ANone | APop, APop | ASet LInitial, ASet LInitial
  | APush LLookingForProperty, APush LLookingForProperty | APush LInScripting, APush LInScripting => true
  | _, _ => false
  end.
Lemma act_eqb_eq a b : act_eqb a b = true -> a = b.
Proof. destruct a as [|[]|[]|], b as [|[]|[]|]; cbn; congruence. Qed.
(** the operator spelled at the front of the input *)
Definition longest_op (op : string) (inp : str) : Prop :=
  starts_with (s2l op) inp = true /\
  forall op' k', In (op', k') operators -> starts_with (s2l op') inp = true -> List.length (s2l op') <= List.length (s2l op).
Lemma op_class op k : In (op, k) operators ->
  (exists e, In e all_entries /\ spelling e = s2l op /\ snd (fst e) = k /\ snd e = act_of k /\ not_pow e = true) \/
  (exists c, s2l op = [c] /\ simple_token c = Some k /\ (c < 128)%N /\ act_of k = ANone /\ op_doc k = None /\
     forall e, In e all_entries -> spelling e <> s2l op).
Proof.
  intros I.
  assert (B : forallb (fun p : string * kind =>
     existsb (fun e : entry => str_eqb (spelling e) (s2l (fst p)) && kind_eqb (snd (fst e)) (snd p) && act_eqb (snd e) (act_of (snd p)) && not_pow e) all_entries
     || match s2l (fst p) with
        | [c] => match simple_token c with Some k' => kind_eqb k' (snd p) | None => false end && (c <? 128)%N
                 && act_eqb (act_of (snd p)) ANone && match op_doc (snd p) with None => true | _ => false end
                 && forallb (fun e : entry => negb (str_eqb (spelling e) (s2l (fst p)))) all_entries
        | _ => false end) operators = true) by (vm_compute; reflexivity).
  rewrite forallb_forall in B. specialize (B _ I). cbn [fst snd] in B. apply orb_prop in B. destruct B as [B|B].
  - left. apply existsb_exists in B. destruct B as (e & E & B). exists e.
    apply andb_prop in B. destruct B as [B B4]. apply andb_prop in B. destruct B as [B B3]. apply andb_prop in B. destruct B as [B1 B2].
    apply str_eqb_eq in B1. apply kind_eqb_eq in B2. apply act_eqb_eq in B3. auto.
  - right. destruct (s2l op) as [|c [|]] eqn:E; try discriminate. exists c.
    apply andb_prop in B. destruct B as [B B5]. apply andb_prop in B. destruct B as [B B4]. apply andb_prop in B. destruct B as [B B3]. apply andb_prop in B. destruct B as [B1 B2].
    split; auto. split; [destruct (simple_token c); [f_equal; apply kind_eqb_eq; auto|discriminate]|].
    split; [apply N.ltb_lt; auto|]. split; [apply act_eqb_eq; auto|]. split; [destruct (op_doc k); congruence|].
    intros e Ie X. rewrite forallb_forall in B5. specialize (B5 e Ie). rewrite X, (proj2 (str_eqb_eq _ _) eq_refl) in B5. discriminate.
Qed.
Lemma entry_op e : In e all_entries -> head_is is_label_char (spelling e) = false -> not_pow e = true ->
  exists op, s2l op = spelling e /\ In (op, snd (fst e)) operators.
Proof.
  intros I H P.
  assert (B : forallb (fun e : entry => head_is is_label_char (spelling e) || negb (not_pow e) ||
     existsb (fun p : string * kind => str_eqb (s2l (fst p)) (spelling e) && kind_eqb (snd p) (snd (fst e))) operators) all_entries = true) by (vm_compute; reflexivity).
  rewrite forallb_forall in B. specialize (B _ I). rewrite H, P in B. cbn [negb orb] in B.
  apply existsb_exists in B. destruct B as ([op k] & I' & B). cbn [fst snd] in B. apply andb_prop in B. destruct B as [B1 B2].
  apply str_eqb_eq in B1. apply kind_eqb_eq in B2. subst k. eauto.
Qed.
Lemma op_head op k : In (op, k) operators -> exists c r, s2l op = c :: r /\ is_label_char c = false /\ (c < 128)%N.
Proof.
  intros I. assert (B : forallb (fun p : string * kind => match s2l (fst p) with c :: _ => negb (is_label_char c) && (c <? 128)%N | [] => false end) operators = true) by (vm_compute; reflexivity).
  rewrite forallb_forall in B. specialize (B _ I). cbn in B. destruct (s2l op) as [|c r]; [discriminate|]. apply andb_prop in B. destruct B as [B1 B2].
  exists c, r. apply negb_true_iff in B1. apply N.ltb_lt in B2. auto.
Qed.
Lemma starts_head p c r : p <> [] -> starts_with p (c :: r) = true -> head_is is_label_char p = is_label_char c.
Proof. destruct p as [|d p]; [congruence|]. intros _ S. cbn in *. apply andb_prop in S. destruct S as [S _]. apply N.eqb_eq in S. congruence. Qed.
Lemma op_entry op k inp : In (op, k) operators -> longest_op op inp ->
  match other_entry inp with
  | Some e => In e all_entries /\ spelling e = s2l op /\ snd (fst e) = k /\ snd e = act_of k
  | None => exists c, s2l op = [c] /\ simple_token c = Some k /\ (c < 128)%N /\ act_of k = ANone /\ op_doc k = None
  end.
Proof.
  intros I [S L]. destruct (op_head op k I) as (c & o & O & LC & _).
  assert (INP : exists i, inp = c :: i).
  { rewrite O in S. destruct inp as [|d i]; [discriminate|]. cbn in S. apply andb_prop in S. destruct S as [S _]. apply N.eqb_eq in S. subst. eauto. }
  destruct INP as (i & ->).
  assert (M : forall e', In e' all_entries -> not_pow e' = true -> starts_with (spelling e') (c :: i) = true -> List.length (spelling e') <= List.length (s2l op)).
  { intros e' I' P' S'. destruct (entry_op e' I') as (op' & E' & I''); auto.
    - rewrite (starts_head _ c i); auto. apply entries_nonempty; auto.
    - rewrite <- E'. apply (L op' _ I''). rewrite E'. auto. }
  rewrite other_all. destruct (op_class op k I) as [(e & E1 & E2 & E3 & E4 & E5)|(c' & C1 & C2 & C3 & C4 & C5 & C6)].
  - rewrite (find_is (c :: i) e); auto; [rewrite E2; auto|]. intros e' I' P' S'. rewrite E2. auto.
  - destruct (find_entry all_entries (c :: i)) as [x|] eqn:F; [|exists c'; auto].
    exfalso. destruct (find_some _ _ _ F) as [X1 X2].
    assert (P : exists y, In y all_entries /\ starts_with (spelling y) (c :: i) = true /\ not_pow y = true).
    { destruct (not_pow x) eqn:P; [exists x; auto|].
      exists ("**"%string, KPow, ANone). split; [repeat ((left; reflexivity) || right)|]. split; [|reflexivity].
      unfold not_pow in P. apply negb_false_iff in P. apply str_eqb_eq in P. rewrite P in X2.
      apply starts_with_iff in X2. destruct X2 as (q & ->). reflexivity. }
    destruct P as (y & Y1 & Y2 & Y3). pose proof (M y Y1 Y3 Y2) as LY. apply (C6 y Y1).
    apply prefix_same_len with (c :: i); auto. pose proof (entries_nonempty y Y1). rewrite C1 in *. cbn in *.
    destruct (spelling y); [congruence|cbn in *; lia].
Qed.
Definition in_st (m : tact) (s : tst) : option tst :=
  match m with
  | ANone => Some s
  | ASet m => Some (set_mode m s)
  | APush m => Some (set_mode m (set_stack (lmode s :: lstack s) s))
  | APop => match lstack s with m :: st => Some (set_mode m (set_stack st s)) | [] => None end
  end.
Lemma do_act_in a s s' : in_st a s = Some s' -> do_act a s = TOk tt s'.
Proof. destruct a; cbn; unfold tret, push_state, pop_state; try congruence. destruct (lstack s); congruence. Qed.
Theorem op_tok s op k r s' : at_ s (s2l op ++ r) -> In (op, k) operators -> longest_op op (s2l op ++ r) ->
  plain (s2l op ++ r) = true -> match_cast code s = TErr SENone s -> 
  in_st (act_of k) (set_pos (src_pos s + List.length (s2l op)) s) = Some s' ->
  in_scripting_token code nt lf s =
  TOk (Kw k, set_doc (op_doc k) (mk_span (src_pos s) (src_pos s + List.length (s2l op)))) s'.
Proof.
  intros H I L P C A. destruct (op_head op k I) as (c & o & O & LC & C128).
  rewrite (scripting_plain code nt lf s _ H P).
  unfold label_or_other. unfold tbind at 1. rewrite (label_none code s _ H) by (rewrite O; cbn; rewrite LC; reflexivity).
  unfold tbind at 1, put_pos at 1. rewrite set_pos_id by reflexivity.
  assert (Y : starts_with (s2l "yield") (s2l op ++ r) = false).
  { rewrite O. destruct (starts_with _ _) eqn:E; auto. apply starts_with_iff in E. destruct E as (q & E). injection E as E _. subst. discriminate. }
  rewrite (other_at code s _ H Y C).
  pose proof (op_entry op k _ I L) as E.
  assert (PS : src_pos s' = src_pos s + List.length (s2l op)).
  { revert A. destruct (act_of k); cbn; try (intros [= <-]; reflexivity). destruct (lstack s); [discriminate|]. intros [= <-]. reflexivity. }
  destruct (other_entry (s2l op ++ r)) as [e|].
  - destruct E as (E1 & E2 & E3 & E4). unfold entry_result, tbind. rewrite E3, E4, (spelling_len e E1), E2.
    rewrite (do_act_in _ _ _ A). unfold tret. cbn [snd fst].
    assert (X : (if kind_eqb k KCurlyBracesClose then close_doc (Kw k, mk_span (src_pos s) (src_pos s + List.length (s2l op))) else (Kw k, mk_span (src_pos s) (src_pos s + List.length (s2l op))))
       = (Kw k, set_doc (op_doc k) (mk_span (src_pos s) (src_pos s + List.length (s2l op))))) by (destruct k; reflexivity).
    rewrite X. cbn [snd set_doc sp_end mk_span]. rewrite <- PS, set_pos_id; auto.
  - destruct E as (c' & C1 & C2 & C3 & C4 & C5). rewrite C4 in A. injection A as <-.
    rewrite C1 in *. cbn [app] in *.
    assert (M : m_token code s = TOk (Kw k, mk_span (src_pos s) (src_pos s + 1)) (set_pos (src_pos s + 1) s)).
    { unfold m_token. rewrite (tbind_input _ _ _ _ H), C2. unfold tbind at 1.
      rewrite (adv_chars code s [c'] r 1 H eq_refl). cbn [blen]. rewrite (clen_ascii c' C3). cbn [Nat.add].
      unfold tbind, input_pos, tsub. cbn [src_pos set_pos]. destruct (Nat.leb_spec 1 (src_pos s + 1)); [|lia].
      unfold tret. cbn. replace (src_pos s + 1 - 1) with (src_pos s) by lia. reflexivity. }
    rewrite (ret_ok _ _ _ _ _ M). rewrite C5. reflexivity.
Qed.

(** ** Casts *)
Fixpoint skip_blank (r : str) : str :=
  match r with c :: r' => if ((c =? 32) || (c =? 9))%N then skip_blank r' else r | [] => [] end.
(** what follows the parenthesis of a cast *)
Definition cast_tail (r : str) : option (kind * str) :=
  match find_entry cast_table (skip_blank r) with
  | Some e => match skip_blank (skipn (List.length (spelling e)) (skip_blank r)) with
              | c :: r2 => if (c =? 41)%N then Some (snd (fst e), r2) else None
              | [] => None
              end
  | None => None
  end.
Lemma ws_only s inp : at_ s inp -> exists n, whitespace_only_loop inp s = set_pos n s /\ at_ (set_pos n s) (skip_blank inp).
Proof.
  revert s. induction inp as [|c r IH]; intros s H; cbn [whitespace_only_loop skip_blank].
  - exists (src_pos s). rewrite set_pos_id; auto.
  - destruct ((c =? 32) || (c =? 9))%N eqn:E.
    + assert (H' : at_ (set_pos (src_pos s + 1) s) r).
      { apply (at_move_eq code s [c] r); auto. cbn. rewrite clen_ascii; auto. apply orb_prop in E. destruct E as [E|E]; apply N.eqb_eq in E; subst; reflexivity. }
      destruct (IH _ H') as (n & A & B). exists n. split; auto.
    + exists (src_pos s). rewrite set_pos_id; auto.
Qed.
Lemma cast_entries e : In e cast_table -> snd e = ANone /\ ascii (s2l (fst (fst e))).
Proof.
  assert (B : forallb (fun e : entry => act_eqb (snd e) ANone && asciib (s2l (fst (fst e)))) cast_table = true) by (vm_compute; reflexivity).
  rewrite forallb_forall in B. intros I. specialize (B e I). apply andb_prop in B. destruct B. split; [apply act_eqb_eq; auto|apply asciib_iff; auto].
Qed.
Lemma cast_at s r : at_ s (40%N :: r) ->
  match cast_tail r with
  | Some (k, r2) => exists n, match_cast code s = TOk (Kw k, mk_span (src_pos s) n) (set_pos n s) /\ at_ (set_pos n s) r2
  | None => match_cast code s = TErr SENone s
  end.
Proof.
  intros H. remember (match_cast code s) as mc eqn:MC. unfold match_cast in MC. unfold cast_tail.
  rewrite (tbind_input _ _ _ _ H) in MC. cbn [starts_with_c] in MC. rewrite N.eqb_refl in MC.
  unfold tbind at 1, input_pos at 1 in MC. unfold tbind at 1 in MC. rewrite (adv_bytes_n code s [40%N] r 1 H eq_refl) in MC.
  pose proof (at_move_eq code s [40%N] r (src_pos s + 1) H eq_refl) as H1.
  unfold tbind at 1, whitespace_only at 1 in MC. rewrite (tbind_input _ _ _ _ H1) in MC.
  destruct (ws_only _ _ H1) as (n & X & H2). rewrite X in MC. clear X. change (at_ (set_pos n s) (skip_blank r)) in H2.
  change (set_pos n (set_pos (src_pos s + 1) s)) with (set_pos n s) in MC.
  cbv beta in MC. rewrite (try_entries_at code _ _ _ _ H2 tc) in MC.
  destruct (find_entry cast_table (skip_blank r)) as [e|] eqn:F.
  - apply find_some in F. destruct F as [F1 F2]. destruct (cast_entries e F1) as [A1 A2].
    apply starts_with_iff in F2. destruct F2 as (q & F2). rewrite F2 in *.
    rewrite skipn_app, skipn_all, Nat.sub_diag. cbn [app skipn].
    assert (LE : blen (s2l (fst (fst e))) = blen (spelling e)).
    { rewrite (blen_ascii _ A2). unfold spelling. rewrite (blen_ascii _ (to_lower_ascii _ A2)), to_lower_len. reflexivity. }
    unfold entry_result, tbind at 1 in MC. rewrite A1, LE in MC. cbn [do_act tret] in MC.
    pose proof (at_move code _ _ _ H2) as H3.
    unfold tret at 1, tbind at 1, whitespace_only in MC. rewrite (tbind_input _ _ _ _ H3) in MC.
    destruct (ws_only _ _ H3) as (n2 & X & H4). rewrite X in MC. clear X.
    change (set_pos n2 (set_pos _ _)) with (set_pos n2 s) in *.
    rewrite (tbind_input _ _ _ _ H4) in MC. destruct (skip_blank q) as [|c r2].
    + cbn [starts_with_c] in MC. rewrite MC.
      change (@TErr tokspan SENone (set_pos (src_pos s) s) = TErr SENone s). rewrite set_pos_id; auto.
    + cbn [starts_with_c] in MC. destruct (N.eqb_spec c 41) as [->|].
      * exists (n2 + 1). unfold tbind at 1 in MC. rewrite (adv_bytes_n code (set_pos n2 s) [41%N] r2 1 H4 eq_refl) in MC. split; [exact MC|].
        apply (at_move_eq code (set_pos n2 s) [41%N] r2); auto.
      * rewrite MC. change (@TErr tokspan SENone (set_pos (src_pos s) s) = TErr SENone s). rewrite set_pos_id; auto.
  - rewrite MC. change (@TErr tokspan SENone (set_pos (src_pos s) s) = TErr SENone s). rewrite set_pos_id; auto.
Qed.
Lemma cast_no s inp : at_ s inp -> (forall r, inp = 40%N :: r -> cast_tail r = None) -> match_cast code s = TErr SENone s.
Proof.
  intros H N. destruct inp as [|c r]; [apply (cast_none0 code s _ H); reflexivity|].
  destruct (N.eqb_spec c 40) as [->|].
  - pose proof (cast_at s r H) as C. rewrite (N r) in C; auto.
  - apply (cast_none0 code s _ H). cbn. apply N.eqb_neq. auto.
Qed.
Theorem cast_tok s r k r2 : at_ s (40%N :: r) -> cast_tail r = Some (k, r2) ->
  exists n, in_scripting_token code nt lf s = TOk (Kw k, mk_span (src_pos s) n) (set_pos n s) /\ at_ (set_pos n s) r2.
Proof.
  intros H C. pose proof (cast_at s r H) as X. rewrite C in X. destruct X as (n & X & Y). exists n. split; auto.
  rewrite (scripting_plain code nt lf s _ H) by (cbn; destruct r; reflexivity).
  unfold label_or_other. unfold tbind at 1. rewrite (label_none code s _ H) by reflexivity.
  unfold tbind at 1, put_pos at 1. rewrite set_pos_id by reflexivity.
  unfold in_scripting_other_token.
  rewrite (try_entries_at _ _ _ s _ H t1). change (find_entry table1 (40%N :: r)) with (@None entry).
  rewrite (ret_none _ _ _ _ (yield_none code s _ H ltac:(reflexivity))).
  rewrite (try_entries_at _ _ _ s _ H t2). change (find_entry table2 (40%N :: r)) with (@None entry).
  rewrite (ret_ok _ _ _ _ _ X). reflexivity.
Qed.

(** ** Variables *)
Theorem var_tok s w r : at_ s (36%N :: w ++ r) -> w <> [] -> Forall (fun c => is_label_char c = true) w -> head_is is_digit w = false ->
  ends_word r = true ->
  in_scripting_token code nt lf s =
  TOk (TVariable w, mk_span (src_pos s) (src_pos s + 1 + List.length w)) (set_pos (src_pos s + 1 + blen w) s).
Proof.
  intros H N F D E. rewrite ends_label in E. apply negb_true_iff in E.
  unfold in_scripting_token. unfold tbind at 1, whitespace. rewrite (tbind_input _ _ _ _ H).
  rewrite ws_none by reflexivity. rewrite (tbind_input _ _ _ _ H). unfold tbind at 1, input_pos at 1.
  rewrite (ret_none _ _ _ _ (doc_none code nt lf s _ H ltac:(reflexivity) ltac:(reflexivity))).
  rewrite (ret_none (bnum code) _ s s (pnum_none code s _ (s2l "0b") _ _ H ltac:(reflexivity))).
  rewrite (ret_none (hnum code) _ s s (pnum_none code s _ (s2l "0x") _ _ H ltac:(reflexivity))).
  rewrite (ret_none _ _ _ _ (onum_none code s _ H ltac:(reflexivity))).
  rewrite (ret_none _ _ _ _ (dq_none code nt lf s _ H ltac:(reflexivity) ltac:(reflexivity))).
  apply ret_ok. unfold match_variable. rewrite (tbind_input _ _ _ _ H).
  assert (B : (blen (36%N :: w ++ r) <? 2) = false).
  { apply Nat.ltb_ge. cbn [blen]. rewrite blen_app. destruct w as [|c w]; [congruence|]. cbn [blen]. pose proof (clen_pos c). change (clen 36) with 1. lia. }
  rewrite B. cbn [starts_with_c]. rewrite N.eqb_refl. cbn [negb orb].
  unfold tbind at 1, input_pos at 1. unfold tbind at 1. rewrite (adv_bytes_n code s [36%N] (w ++ r) 1 H eq_refl).
  pose proof (at_move_eq code s [36%N] (w ++ r) (src_pos s + 1) H eq_refl) as H1.
  unfold tbind at 1. rewrite (label_at code _ w r H1 N F D E). reflexivity.
Qed.
End Tok.
