(** * UnreadProof: where reading ends, single tokens (proofs for C42) *)
From Verif Require Import Base Tokens Ast AstMap Lexer Parser Printer Driver Spec SpecMixed SpecText SpecCrash SpecUnread SpecRun SpecGrammar SmallFacts ParserTermination ParserFacts LexBase LexSteps LexWords LexTok LexNum LexStr LexMore LexRun LexParse LexFacts LexMono LexTotal LexCrash LexProg LexText TextTok TextProof.
From Coq Require Import String.
Local Open Scope list_scope.

(** ** Outcomes *)
(** behind an unknown character one byte is skipped *)
Definition skipped (c : complaint) : nat := match c with Unknown => 1 | Unterminated _ => 0 end.
Definition ends {A} (x : fate) (code : str) (o : tout A) : Prop :=
  match x with
  | Panics => exists p, o = TPanic p
  | Hangs => o = TFuel
  | Reports c from len => exists s, let a := blen code - blen from in o = TErr (complaint_error c a (a + len)) s /\ src_pos s = a + skipped c /\ queue s = []
  end.
Lemma ends_bind {A B} x code (m : T A) (k : A -> T B) s : ends x code (m s) -> ends x code (tbind m k s).
Proof. unfold tbind. destruct x; cbn; [intros (p & ->); eauto|intros ->; reflexivity|intros (s' & -> & E); eauto]. Qed.
Lemma complaint_some c a b : complaint_error c a b <> SENone.
Proof. destruct c; discriminate. Qed.
Lemma ends_ret {A} x code (m k : T A) s : ends x code (m s) -> ends x code (ret_token m k s).
Proof.
  unfold ret_token. destruct x; cbn; [intros (p & ->); eauto|intros ->; reflexivity|intros (s' & -> & E)].
  destruct c; cbn in *; eauto.
Qed.
(** ** Runs *)
Definition ends1 (x : fate) (st : list lstate) (inp : str) : Prop :=
  exists F, forall code f s, F <= f -> at_ code s inp -> lmode s = LInScripting -> lstack s = st -> queue s = [] -> ends x code (scan code (next_token code f) f s).
Lemma g_ends x st inp : ends1 x st inp -> lexg (ends x) LInScripting st inp [].
Proof.
  intros (F & G). exists (S F). intros code f s LF H M ST Q. exists []. split; [|split; [reflexivity|constructor]].
  specialize (G code f s ltac:(lia) H M ST Q). eapply runz_end; [exact G|]. intros k K. destruct k as [|k]; [lia|]. rewrite nt_scan by congruence.
  destruct x; cbn in G; [destruct G as (p & ->); reflexivity|rewrite G; reflexivity|destruct G as (s' & -> & _)]. destruct c; reflexivity.
Qed.
Lemma runz_ends x code f F s ts : runz code f F (ends x code) s ts -> F <= f -> forall n acc, List.length ts < n ->
  match x with
  | Panics => exists p, tokenize_loop code n (S f) acc s = DPanic p
  | Hangs => tokenize_loop code n (S f) acc s = DFuel
  | Reports c from len => exists sf, let a := blen code - blen from in tokenize_loop code n (S f) acc s = DErr (complaint_error c a (a + len), sf)
  end.
Proof.
  induction 1 as [s o EO X|s t s' ts X NE R IH]; intros LF n acc LN; (destruct n as [|n]; [lia|]);
    cbn [tokenize_loop]; change (next_token code (S f) s) with (nt_loop code (next_token code f) f f s).
  - rewrite X by lia. destruct x; cbn in EO; [destruct EO as (p & ->); eauto|rewrite EO; reflexivity|destruct EO as (sf & -> & _); eauto].
  - rewrite X by lia. destruct t as [t sp]. cbn in NE. specialize (IH LF n (acc ++ [(t, sp)]) ltac:(cbn in LN; lia)).
    destruct t as [k| | | | | | | |]; try exact IH. destruct k; try exact IH. congruence.
Qed.
(** what the tokenizer makes of the source, with enough fuel *)
Definition fate_of (src : str) (x : fate) (f : nat) : Prop :=
  match x with
  | Panics => exists p, tokenize f src = DPanic p
  | Hangs => tokenize f src = DFuel
  | Reports c from len => exists sf, let a := blen src - blen from in tokenize f src = DErr (complaint_error c a (a + len), sf)
  end.
Lemma g_fate x src toks : lexg (ends x) LInitial [] src toks -> exists F, forall f, F <= f -> fate_of src x f.
Proof.
  intros (F & R). exists (S (F + S (List.length toks))).
  intros f L. destruct f as [|f]; [lia|]. destruct (R src f tst_init ltac:(lia)) as (ts & RR & M & _); try reflexivity; [exists []; auto|].
  assert (X : List.length ts = List.length toks) by (rewrite <- M; symmetry; apply map_length).
  exact (runz_ends x src f F tst_init ts RR ltac:(lia) (S f) [] ltac:(lia)).
Qed.
Lemma g_meets x src toks : lexg (ends x) LInitial [] src toks -> meets src x.
Proof.
  intros G0. destruct (g_fate x src toks G0) as (F0 & Y). unfold fate_of in Y.
  destruct x as [| |c from len]; cbn [meets].
  - exists F0. intros f L. destruct (Y f L) as (p & E). unfold parse_str. rewrite E. eauto.
  - intros f. pose proof (Y (max f F0) ltac:(lia)) as E.
    assert (P : parse_str (max f F0) src = DFuel) by (unfold parse_str; rewrite E; reflexivity).
    destruct (parse_str f src) eqn:Z; try reflexivity; rewrite (parse_str_mono f _ src) in P by (lia || congruence); congruence.
  - exists F0. intros f L. destruct (Y f L) as (sf & E). cbn zeta in E.
    pose proof (tokenize_run src f f [] tst_init (reached_start _) (Forall_nil _)) as G. unfold tokenize in E. rewrite E in G. destruct G as [RS _].
    set (a := blen src - blen from) in *.
    destruct (lookup_works src sf (a + len) RS) as (line & u & v & A & B & C & _).
    exists (mkSerr a (a + len) u v line (mkErr [] 0) (Some (complaint_error c a (a + len)))). cbn [se_start se_end se_syntax].
    split; [|auto]. unfold parse_str, tokenize. rewrite E. unfold mk_serror.
    destruct c; cbn [complaint_error err_span sp_start sp_end mk_span]; cbn [complaint_error] in *; rewrite A, C; reflexivity.
Qed.

(** ** Texts that no token begins with *)
Lemma at_from code s inp : at_ code s inp -> src_pos s = blen code - blen inp.
Proof. intros H. pose proof (at_pos _ _ _ H). lia. Qed.
Lemma crash_ends st r : panics1 LInScripting st r -> ends1 Panics st r.
Proof. intros (L & S1). exists L. intros code f s LF H M ST Q. exact (S1 code (next_token code f) f s LF H M ST Q). Qed.
Definition op_heads : list N := map (fun p : string * kind => hd 0%N (s2l (fst p))) operators.
Lemma stray_heads c : stray c -> ~ In c op_heads /\ is_label_char c = false /\ is_ws c = false /\ ~ In c [34; 35; 39; 96]%N.
Proof.
  intros (A & B & C & D). split; [|split; [rewrite <- name_label; exact A|split; [rewrite <- ws_white; exact B|exact C]]].
  intros I. apply in_map_iff in I. destruct I as ([op k] & E & I). apply (D op k I). cbn [fst] in E.
  assert (NE : forallb (fun p : string * kind => match s2l (fst p) with [] => false | _ => true end) operators = true) by (vm_compute; reflexivity).
  rewrite forallb_forall in NE. specialize (NE _ I). cbn [fst] in NE. destruct (s2l op) as [|x y]; [discriminate|]. cbn in E |- *. congruence.
Qed.
Definition known_entry (e : entry) : bool := match to_lower (s2l (fst (fst e))) with [] => false | x :: _ => is_label_char x && negb (is_digit x) || existsb (N.eqb x) op_heads end.
Lemma find_none c r l : ~ In c op_heads -> is_label_char c && negb (is_digit c) = false -> forallb known_entry l = true -> find_entry l (c :: r) = None.
Proof.
  intros A B. induction l as [|[[w k] a] l IH]; intros F; [reflexivity|]. cbn [forallb] in F. apply andb_prop in F. destruct F as [F1 F2].
  cbn [find_entry]. rewrite IH by exact F2. unfold known_entry in F1. cbn [fst] in F1. destruct (to_lower (s2l w)) as [|x y]; [discriminate|]. cbn [starts_with].
  destruct (N.eqb_spec x c) as [->|]; [|reflexivity]. exfalso. apply orb_prop in F1. destruct F1 as [F1|F1]; [congruence|].
  apply existsb_exists in F1. destruct F1 as (z & I & E). apply N.eqb_eq in E. subst z. contradiction.
Qed.
Lemma eqb_ne c d : c <> d -> (c =? d)%N = false. Proof. apply N.eqb_neq. Qed.
Lemma unknown_ends code s c r : at_ code s (c :: r) -> ~ In c op_heads -> is_label_char c && negb (is_digit c) = false ->
  label_or_other code (src_pos s) s = TErr (SEUnknownCharacter (mk_span (src_pos s) (src_pos s + 1))) (set_pos (src_pos s + 1) s).
Proof.
  intros H A B. unfold label_or_other. unfold tbind at 1.
  rewrite (label_none code s _ H) by exact B. unfold tbind at 1, put_pos at 1. rewrite set_pos_id by reflexivity.
  assert (NE : forall x, In x op_heads -> (c =? x)%N = false) by (intros x I; apply N.eqb_neq; intros ->; contradiction).
  assert (X : in_scripting_other_token code s = TErr (SEUnknownCharacter (mk_span (src_pos s) (src_pos s + 1))) s).
  { rewrite (other_at code s _ H).
    - unfold other_entry. rewrite (find_none c r table1 A B eq_refl), (find_none c r table2 A B eq_refl), (find_none c r table3 A B eq_refl), (find_none c r table4 A B eq_refl).
      cbn [starts_with_c]. rewrite (NE 125%N) by (cbn; tauto).
      unfold ret_token, m_token. rewrite (tbind_input _ _ _ _ H).
      assert (ST : simple_token c = None) by (unfold simple_token; rewrite !NE by (cbn; tauto); reflexivity).
      rewrite ST. reflexivity.
    - change (s2l "yield") with (121%N :: s2l "ield"). cbn [starts_with]. destruct (N.eqb_spec 121 c) as [<-|]; [discriminate B|reflexivity].
    - apply (cast_none0 code s _ H). cbn. apply NE. cbn. tauto. }
  rewrite X. reflexivity.
Qed.
Lemma stray_ends st c r : stray c -> ends1 (Reports Unknown (c :: r) 1) st (c :: r).
Proof.
  intros S. destruct (stray_heads c S) as (A & B & C & D). exists 0. intros code f s _ H M ST Q. unfold scan. rewrite M.
  assert (NE : forall x, In x (op_heads ++ [34; 35; 39; 96]%N) -> (c =? x)%N = false) by (intros x I; apply N.eqb_neq; intros ->; apply in_app_or in I; tauto).
  assert (P : LexSteps.plain (c :: r) = true).
  { unfold LexSteps.plain, no_num, no_var. change (s2l "b<<<") with (98%N :: s2l "<<<"). change (s2l "b""") with [98; 34]%N. change (s2l "b'") with [98; 39]%N.
    change (s2l "<<<") with (60%N :: s2l "<<"). change (s2l "//") with [47; 47]%N. change (s2l "/*") with [47; 42]%N. cbn [starts_with starts_with_c].
    assert (D1 : is_digit c = false) by (unfold is_label_char in B; apply orb_false_elim in B; tauto).
    cbn [head_is]. rewrite D1, C. rewrite !(N.eqb_sym _ c).
    assert (X : (c =? 98)%N = false) by (apply N.eqb_neq; intros ->; discriminate B). rewrite X.
    rewrite (NE 60%N), (NE 46%N), (NE 34%N), (NE 36%N), (NE 39%N), (NE 35%N), (NE 47%N), (NE 96%N) by (apply in_or_app; cbn; tauto). reflexivity. }
  rewrite (scripting_plain code _ f s _ H P), (unknown_ends code s c r H A) by (rewrite B; reflexivity). cbn. pose proof (at_from code s _ H) as E. cbn [blen] in E. rewrite <- E. eauto.
Qed.
Lemma quote_ends st c : In c [34; 39; 96]%N -> ends1 (Reports Unknown [c] 1) st [c].
Proof.
  intros I. exists 0. intros code f s _ H M ST Q. unfold scan. rewrite M.
  assert (X : in_scripting_token code (next_token code f) f s = label_or_other code (src_pos s) s).
  { assert (BL : (blen [c] <? 2) = true) by (cbn [In] in I; repeat (destruct I as [<-|I]; [reflexivity|]); contradiction).
    unfold in_scripting_token. unfold tbind at 1, whitespace. rewrite (tbind_input _ _ _ _ H).
    assert (W : whitespace_loop [c] s = s) by (cbn [In] in I; repeat (destruct I as [<-|I]; [reflexivity|]); contradiction). rewrite W. rewrite (tbind_input _ _ _ _ H).
    unfold tbind at 1, input_pos at 1.
    assert (NB : forall x y, In x [98; 60; 48; 47]%N -> starts_with (x :: y) [c] = false).
    { intros x y J. cbn [starts_with]. destruct (N.eqb_spec x c) as [->|]; [|reflexivity]. exfalso. cbn in I, J.
      repeat (destruct I as [<-|I]; [repeat (destruct J as [J|J]; [discriminate J|]); contradiction|]). contradiction. }
    rewrite (ret_none _ _ _ _ (doc_none code _ f s _ H (NB 98%N _ ltac:(cbn; tauto)) (NB 60%N _ ltac:(cbn; tauto)))).
    rewrite (ret_none (bnum code) _ s s (pnum_none code s _ (s2l "0b") _ _ H (NB 48%N _ ltac:(cbn; tauto)))).
    rewrite (ret_none (hnum code) _ s s (pnum_none code s _ (s2l "0x") _ _ H (NB 48%N _ ltac:(cbn; tauto)))).
    rewrite (ret_none _ _ _ _ (onum_none code s _ H ltac:(cbn [In] in I; repeat (destruct I as [<-|I]; [reflexivity|]); contradiction))).
    rewrite (ret_none (match_dq_string code _ f) _ s s) by (unfold match_dq_string; rewrite (tbind_input _ _ _ _ H), BL; reflexivity).
    rewrite (ret_none _ _ _ _ (var_none code s _ H ltac:(cbn [In] in I; repeat (destruct I as [<-|I]; [reflexivity|]); contradiction))).
    rewrite (ret_none (match_sq_string code f) _ s s) by (unfold match_sq_string; rewrite (tbind_input _ _ _ _ H), BL; reflexivity).
    rewrite (ret_none _ _ _ _ (comm_none code s _ H ltac:(cbn [In] in I; repeat (destruct I as [<-|I]; [reflexivity|]); contradiction) (NB 47%N _ ltac:(cbn; tauto)) (NB 47%N _ ltac:(cbn; tauto)))).
    rewrite (ret_none (match_backquote code _ f) _ s s) by (unfold match_backquote; rewrite (tbind_input _ _ _ _ H), BL; reflexivity).
    unfold tbind at 1, put_pos. rewrite set_pos_id by reflexivity. reflexivity. }
  rewrite X, (unknown_ends code s c [] H).
  - cbn. rewrite (at_from code s _ H). eauto.
  - cbn [In] in I. repeat (destruct I as [<-|I]; [vm_compute; intuition discriminate|]). contradiction.
  - cbn [In] in I. repeat (destruct I as [<-|I]; [reflexivity|]). contradiction.
Qed.
(** ** Comments *)
Lemma find_no_close w : no_close w -> find_sub (s2l "*/") w = None.
Proof.
  induction w as [|c w IH]; intros N; [reflexivity|].
  assert (N' : no_close w) by (intros a b E; apply (N (c :: a) b); rewrite E; reflexivity).
  cbn [find_sub]. rewrite IH by exact N'. destruct (starts_with (s2l "*/") (c :: w)) eqn:E; [|reflexivity].
  exfalso. apply starts_with_iff in E. destruct E as (q & E). apply (N [] q). exact E.
Qed.
Lemma comment_ends st (doc : bool) w : no_close w -> (doc = false -> starts_with (s2l "*") w = false) ->
  ends1 (Reports (Unterminated "comment") w 0) st (s2l (if doc then "/**" else "/*") ++ w).
Proof.
  intros NC ND. exists 0. intros code f s _ H M ST Q. unfold scan. rewrite M.
  set (pre := s2l (if doc then "/**" else "/*")) in *. set (n := if doc then 3 else 2).
  assert (BP : blen pre = n) by (destruct doc; reflexivity).
  pose proof (at_move_eq code s pre w (src_pos s + n) H ltac:(lia)) as H1.
  unfold in_scripting_token. unfold tbind at 1, whitespace. rewrite (tbind_input _ _ _ _ H).
  assert (WN : whitespace_loop (pre ++ w) s = s) by (destruct doc; reflexivity). rewrite WN, (tbind_input _ _ _ _ H).
  assert (X : forall A (x b : A), match pre ++ w with [] => x | _ => b end = b) by (destruct doc; reflexivity). rewrite X. unfold tbind at 1, input_pos at 1.
  rewrite (ret_none _ _ _ _ (doc_none code (next_token code f) f s _ H ltac:(destruct doc; reflexivity) ltac:(destruct doc; reflexivity))).
  rewrite (ret_none (bnum code) _ s s (pnum_none code s _ (s2l "0b") _ _ H ltac:(destruct doc; reflexivity))).
  rewrite (ret_none (hnum code) _ s s (pnum_none code s _ (s2l "0x") _ _ H ltac:(destruct doc; reflexivity))).
  rewrite (ret_none _ _ _ _ (onum_none code s _ H ltac:(destruct doc; reflexivity))).
  rewrite (ret_none _ _ _ _ (dq_none code _ f s _ H ltac:(destruct doc; reflexivity) ltac:(destruct doc; reflexivity))).
  rewrite (ret_none _ _ _ _ (var_none code s _ H ltac:(destruct doc; reflexivity))).
  rewrite (ret_none _ _ _ _ (sq_none code f s _ H ltac:(destruct doc; reflexivity) ltac:(destruct doc; reflexivity))).
  apply ends_ret. unfold match_comments. rewrite (tbind_input _ _ _ _ H). unfold tbind at 1, input_pos at 1.
  assert (C1 : starts_with_c 35 (pre ++ w) = false) by (destruct doc; reflexivity).
  assert (C2 : starts_with (s2l "//") (pre ++ w) = false) by (destruct doc; reflexivity).
  assert (C3 : starts_with (s2l "/**") (pre ++ w) = doc).
  { destruct doc; [reflexivity|]. specialize (ND eq_refl). change (starts_with (s2l "/**") (s2l "/*" ++ w)) with (starts_with (s2l "*") w). exact ND. }
  assert (C4 : starts_with (s2l "/*") (pre ++ w) = true) by (destruct doc; reflexivity).
  cbv zeta. rewrite C1, C2, C3, C4. cbv iota. change (0 <? 0) with false. cbv iota. change (if doc then 3 else 2) with n.
  assert (C5 : (0 <? n) = true) by (destruct doc; reflexivity). rewrite C5. unfold tbind at 1.
  rewrite (adv_bytes_n code s pre w n H (eq_sym BP)), (tbind_input _ _ _ _ H1), (find_no_close w NC).
  unfold tbind, input_pos, terr. cbn [src_pos set_pos ends]. pose proof (at_from code _ _ H1) as E. cbn [src_pos set_pos] in E.
  eexists. cbn [complaint_error skipped]. rewrite Nat.add_0_r, <- E. split; [reflexivity|]. split; [reflexivity|exact Q].
Qed.
(** ** Prefixes of numbers *)
Lemma prefix_ends st p base r : In (p, base) radixes -> no_base base r -> r <> [] -> ~ again r -> ends1 (Reports Unknown (s2l p ++ r) 1) st (s2l p ++ r).
Proof.
  intros I NB NE NA. exists 0. intros code f s _ H M ST Q. unfold scan. rewrite M.
  rewrite (radix_scan code _ f s p base [] [] r I H ltac:(constructor) NB NE).
  destruct (radix_base p base I) as (_ & _ & BP).
  pose proof (at_move_eq code s (s2l p) r (src_pos s + 2) H ltac:(cbn in I; destruct I as [X|[X|[]]]; injection X as <- <-; reflexivity)) as H1.
  rewrite (tail_other code _ f _ r (src_pos s) H1 NA NE), set_pos2, set_pos_id by reflexivity.
  assert (X : exists x, s2l p ++ r = 48%N :: x) by (cbn in I; destruct I as [X|[X|[]]]; injection X as <- <-; eexists; reflexivity). destruct X as (x & X).
  pose proof H as H2. rewrite X in H2. rewrite (unknown_ends code s 48%N x H2) by (reflexivity || (vm_compute; intuition discriminate)).
  cbn [ends complaint_error skipped]. cbv zeta. rewrite <- (at_from code s _ H). eauto.
Qed.
(** ** Numbers *)
Lemma number_ends st r : bad_number r -> ends1 Panics st r.
Proof.
  intros B. exists 0. intros code f s _ H M ST Q. unfold scan. rewrite M. exists PUnwrap. destruct B as [ds r D N P ND|ds r NE F X P ND|p base w ds r I F N NB|].
  - rewrite (dec_tok code _ f s ds r H D P ND).
    + destruct (N.leb_spec (number 10 ds) i64_max); [lia|reflexivity].
    + intros ->. exfalso. unfold number, i64_max in N. cbn in N. lia.
  - rewrite (oct_tok_any code _ f s ds r None H NE F P ND); [reflexivity|].
    destruct (existsb (fun d => (8 <=? d)%N) ds) eqn:A.
    + apply oct_bad; [exact F|]. apply existsb_exists in A. destruct A as (d & I & L). apply Exists_exists. exists d. split; [exact I|apply N.leb_le, L].
    + assert (F8 : Forall (fun d => (d < 8)%N) ds).
      { apply Forall_forall. intros d I. destruct (N.ltb_spec d 8) as [L|L]; [exact L|]. exfalso. rewrite (proj2 (existsb_exists (fun d => (8 <=? d)%N) ds)) in A; [discriminate|].
        exists d. split; [exact I|apply N.leb_le, L]. }
      rewrite (oct_value ds NE F8). destruct X as [X|X]; [|destruct (N.leb_spec (number 8 ds) i64_max); [lia|reflexivity]].
      exfalso. apply Exists_exists in X. destruct X as (d & I & L). rewrite Forall_forall in F8. specialize (F8 d I). lia.
  - rewrite (radix_scan code _ f s p base w ds r I H F NB).
    + destruct ds as [|d ds]; [exfalso; unfold number, i64_max in N; cbn in N; lia|]. destruct (N.leb_spec (number base (d :: ds)) i64_max); [lia|reflexivity].
    + intros E. apply app_eq_nil in E. destruct E as [-> _]. inversion F; subst. unfold number, i64_max in N. cbn in N. lia.
  - apply (num_err code _ f s _ _ H); try reflexivity. apply onum_dot, H.
Qed.

(** ** Single quotes *)
Definition sq_fate (esc : bool) (bak : tst) (code : str) : syntax_error :=
  if esc then SEUnterminated (s2l "string escape sequence") (mk_span (blen code - 1) (blen code))
  else SEUnterminated (s2l "single-quoted string literal") (mk_span (src_pos bak) (blen code + 1)).
Ltac fuel n := destruct n as [|n]; [lia|].
Lemma sq_open code (esc : bool) bak : forall n content s bs, at_ code s (content ++ s2l (if esc then "\" else "")) -> sq_content content = true -> List.length content < n ->
  exists s', sq_loop code n bak bs s = TErr (sq_fate esc bak code) s' /\ src_pos s' = (if esc then blen code - 1 else src_pos bak) /\ queue s' = queue s.
Proof.
  induction n as [|n IH]; intros content s bs H C L; [lia|]. cbn [sq_loop].
  destruct (split_run sq_special content) as (w & q & -> & F & Q).
  rewrite sq_content_run in C by auto. rewrite <- app_assoc in H. rewrite app_length in L.
  rewrite (tbind_input _ _ _ _ H). change (fun x => ((x =? 92) || (x =? 39) || (x =? 10))%N) with sq_special.
  set (t := s2l (if esc then "\" else "")) in *.
  rewrite position_app; auto. 2: { destruct q; [destruct esc|]; auto. }
  assert (E : match (match q ++ t with [] => None | _ :: _ => Some (List.length w) end) with Some e => e | None => List.length (w ++ q ++ t) end = List.length w).
  { destruct q; [|reflexivity]. subst t. destruct esc; [reflexivity|]. cbn. rewrite app_nil_r. reflexivity. }
  rewrite E. clear E. unfold tbind at 1. rewrite (adv_chars code s w _ _ H eq_refl).
  pose proof (at_move code s w _ H) as H1. rewrite (tbind_input _ _ _ _ H1). pose proof (at_pos code _ _ H1) as AP. cbn [src_pos set_pos] in AP.
  destruct q as [|c q]; cbn [app].
  - subst t. cbn [app] in H1, AP. destruct esc; cbn [s2l list_ascii_of_string map] in *; cbn -[Nat.sub].
    + change (match _ with [] => _ | _ => _ end) with tt || idtac. unfold tbind at 1. unfold str_escape. rewrite (tbind_input _ _ _ _ H1). cbn [nth_error].
      unfold tbind, input_pos, terr. eexists. unfold sq_fate. cbn [src_pos set_pos]. cbn in AP. change (clen 92) with 1 in AP. split; [f_equal; f_equal; f_equal; lia|]. split; [cbn [src_pos set_pos]; lia|reflexivity].
    + unfold tbind, input_pos, trestore, terr. eexists. unfold sq_fate. cbn [src_pos set_pos]. cbn in AP. split; [do 2 f_equal; f_equal; lia|]. split; reflexivity.
  - cbn in Q. apply negb_false_iff in Q. cbn [app] in H1.
    destruct (N.eqb_spec c 10) as [->|N10].
    + unfold tbind at 1. rewrite (adv_bytes_n code _ [10%N] _ 1 H1 eq_refl). unfold tbind at 1, next_line.
      pose proof (at_move_eq code _ [10%N] (q ++ t) (src_pos (set_pos (src_pos s + blen w) s) + 1) H1 eq_refl) as H2.
      cbn in C. cbn in L. match type of H2 with at_ _ ?s2 _ => destruct (IH q (next_line_st s2) (((bs ++ encode w) ++ [10%N])) ltac:(eapply at_same; [|exact H2]; reflexivity) C ltac:(lia)) as (s' & X1 & X2 & X3) end.
      exists s'. split; [exact X1|]. split; [exact X2|exact X3].
    + unfold sq_special in Q. rewrite (proj2 (N.eqb_neq c 10) N10), orb_false_r in Q. cbn in C.
      destruct (N.eqb_spec c 92) as [->|N92]; cycle 1.
      { cbn in Q. rewrite Q in C. discriminate. }
      cbn in C. destruct q as [|d q]; [discriminate|]. cbn in L. cbn [app] in *.
      unfold tbind at 1. rewrite (escape_sq _ _ 92 d (q ++ t) _ H1) by reflexivity.
      pose proof (at_move code _ [92; d]%N (q ++ t) H1) as H2.
      match goal with |- context [sq_loop _ _ _ ?b _] => match type of H2 with at_ _ ?s2 _ => destruct (IH q s2 b H2 C ltac:(lia)) as (s' & X1 & X2 & X3) end end.
      exists s'. split; [exact X1|]. split; [exact X2|exact X3].
Qed.
Lemma single_ends st (bin esc : bool) w : sq_content w = true -> (bin = false -> esc = false -> w <> []) ->
  let whole := s2l (if bin then "b'" else "'") ++ w ++ s2l (if esc then "\" else "") in
  ends1 (if esc then Reports (Unterminated "string escape sequence") (s2l "\") 1 else Reports (Unterminated "single-quoted string literal") whole (blen whole + 1)) st whole.
Proof.
  intros C NE whole. exists (S (List.length w)). intros code f s LF H M ST Q. unfold scan. rewrite M.
  assert (BL : (blen whole <? 2) = false).
  { apply Nat.ltb_ge. unfold whole. rewrite !blen_app. destruct bin; [cbn; change (clen 98) with 1; change (clen 39) with 1; lia|].
    destruct esc; [cbn; change (clen 92) with 1; change (clen 39) with 1; lia|]. specialize (NE eq_refl eq_refl). destruct w as [|c w]; [congruence|]. cbn. pose proof (clen_pos c). change (clen 39) with 1. lia. }
  set (pre := s2l (if bin then "b'" else "'")) in *. set (np := if bin then 2 else 1).
  assert (BP : blen pre = np) by (destruct bin; reflexivity).
  pose proof (at_move_eq code s pre _ (src_pos s + np) H ltac:(lia)) as H1.
  unfold in_scripting_token. unfold tbind at 1, whitespace. rewrite (tbind_input _ _ _ _ H).
  assert (WN : whitespace_loop whole s = s) by (destruct bin; reflexivity). rewrite WN, (tbind_input _ _ _ _ H).
  assert (X : forall A (x b : A), match whole with [] => x | _ => b end = b) by (destruct bin; reflexivity). rewrite X. unfold tbind at 1, input_pos at 1.
  rewrite (ret_none _ _ _ _ (doc_none code (next_token code f) f s _ H ltac:(destruct bin; reflexivity) ltac:(destruct bin; reflexivity))).
  rewrite (ret_none (bnum code) _ s s (pnum_none code s _ (s2l "0b") _ _ H ltac:(destruct bin; reflexivity))).
  rewrite (ret_none (hnum code) _ s s (pnum_none code s _ (s2l "0x") _ _ H ltac:(destruct bin; reflexivity))).
  rewrite (ret_none _ _ _ _ (onum_none code s _ H ltac:(destruct bin; reflexivity))).
  rewrite (ret_none _ _ _ _ (dq_none code _ f s _ H ltac:(destruct bin; reflexivity) ltac:(destruct bin; reflexivity))).
  rewrite (ret_none _ _ _ _ (var_none code s _ H ltac:(destruct bin; reflexivity))).
  apply ends_ret. unfold match_sq_string. rewrite (tbind_input _ _ _ _ H), BL. unfold tbind at 1, tget.
  match goal with |- ends _ _ (tbind ?m _ _) => assert (OK : m s = TOk true (set_pos (src_pos s + np) s)) end.
  { unfold whole, np, pre in *. destruct bin.
    - rewrite starts_with_app. unfold tbind. rewrite (adv_bytes_n code s (s2l "b'") _ 2 H eq_refl). reflexivity.
    - change (starts_with (s2l "b'") (s2l "'" ++ ?x)) with false. change (starts_with_c 39 (s2l "'" ++ ?x)) with true. unfold tbind. rewrite (adv_bytes_n code s (s2l "'") _ 1 H eq_refl). reflexivity. }
  unfold tbind at 1. rewrite OK. cbv iota. unfold tbind at 1.
  destruct (sq_open code esc s f w _ [] H1 C ltac:(lia)) as (s' & E & E2 & E3). rewrite E. pose proof (at_pos code s _ H) as AP. fold whole in AP.
  unfold sq_fate. destruct esc; cbn [ends complaint_error]; exists s'; cbv zeta.
  - change (blen (s2l "\")) with 1. unfold whole in AP. rewrite !blen_app in AP. change (blen (s2l "\")) with 1 in AP.
    replace (blen code - 1 + 1) with (blen code) by lia. split; [reflexivity|]. split; [cbn [skipped]; lia|rewrite E3; exact Q].
  - replace (blen code - blen whole) with (src_pos s) by lia. replace (src_pos s + (blen whole + 1)) with (blen code + 1) by lia. split; [reflexivity|]. split; [cbn [skipped]; lia|rewrite E3; exact Q].
Qed.

(** ** Braces *)
Lemma brace_panics r : panics1 LInScripting [] (s2l "}" ++ r).
Proof.
  exists 0. intros code nt lf s LF H M ST Q. exists PUnreachable. unfold scan. rewrite M.
  destruct (struct_op "}" KCurlyBracesClose r ltac:(cbn; tauto)) as (I & LO & P & _).
  rewrite (scripting_plain code nt lf s _ H P).
  unfold label_or_other. unfold tbind at 1. rewrite (label_none code s _ H) by reflexivity.
  unfold tbind at 1, put_pos at 1. rewrite set_pos_id by reflexivity.
  rewrite (other_at code s _ H eq_refl (cast_none0 code s _ H eq_refl)).
  pose proof (op_entry "}" _ _ I LO) as E.
  destruct (other_entry (s2l "}" ++ r)) as [e|].
  - destruct E as (E1 & E2 & E3 & E4). unfold entry_result, tbind. rewrite E3, E4. cbn [act_of do_act]. unfold pop_state. cbn [lstack set_pos]. rewrite ST. reflexivity.
  - destruct E as (c' & C1 & C2 & C3 & C4 & C5). discriminate C4.
Qed.
(** ** Names outside of ASCII *)
Lemma drop_none w : forall r n, n <= blen w -> (forall a b, w = a ++ b -> blen a <> n) -> drop_bytes n (w ++ r) = None.
Proof.
  induction w as [|c w IH]; intros r n L N.
  - exfalso. apply (N [] []); [reflexivity|]. cbn in *. lia.
  - destruct n as [|n]; [exfalso; apply (N [] (c :: w)); reflexivity|]. cbn [app drop_bytes]. cbn [blen] in L.
    destruct (Nat.leb_spec (clen c) (S n)) as [X|X]; [|reflexivity]. apply IH; [lia|]. intros a b E B. apply (N (c :: a) b); [rewrite E; reflexivity|]. cbn [blen]. lia.
Qed.
Lemma drop_more p : forall n i, drop_bytes (blen p + n) (p ++ i) = drop_bytes n i.
Proof.
  induction p as [|c p IH]; intros n i; [reflexivity|]. cbn [blen app]. pose proof (clen_pos c).
  destruct (clen c + blen p + n) as [|m] eqn:E; [lia|]. cbn [drop_bytes]. rewrite <- E.
  destruct (Nat.leb_spec (clen c) (clen c + blen p + n)) as [_|]; [|lia]. replace (clen c + blen p + n - clen c) with (blen p + n) by lia. apply IH.
Qed.
Lemma wide_ends st w r : name_ok w = true -> ends_word r = true -> (forall a b, w = a ++ b -> blen a <> List.length w) ->
  lexg (ends Panics) LInScripting st (w ++ r) [TString w].
Proof.
  intros N E W. exists 1. intros code f s LF H M ST Q.
  assert (B : blen w <> List.length w) by (apply (W w []); rewrite app_nil_r; reflexivity).
  pose proof (name_tok code (next_token code f) f s w r H N E B) as T.
  set (s' := set_pos (src_pos s + List.length w) s) in *.
  assert (I : input code s' = TPanic PSlice).
  { unfold input, s'. cbn [src_pos set_pos]. destruct H as (p & E1 & E2). rewrite E2, E1, drop_more.
    rewrite drop_none; [reflexivity|apply blen_ge|exact W]. }
  exists [(TString w, mk_span (src_pos s) (src_pos s + List.length w))]. split; [|split; [reflexivity|constructor; [cbn; lia|constructor]]].
  eapply runz_tok; [|discriminate|eapply (runz_end _ _ _ _ s' (TPanic PSlice)); [cbn; eauto|]].
  - intros k K. fuel k. rewrite nt_scan by congruence. unfold scan. rewrite M, T. reflexivity.
  - intros k K. fuel k. rewrite nt_scan by (cbn; congruence). unfold scan. replace (lmode s') with LInScripting by (cbn; congruence).
    unfold in_scripting_token. unfold tbind at 1, whitespace. unfold tbind at 1. rewrite I. reflexivity.
Qed.
