(** * LexSteps: the scanner in script mode, one token at a time *)
From Verif Require Import Base Tokens Lexer SmallFacts LexBase.
From Coq Require Import String.

Section Steps.
Variable code : str.
Notation at_ := (at_ code).
Variable nt : T tokspan.
Variable lf : nat.

(** ** Which scanners pass *)
Lemma doc_none s inp : at_ s inp -> starts_with (s2l "b<<<") inp = false -> starts_with (s2l "<<<") inp = false ->
  match_here_now_doc code nt lf s = TErr SENone s.
Proof.
  intros H A B. unfold match_here_now_doc. rewrite (tbind_input _ _ _ _ H), A, B.
  destruct (blen inp <? 8); reflexivity.
Qed.
Lemma pnum_none s inp p ok x : at_ s inp -> starts_with p inp = false -> prefixed_num code p ok x s = TErr SENone s.
Proof.
  intros H A. unfold prefixed_num. rewrite (tbind_input _ _ _ _ H), A, orb_true_r. reflexivity.
Qed.
Lemma is_digit_not c : not_digit c = negb (is_digit c).
Proof.
  unfold not_digit, is_digit. destruct (N.ltb_spec c 48), (N.ltb_spec 57 c), (N.leb_spec 48 c), (N.leb_spec c 57); cbn; auto; lia.
Qed.
Lemma adv0 s inp : at_ s inp -> advance_chars code 0 s = TOk [] s.
Proof.
  intros H. rewrite (adv_chars code s [] inp 0 H eq_refl). cbn. rewrite Nat.add_0_r, set_pos_id; auto.
Qed.
(** a dot that is followed by something other than a digit, or no dot *)
Definition no_num (inp : str) : bool :=
  match inp with
  | c :: r => negb (is_digit c) && (negb (c =? 46)%N || match r with d :: _ => negb (is_digit d) | [] => false end)
  | [] => false
  end.
Lemma onum_none s inp : at_ s inp -> no_num inp = true -> onum_dnum_lnum code s = TErr SENone s.
Proof.
  intros H N. unfold onum_dnum_lnum. rewrite (tbind_input _ _ _ _ H).
  destruct inp as [|c r]; [discriminate|]. cbn in N. apply andb_prop in N. destruct N as [D N].
  cbn [position]. rewrite is_digit_not, D.
  unfold tbind at 1. unfold input_pos at 1. unfold tbind at 1. rewrite (adv0 _ _ H).
  rewrite (tbind_input _ _ _ _ H). cbn [starts_with_c].
  destruct (N.eqb_spec c 46) as [->|X]; cbn [negb].
  - cbn in N. destruct r as [|d r]; [discriminate|].
    unfold tbind at 1. rewrite (adv_chars code s [46%N] (d :: r) 1 H eq_refl).
    pose proof (at_move code s [46%N] (d :: r) H) as H'.
    rewrite (tbind_input _ _ _ _ H'). cbn [position]. rewrite is_digit_not, N.
    change (TErr SENone (set_pos (src_pos s) s) = @TErr tokspan SENone s). rewrite set_pos_id; auto.
  - change (TErr SENone (set_pos (src_pos s) s) = @TErr tokspan SENone s). rewrite set_pos_id; auto.
Qed.
Lemma dq_none s inp : at_ s inp -> starts_with (s2l "b""") inp = false -> starts_with_c 34 inp = false ->
  match_dq_string code nt lf s = TErr SENone s.
Proof.
  intros H A B. unfold match_dq_string. rewrite (tbind_input _ _ _ _ H), A, B.
  destruct (blen inp <? 2); reflexivity.
Qed.
Lemma sq_none s inp : at_ s inp -> starts_with (s2l "b'") inp = false -> starts_with_c 39 inp = false ->
  match_sq_string code lf s = TErr SENone s.
Proof.
  intros H A B. unfold match_sq_string. rewrite (tbind_input _ _ _ _ H), A, B.
  destruct (blen inp <? 2); reflexivity.
Qed.
Definition no_var (inp : str) : bool :=
  match inp with
  | c :: r => negb (c =? 36)%N || negb (head_is (fun c => is_label_char c && negb (is_digit c)) r)
  | [] => true
  end.
Lemma var_none s inp : at_ s inp -> no_var inp = true -> match_variable code s = TErr SENone s.
Proof.
  intros H N. unfold match_variable. rewrite (tbind_input _ _ _ _ H).
  destruct (blen inp <? 2); [reflexivity|]. destruct inp as [|c r]; [reflexivity|].
  cbn [starts_with_c orb]. cbn in N. destruct (N.eqb_spec c 36) as [->|]; [|reflexivity].
  cbn in N. cbn [negb]. unfold tbind at 1. unfold input_pos. unfold tbind at 1.
  rewrite (adv_bytes_n code s [36%N] r 1 H eq_refl).
  pose proof (at_move_eq code s [36%N] r (src_pos s + 1) H eq_refl) as H'.
  unfold tbind at 1. rewrite (label_none code _ _ H').
  - change (TErr SENone (set_pos (src_pos s) s) = @TErr tokspan SENone s). rewrite set_pos_id; auto.
  - destruct (head_is _ r); auto; discriminate.
Qed.
Lemma comm_none s inp : at_ s inp -> starts_with_c 35 inp = false -> starts_with (s2l "//") inp = false ->
  starts_with (s2l "/*") inp = false -> match_comments code s = TErr SENone s.
Proof.
  intros H A B C. unfold match_comments. rewrite (tbind_input _ _ _ _ H). unfold tbind at 1, input_pos at 1.
  rewrite A, B, C.
  replace (starts_with (s2l "/**") inp) with false; [reflexivity|].
  symmetry. destruct (starts_with (s2l "/**") inp) eqn:E; auto. apply starts_with_iff in E. destruct E as (r & ->).
  discriminate.
Qed.
Lemma bq_none s inp : at_ s inp -> starts_with_c 96 inp = false -> match_backquote code nt lf s = TErr SENone s.
Proof.
  intros H A. unfold match_backquote. rewrite (tbind_input _ _ _ _ H), A.
  destruct (blen inp <? 2); reflexivity.
Qed.

(** input on which only the label and keyword scanners succeed *)
Definition plain (inp : str) : bool :=
  negb (starts_with (s2l "b<<<") inp) && negb (starts_with (s2l "<<<") inp) &&
  no_num inp &&
  negb (starts_with (s2l "b""") inp) && negb (starts_with_c 34 inp) &&
  no_var inp &&
  negb (starts_with (s2l "b'") inp) && negb (starts_with_c 39 inp) &&
  negb (starts_with_c 35 inp) && negb (starts_with (s2l "//") inp) && negb (starts_with (s2l "/*") inp) &&
  negb (starts_with_c 96 inp) && negb (head_is is_ws inp).

Lemma no_num_prefix inp x : no_num inp = true -> starts_with (48%N :: x) inp = false.
Proof.
  destruct inp as [|c r]; cbn; auto. intros H. apply andb_prop in H. destruct H as [H _].
  destruct c as [|p]; auto. destruct (Pos.eqb_spec 48 p) as [<-|]; [discriminate|]. reflexivity.
Qed.
Lemma scripting_plain s inp : at_ s inp -> plain inp = true ->
  in_scripting_token code nt lf s = label_or_other code (src_pos s) s.
Proof.
  intros H P. unfold plain in P. repeat (apply andb_prop in P; destruct P as [P ?]).
  repeat match goal with H : negb _ = true |- _ => apply negb_true_iff in H end.
  assert (E : exists c r, inp = c :: r) by (destruct inp; [discriminate|eauto]). destruct E as (c & r & ->).
  unfold in_scripting_token. unfold tbind at 1, whitespace. rewrite (tbind_input _ _ _ _ H).
  rewrite ws_none by (cbn in *; auto). rewrite (tbind_input _ _ _ _ H).
  unfold tbind at 1, input_pos at 1.
  rewrite (ret_none _ _ _ _ (doc_none s _ H ltac:(assumption) ltac:(assumption))).
  rewrite (ret_none (bnum code) _ s s (pnum_none s _ (s2l "0b") _ _ H ltac:(apply no_num_prefix; assumption))).
  rewrite (ret_none (hnum code) _ s s (pnum_none s _ (s2l "0x") _ _ H ltac:(apply no_num_prefix; assumption))).
  rewrite (ret_none _ _ _ _ (onum_none s _ H ltac:(assumption))).
  rewrite (ret_none _ _ _ _ (dq_none s _ H ltac:(assumption) ltac:(assumption))).
  rewrite (ret_none _ _ _ _ (var_none s _ H ltac:(assumption))).
  rewrite (ret_none _ _ _ _ (sq_none s _ H ltac:(assumption) ltac:(assumption))).
  rewrite (ret_none _ _ _ _ (comm_none s _ H ltac:(assumption) ltac:(assumption) ltac:(assumption))).
  rewrite (ret_none _ _ _ _ (bq_none s _ H ltac:(assumption))).
  unfold tbind, put_pos. rewrite set_pos_id; auto.
Qed.

(** ** Keyword tables *)
Fixpoint find_entry (l : list entry) (inp : str) : option entry :=
  match l with
  | [] => None
  | (r, k, a) :: l' => if starts_with (to_lower (s2l r)) inp then Some (r, k, a) else find_entry l' inp
  end.
Definition ascii_entry (e : entry) : Prop := ascii (s2l (fst (fst e))).
Definition entry_result (e : entry) : T tokspan := fun s =>
  (do_act (snd e) ;;; tret (Kw (snd (fst e)), mk_span (src_pos s) (src_pos s + blen (s2l (fst (fst e))))))
    (set_pos (src_pos s + blen (s2l (fst (fst e)))) s).
Lemma to_lower_len s : List.length (to_lower s) = List.length s.
Proof. apply map_length. Qed.
Lemma to_lower_ascii s : ascii s -> ascii (to_lower s).
Proof. intros H. unfold to_lower. apply Forall_forall. intros x I. apply in_map_iff in I. destruct I as (y & <- & I).
  apply lower1_ascii. unfold ascii in H. rewrite Forall_forall in H. auto. Qed.
Lemma match_alias s inp al k a : at_ s inp -> ascii (s2l al) ->
  match_token_alias code (s2l al) k a s =
  if starts_with (to_lower (s2l al)) inp then entry_result (al, k, a) s else TErr SENone s.
Proof.
  intros H A. unfold match_token_alias. rewrite (tbind_input _ _ _ _ H), (ci_starts _ _ A).
  destruct (starts_with _ inp) eqn:E; [|reflexivity].
  apply starts_with_iff in E. destruct E as (r & ->).
  unfold tbind at 1, input_pos at 1. unfold tbind at 1.
  assert (L : blen (s2l al) = blen (to_lower (s2l al))).
  { rewrite (blen_ascii _ A), (blen_ascii _ (to_lower_ascii _ A)), to_lower_len. reflexivity. }
  rewrite (adv_bytes_n code s _ r _ H L). unfold entry_result. cbn [fst snd]. reflexivity.
Qed.
Lemma entry_ne e s s' : entry_result e s <> TErr SENone s'.
Proof. destruct e as [[r k] a]. unfold entry_result, tbind. destruct a; cbn; try discriminate. unfold pop_state. destruct (lstack _); discriminate. Qed.
Lemma try_entries_at l k s inp : at_ s inp -> Forall ascii_entry l ->
  try_entries code l k s = match find_entry l inp with Some e => entry_result e s | None => k s end.
Proof.
  intros H F. induction F as [|[[r kd] a] l A F IH]; [reflexivity|].
  cbn [try_entries find_entry]. unfold ret_token. rewrite (match_alias s inp r kd a H A).
  destruct (starts_with _ inp); [|exact IH].
  pose proof (entry_ne (r, kd, a) s) as N. destruct (entry_result _ s) as [|[] ?| |]; auto.
  exfalso. eapply N. reflexivity.
Qed.
Definition asciib (s : str) : bool := forallb (fun c => (c <? 128)%N) s.
Lemma asciib_iff s : asciib s = true <-> ascii s.
Proof.
  unfold asciib, ascii. rewrite forallb_forall, Forall_forall. split; intros H x I; specialize (H x I); apply N.ltb_lt; auto.
Qed.
Lemma entries_ascii l : forallb (fun e : entry => asciib (s2l (fst (fst e)))) l = true -> Forall ascii_entry l.
Proof. rewrite forallb_forall, Forall_forall. intros H x I. apply asciib_iff. auto. Qed.
Lemma t1 : Forall ascii_entry table1. Proof. apply entries_ascii. reflexivity. Qed.
Lemma t2 : Forall ascii_entry table2. Proof. apply entries_ascii. reflexivity. Qed.
Lemma t3 : Forall ascii_entry table3. Proof. apply entries_ascii. reflexivity. Qed.
Lemma t4 : Forall ascii_entry table4. Proof. apply entries_ascii. reflexivity. Qed.
Lemma tc : Forall ascii_entry cast_table. Proof. apply entries_ascii. reflexivity. Qed.

Lemma yield_none s inp : at_ s inp -> starts_with (s2l "yield") inp = false -> match_yield code s = TErr SENone s.
Proof.
  intros H A. unfold match_yield. rewrite (tbind_input _ _ _ _ H), ci_starts by (apply asciib_iff; reflexivity).
  change (to_lower (s2l "yield")) with (s2l "yield"). rewrite A. reflexivity.
Qed.
Lemma cast_none0 s inp : at_ s inp -> starts_with_c 40 inp = false -> match_cast code s = TErr SENone s.
Proof. intros H A. unfold match_cast. rewrite (tbind_input _ _ _ _ H), A. reflexivity. Qed.

(** the keyword or operator at the front of [inp], [yield] and casts aside *)
Definition other_entry (inp : str) : option entry :=
  match find_entry table1 inp with
  | Some e => Some e
  | None =>
    match find_entry table2 inp with
    | Some e => Some e
    | None =>
      match find_entry table3 inp with
      | Some e => Some e
      | None => if starts_with_c 125 inp then Some ("}"%string, KCurlyBracesClose, APop) else find_entry table4 inp
      end
    end
  end.
Definition close_doc (t : tokspan) : tokspan := (fst t, set_doc (Some []) (snd t)).
Lemma other_at s inp : at_ s inp -> starts_with (s2l "yield") inp = false -> match_cast code s = TErr SENone s ->
  in_scripting_other_token code s =
  match other_entry inp with
  | Some e => (t <- entry_result e ;; tret (if kind_eqb (snd (fst e)) KCurlyBracesClose then close_doc t else t)) s
  | None => ret_token (m_token code) unknown_character s
  end.
Proof.
  intros H Y C. unfold in_scripting_other_token, other_entry.
  assert (K : forall l e, find_entry l inp = Some e -> forallb (fun e : entry => negb (kind_eqb (snd (fst e)) KCurlyBracesClose)) l = true ->
    kind_eqb (snd (fst e)) KCurlyBracesClose = false).
  { intros l e. induction l as [|[[r k] a] l IH]; cbn; [discriminate|]. intros E F. apply andb_prop in F.
    destruct (starts_with (to_lower (s2l r)) inp).
    - injection E as <-. cbn. destruct F as [F _]. apply negb_true_iff in F. auto.
    - apply IH; tauto. }
  assert (U : forall e, (t <- entry_result e ;; tret t) s = entry_result e s).
  { intros e. unfold tbind. destruct (entry_result e s); reflexivity. }
  rewrite (try_entries_at _ _ s inp H t1). destruct (find_entry table1 inp) eqn:E1; [rewrite (K _ _ E1 eq_refl), U; reflexivity|].
  rewrite (ret_none _ _ _ _ (yield_none s inp H Y)).
  rewrite (try_entries_at _ _ s inp H t2). destruct (find_entry table2 inp) eqn:E2; [rewrite (K _ _ E2 eq_refl), U; reflexivity|].
  rewrite (ret_none _ _ _ _ C).
  rewrite (try_entries_at _ _ s inp H t3). destruct (find_entry table3 inp) eqn:E3; [rewrite (K _ _ E3 eq_refl), U; reflexivity|].
  assert (B : match_close_brace code s = if starts_with_c 125 inp then (t <- entry_result ("}"%string, KCurlyBracesClose, APop) ;; tret (close_doc t)) s else TErr SENone s).
  { unfold match_close_brace, tbind. rewrite (match_alias s inp "}" _ _ H) by (apply asciib_iff; reflexivity).
    change (to_lower (s2l "}")) with [125%N].
    replace (starts_with [125%N] inp) with (starts_with_c 125 inp) by (destruct inp as [|c r]; cbn; rewrite ?andb_true_r, 1?N.eqb_sym; reflexivity).
    destruct (starts_with_c 125 inp); reflexivity. }
  destruct (starts_with_c 125 inp) eqn:E.
  - unfold ret_token at 1. rewrite B. unfold tbind, entry_result, tbind. cbn [fst snd do_act].
    unfold pop_state. cbn. destruct (lstack s); reflexivity.
  - rewrite (ret_none _ _ _ _ B). rewrite (try_entries_at _ _ s inp H t4).
    destruct (find_entry table4 inp) eqn:E4; [rewrite (K _ _ E4 eq_refl), U; reflexivity|]. reflexivity.
Qed.
End Steps.
