(** * LexNum: number literals *)
From Verif Require Import Base Tokens Lexer Printer Spec SmallFacts LexBase LexSteps LexWords LexTok.
From Coq Require Import String.
From Coq Require DecimalPos DecimalN DecimalFacts.

(** ** Values *)
Lemma small_forall (P : N -> Prop) n : (forall d, In d (map N.of_nat (seq 0 n)) -> P d) -> forall d, (d < N.of_nat n)%N -> P d.
Proof. intros H d L. apply H. apply in_map_iff. exists (N.to_nat d). split; [lia|]. apply in_seq. lia. Qed.
Definition raw_digit (c : N) : option N :=
  (if (48 <=? c) && (c <=? 57) then Some (c - 48)
   else if (97 <=? c) && (c <=? 122) then Some (c - 87)
   else if (65 <=? c) && (c <=? 90) then Some (c - 55)
   else None)%N.
Lemma raw_digit_char up d : (d < 16)%N -> raw_digit (digit_char up d) = Some d.
Proof.
  revert d. apply (small_forall (fun d => raw_digit (digit_char up d) = Some d) 16).
  intros d I. cbn in I. repeat (destruct I as [<-|I]; [destruct up; reflexivity|]). contradiction.
Qed.
Lemma digit_val_char base up d : (d < base)%N -> (base <= 16)%N -> digit_val base (digit_char up d) = Some d.
Proof.
  intros H B. change (digit_val base (digit_char up d)) with
    (match raw_digit (digit_char up d) with Some d => if (d <? base)%N then Some d else None | None => None end).
  rewrite raw_digit_char by lia. apply N.ltb_lt in H. rewrite H. reflexivity.
Qed.
Lemma digits_val_number base up ds acc : Forall (fun d => (d < base)%N) ds -> (base <= 16)%N ->
  digits_val base acc (map (digit_char up) ds) = Some (fold_left (fun a d => a * base + d)%N ds acc).
Proof.
  intros F B. revert acc. induction F as [|d ds H F IH]; intros acc; cbn [map digits_val fold_left]; auto.
  rewrite digit_val_char; auto.
Qed.
Lemma radix_number base up ds : Forall (fun d => (d < base)%N) ds -> (base <= 16)%N -> ds <> [] ->
  i64_from_str_radix base (map (digit_char up) ds) = if (number base ds <=? i64_max)%N then Some (Z.of_N (number base ds)) else None.
Proof.
  intros F B N. unfold i64_from_str_radix, from_str_radix. rewrite digits_val_number; auto.
  destruct ds; [congruence|]. reflexivity.
Qed.
Lemma digit_10 up d : (d < 10)%N -> is_digit (digit_char up d) = true.
Proof.
  intros H. unfold digit_char, is_digit. destruct (N.ltb_spec d 10); [|lia].
  apply andb_true_intro. split; apply N.leb_le; lia.
Qed.
Lemma digits_10 up ds : Forall (fun d => (d < 10)%N) ds -> Forall (fun c => is_digit c = true) (map (digit_char up) ds).
Proof. induction 1; cbn; constructor; auto using digit_10. Qed.
Lemma digits_val_uint_acc d acc : digits_val 10 (Npos acc) (uint_str d) = Some (Npos (Pos.of_uint_acc d acc)).
Proof. revert acc. induction d; intros acc; [reflexivity|..]; cbn [uint_str digits_val Pos.of_uint_acc];
  (match goal with |- context [digit_val 10 ?c] => change (digit_val 10 c) with (Some (c - 48)%N) end);
  rewrite <- IHd; f_equal; lia.
Qed.
Lemma digits_val_uint d : digits_val 10 0 (uint_str d) = Some (N.of_uint d).
Proof.
  induction d; [reflexivity|..]; cbn [uint_str digits_val];
  (match goal with |- context [digit_val 10 ?c] => change (digit_val 10 c) with (Some (c - 48)%N) end);
  [exact IHd|..]; cbn -[digits_val]; apply digits_val_uint_acc.
Qed.
Lemma uint_digits d : Forall (fun c => is_digit c = true) (uint_str d).
Proof. induction d; cbn; constructor; auto. Qed.
Lemma show_N_val n : digits_val 10 0 (show_N n) = Some n.
Proof. unfold show_N. rewrite digits_val_uint. f_equal. apply DecimalN.Unsigned.of_to. Qed.
Lemma show_N_ne n : show_N n <> [].
Proof. intros E. pose proof (show_N_val n) as H. rewrite E in H. cbn in H. injection H as <-. discriminate. Qed.
Lemma show_N_digits n : Forall (fun c => is_digit c = true) (show_N n).
Proof. apply uint_digits. Qed.
(** no leading zero *)
Lemma pos_uint_head p : match Pos.to_uint p with Decimal.D0 _ | Decimal.Nil => False | _ => True end.
Proof.
  pose proof (DecimalPos.Unsigned.to_uint_nonnil p) as N0.
  pose proof (DecimalPos.Unsigned.of_to p) as O.
  destruct (Pos.to_uint p) as [| d | | | | | | | | |] eqn:E; auto; try congruence.
  pose proof (DecimalPos.Unsigned.to_of d) as X. cbn in O. rewrite O in X. cbn in X. rewrite E in X.
  assert (Y : forall u, Decimal.unorm u <> Decimal.D0 d \/ d = Decimal.Nil).
  { intros u. unfold Decimal.unorm. induction u; cbn; try (left; discriminate); auto.
    destruct d; [right; reflexivity|left; discriminate..]. }
  destruct (Y d) as [Y'| ->]; [congruence|]. cbn in O. discriminate.
Qed.
Lemma show_N_head n : n <> 0%N -> head_is (fun c => (c =? 48)%N) (show_N n) = false.
Proof.
  intros H. destruct n as [|p]; [congruence|]. unfold show_N. cbn [N.to_uint]. pose proof (pos_uint_head p) as X.
  destruct (Pos.to_uint p); try contradiction; reflexivity.
Qed.
Lemma digit_ascii c : is_digit c = true -> (c < 128)%N.
Proof. unfold is_digit. intros H. apply andb_prop in H. destruct H as [_ H]. apply N.leb_le in H. lia. Qed.
Lemma digits_ascii w : Forall (fun c => is_digit c = true) w -> ascii w.
Proof. apply Forall_impl. apply digit_ascii. Qed.

Lemma head_ne x p c r : (c =? x)%N = false -> starts_with (x :: p) (c :: r) = false.
Proof. intros H. cbn. rewrite N.eqb_sym, H. reflexivity. Qed.

Section Num.
Variable code : str.
Notation at_ := (at_ code).
Variable nt : T tokspan.
Variable lf : nat.

Lemma num_chain s inp t s' : at_ s inp -> head_is (fun c => is_digit c || (c =? 46)%N) inp = true ->
  starts_with (s2l "0b") inp = false -> starts_with (s2l "0x") inp = false ->
  onum_dnum_lnum code s = TOk t s' -> in_scripting_token code nt lf s = TOk t s'.
Proof.
  intros H D B X O. destruct inp as [|c r]; [discriminate|]. cbn in D.
  assert (W : is_ws c = false /\ (c =? 98)%N = false /\ (c =? 60)%N = false).
  { unfold is_ws. apply orb_prop in D. destruct D as [D|D].
    - unfold is_digit in D. apply andb_prop in D. destruct D as [D1 D2]. apply N.leb_le in D1, D2.
      repeat split; repeat (apply orb_false_intro); apply N.eqb_neq; lia.
    - apply N.eqb_eq in D. subst. auto. }
  destruct W as (W1 & W2 & W3).
  unfold in_scripting_token. unfold tbind at 1, whitespace. rewrite (tbind_input _ _ _ _ H).
  rewrite ws_none by auto. rewrite (tbind_input _ _ _ _ H). unfold tbind at 1, input_pos at 1.
  rewrite (ret_none _ _ _ _ (doc_none code nt lf s _ H (head_ne 98 (s2l "<<<") c r W2)
     (head_ne 60 (s2l "<<") c r W3))).
  rewrite (ret_none (bnum code) _ s s (pnum_none code s _ (s2l "0b") _ _ H B)).
  rewrite (ret_none (hnum code) _ s s (pnum_none code s _ (s2l "0x") _ _ H X)).
  apply ret_ok. auto.
Qed.
Lemma num_err s inp p : at_ s inp -> head_is (fun c => is_digit c || (c =? 46)%N) inp = true ->
  starts_with (s2l "0b") inp = false -> starts_with (s2l "0x") inp = false ->
  onum_dnum_lnum code s = TPanic p -> in_scripting_token code nt lf s = TPanic p.
Proof.
  intros H D B X O. destruct inp as [|c r]; [discriminate|]. cbn in D.
  assert (W : is_ws c = false /\ (c =? 98)%N = false /\ (c =? 60)%N = false).
  { unfold is_ws. apply orb_prop in D. destruct D as [D|D].
    - unfold is_digit in D. apply andb_prop in D. destruct D as [D1 D2]. apply N.leb_le in D1, D2.
      repeat split; repeat (apply orb_false_intro); apply N.eqb_neq; lia.
    - apply N.eqb_eq in D. subst. auto. }
  destruct W as (W1 & W2 & W3).
  unfold in_scripting_token. unfold tbind at 1, whitespace. rewrite (tbind_input _ _ _ _ H).
  rewrite ws_none by auto. rewrite (tbind_input _ _ _ _ H). unfold tbind at 1, input_pos at 1.
  rewrite (ret_none _ _ _ _ (doc_none code nt lf s _ H (head_ne 98 (s2l "<<<") c r W2)
     (head_ne 60 (s2l "<<") c r W3))).
  rewrite (ret_none (bnum code) _ s s (pnum_none code s _ (s2l "0b") _ _ H B)).
  rewrite (ret_none (hnum code) _ s s (pnum_none code s _ (s2l "0x") _ _ H X)).
  unfold ret_token. rewrite O. reflexivity.
Qed.

Lemma not_digit_pos w r : Forall (fun c => is_digit c = true) w -> head_is is_digit r = false ->
  position not_digit (w ++ r) = match r with [] => None | _ => Some (List.length w) end.
Proof.
  intros F R. apply position_app.
  - eapply Forall_impl; [|exact F]. cbn. intros c H. rewrite is_digit_not, H. reflexivity.
  - destruct r as [|c r]; auto. cbn in *. rewrite is_digit_not, R. reflexivity.
Qed.
Lemma onum_int s w r z : at_ s (w ++ r) -> w <> [] -> Forall (fun c => is_digit c = true) w ->
  head_is (fun c => is_digit c || (c =? 46)%N) r = false ->
  (if head_is (fun c => (c =? 48)%N) w && (1 <? List.length w) then i64_from_str_radix 8 (tl w) else i64_from_str_radix 10 w) = z ->
  onum_dnum_lnum code s =
  match z with
  | Some z => TOk (TInt z, mk_span (src_pos s) (src_pos s + List.length w)) (set_pos (src_pos s + List.length w) s)
  | None => TPanic PUnwrap
  end.
Proof.
  intros H N F R Z. unfold onum_dnum_lnum. rewrite (tbind_input _ _ _ _ H).
  assert (RD : head_is is_digit r = false) by (destruct r; auto; cbn in *; apply orb_false_elim in R; tauto).
  assert (R46 : starts_with_c 46 r = false) by (destruct r; auto; cbn in *; apply orb_false_elim in R; tauto).
  rewrite (not_digit_pos w r F RD).
  assert (L : match (match r with [] => None | _ :: _ => Some (List.length w) end) with Some e => e | None => blen (w ++ r) end = List.length w).
  { destruct r; auto. rewrite app_nil_r. apply blen_ascii. apply digits_ascii; auto. }
  rewrite L. clear L.
  assert (E : exists c x, w ++ r = c :: x) by (destruct w; [congruence|cbn; eauto]).
  destruct E as (c & x & E). rewrite E. unfold tbind at 1, input_pos at 1. unfold tbind at 1.
  rewrite (adv_chars code s w r _ H eq_refl). rewrite (blen_ascii w (digits_ascii w F)).
  pose proof (at_move_eq code s w r (src_pos s + List.length w) H ltac:(rewrite (blen_ascii w (digits_ascii w F)); reflexivity)) as H1.
  rewrite (tbind_input _ _ _ _ H1), R46. cbn [negb].
  destruct (Nat.eqb_spec (List.length w) 0) as [L0|_]; [destruct w; [congruence|discriminate]|]. cbn [negb].
  unfold tbind at 1, input_pos at 1.
  replace (starts_with_c 48 w) with (head_is (fun c => (c =? 48)%N) w) by (destruct w; reflexivity).
  rewrite Z. destruct z; reflexivity.
Qed.
(** a decimal literal *)
Theorem int_tok s n r : at_ s (show_N n ++ r) -> head_is (fun c => (c =? 46)%N) r = false -> ends_word r = true ->
  in_scripting_token code nt lf s =
  if (n <=? i64_max)%N then
    TOk (TInt (Z.of_N n), mk_span (src_pos s) (src_pos s + List.length (show_N n))) (set_pos (src_pos s + List.length (show_N n)) s)
  else TPanic PUnwrap.
Proof.
  intros H R E. pose proof (show_N_digits n) as F. pose proof (show_N_ne n) as N0.
  rewrite ends_label in E. apply negb_true_iff in E.
  assert (R' : head_is (fun c => is_digit c || (c =? 46)%N) r = false).
  { destruct r as [|c r]; auto. cbn in *. rewrite R, orb_false_r. unfold is_label_char in E. apply orb_false_elim in E. tauto. }
  assert (NX : forall x, is_label_char x = true -> is_digit x = false -> starts_with [48%N; x] (show_N n ++ r) = false).
  { intros x X1 X2. destruct (show_N n) as [|c [|d w]] eqn:Z; [congruence|..].
    - cbn. destruct r as [|d r]; [apply andb_false_r|]. cbn in E. 
      destruct (N.eqb_spec x d); [subst; congruence|]. apply andb_false_r.
    - cbn. inversion F as [|? ? ? F']. inversion F'; subst. destruct (N.eqb_spec x d); [subst; congruence|]. apply andb_false_r. }
  assert (V : (if head_is (fun c => (c =? 48)%N) (show_N n) && (1 <? List.length (show_N n)) then i64_from_str_radix 8 (tl (show_N n)) else i64_from_str_radix 10 (show_N n)) = if (n <=? i64_max)%N then Some (Z.of_N n) else None).
  { replace (head_is (fun c => (c =? 48)%N) (show_N n) && (1 <? List.length (show_N n))) with false.
    - unfold i64_from_str_radix, from_str_radix. rewrite show_N_val. destruct (show_N n); [congruence|]. reflexivity.
    - destruct (N.eq_dec n 0) as [->|X]; [reflexivity|]. rewrite show_N_head; auto. }
  pose proof (onum_int s _ r _ H N0 F R' V) as O.
  assert (HD : head_is (fun c => is_digit c || (c =? 46)%N) (show_N n ++ r) = true).
  { destruct (show_N n); [congruence|]. cbn. inversion F; subst. rewrite H2. reflexivity. }
  destruct (n <=? i64_max)%N.
  - apply (num_chain s _ _ _ H HD); auto; apply NX; auto.
  - apply (num_err s _ _ H HD); auto; apply NX; auto.
Qed.
(** an octal literal *)
Theorem oct_tok s up ds r : at_ s (48%N :: map (digit_char up) ds ++ r) -> ds <> [] -> Forall (fun d => (d < 8)%N) ds ->
  (number 8 ds <= i64_max)%N -> head_is (fun c => (c =? 46)%N) r = false -> ends_word r = true ->
  in_scripting_token code nt lf s =
  TOk (TInt (Z.of_N (number 8 ds)), mk_span (src_pos s) (src_pos s + S (List.length ds))) (set_pos (src_pos s + S (List.length ds)) s).
Proof.
  intros H N0 F8 M R E. rewrite ends_label in E. apply negb_true_iff in E.
  assert (F10 : Forall (fun c => is_digit c = true) (map (digit_char up) ds)).
  { apply digits_10. eapply Forall_impl; [|exact F8]. cbn. intros; lia. }
  assert (R' : head_is (fun c => is_digit c || (c =? 46)%N) r = false).
  { destruct r as [|c r]; auto. cbn in *. rewrite R, orb_false_r. unfold is_label_char in E. apply orb_false_elim in E. tauto. }
  assert (NX : forall x, is_digit x = false -> starts_with [48%N; x] (48%N :: map (digit_char up) ds ++ r) = false).
  { intros x X. destruct ds as [|d ds]; [congruence|]. cbn. inversion F10; subst. destruct (N.eqb_spec x (digit_char up d)); [congruence|reflexivity]. }
  change (48%N :: map (digit_char up) ds ++ r) with ((48%N :: map (digit_char up) ds) ++ r) in H.
  assert (V : (if head_is (fun c => (c =? 48)%N) (48%N :: map (digit_char up) ds) && (1 <? List.length (48%N :: map (digit_char up) ds))
     then i64_from_str_radix 8 (tl (48%N :: map (digit_char up) ds)) else i64_from_str_radix 10 (48%N :: map (digit_char up) ds)) = Some (Z.of_N (number 8 ds))).
  { destruct ds as [|d ds]; [congruence|]. cbn [head_is]. rewrite N.eqb_refl. cbn [List.length map Nat.ltb Nat.leb andb tl].
    change (digit_char up d :: map (digit_char up) ds) with (map (digit_char up) (d :: ds)).
    rewrite radix_number; auto; try lia. apply N.leb_le in M. rewrite M. reflexivity. }
  pose proof (onum_int s _ r _ H ltac:(discriminate) ltac:(constructor; auto) R' V) as O.
  cbn [List.length] in O. rewrite map_length in O.
  apply (num_chain s _ _ _ H); auto; apply NX; auto.
Qed.
(** hexadecimal and binary literals *)
Lemma pnum_at s p ok base up ds r : at_ s (p ++ map (digit_char up) ds ++ r) -> blen p = 2 -> ds <> [] ->
  Forall (fun d => (d < base)%N) ds -> (base <= 16)%N -> Forall (fun d => ok (digit_char up d) = true) ds -> Forall (fun d => (digit_char up d < 128)%N) ds ->
  head_is ok r = false -> (number base ds <= i64_max)%N ->
  exists e, prefixed_num code p ok base s = TOk (TInt (Z.of_N (number base ds)), mk_span (src_pos s) e) (set_pos (src_pos s + 2 + List.length ds) s).
Proof.
  intros H P N0 F B OK A R M. unfold prefixed_num. rewrite (tbind_input _ _ _ _ H), starts_with_app.
  assert (L : (blen (p ++ map (digit_char up) ds ++ r) <? 3) = false).
  { apply Nat.ltb_ge. rewrite !blen_app, P. destruct ds as [|d ds]; [congruence|]. cbn. pose proof (clen_pos (digit_char up d)). lia. }
  rewrite L. cbn [negb orb]. unfold tbind at 1.
  rewrite (adv_bytes_n code s p _ 2 H (eq_sym P)).
  pose proof (at_move_eq code s p _ (src_pos s + 2) H ltac:(rewrite P; reflexivity)) as H1.
  rewrite (tbind_input _ _ _ _ H1).
  assert (PO : position (fun c => negb (ok c)) (map (digit_char up) ds ++ r) = match r with [] => None | _ => Some (List.length ds) end).
  { rewrite position_app, map_length; auto.
    - apply Forall_forall. intros x I. apply in_map_iff in I. destruct I as (d & <- & I). rewrite Forall_forall in OK. rewrite OK; auto.
    - destruct r; auto. cbn in *. rewrite R. reflexivity. }
  rewrite PO.
  assert (BL : blen (map (digit_char up) ds) = List.length ds).
  { rewrite blen_ascii, map_length; auto. apply Forall_forall. intros x I. apply in_map_iff in I. destruct I as (d & <- & I). rewrite Forall_forall in A. auto. }
  assert (K : forall n, n = List.length ds ->
    (p0 <- input_pos;; q <- tsub p0 2;; r0 <- advance_chars code n;; z <- unwrap (i64_from_str_radix base r0);; tret (TInt z, mk_span q n)) (set_pos (src_pos s + 2) s)
    = TOk (TInt (Z.of_N (number base ds)), mk_span (src_pos s) n) (set_pos (src_pos s + 2 + List.length ds) s)).
  { intros n ->. unfold tbind at 1, input_pos. unfold tbind at 1, tsub. cbn [src_pos set_pos].
    destruct (Nat.leb_spec 2 (src_pos s + 2)); [|lia]. unfold tret at 1. replace (src_pos s + 2 - 2) with (src_pos s) by lia.
    unfold tbind at 1. rewrite (adv_chars code _ _ r _ H1) by (rewrite map_length; reflexivity).
    rewrite radix_number by auto. apply N.leb_le in M. rewrite M, BL. reflexivity. }
  exists (List.length ds). destruct r as [|c r].
  - rewrite app_nil_r, map_length. apply K; auto.
  - destruct (List.length ds) as [|n] eqn:LD; [destruct ds; [congruence|discriminate]|]. apply K. auto.
Qed.
Lemma hex_char up d : (d < 16)%N -> is_hex (digit_char up d) = true /\ (digit_char up d < 128)%N.
Proof.
  revert d. apply (small_forall (fun d => is_hex (digit_char up d) = true /\ (digit_char up d < 128)%N) 16).
  intros d I. cbn in I. repeat (destruct I as [<-|I]; [destruct up; split; reflexivity|]). contradiction.
Qed.
Lemma bin_char up d : (d < 2)%N -> (let c := digit_char up d in (c =? 48) || (c =? 49))%N = true /\ (digit_char up d < 128)%N.
Proof.
  revert d. apply (small_forall (fun d => (let c := digit_char up d in (c =? 48) || (c =? 49))%N = true /\ (digit_char up d < 128)%N) 2).
  intros d I. cbn in I. repeat (destruct I as [<-|I]; [destruct up; split; reflexivity|]). contradiction.
Qed.
Lemma pref_start s inp : at_ s inp -> head_is (fun c => (c =? 48)%N) inp = true ->
  in_scripting_token code nt lf s = ret_token (bnum code) (ret_token (hnum code) (ret_token (onum_dnum_lnum code)
      (ret_token (match_dq_string code nt lf) (ret_token (match_variable code) (ret_token (match_sq_string code lf)
        (ret_token (match_comments code) (ret_token (match_backquote code nt lf)
          (put_pos (src_pos s) ;;; label_or_other code (src_pos s))))))))) s.
Proof.
  intros H D. destruct inp as [|c r]; [discriminate|]. cbn in D. apply N.eqb_eq in D. subst c.
  unfold in_scripting_token. unfold tbind at 1, whitespace. rewrite (tbind_input _ _ _ _ H).
  rewrite ws_none by auto. rewrite (tbind_input _ _ _ _ H). unfold tbind at 1, input_pos at 1.
  rewrite (ret_none _ _ _ _ (doc_none code nt lf s _ H ltac:(reflexivity) ltac:(reflexivity))). reflexivity.
Qed.
Theorem hex_tok s up ds r : at_ s (s2l "0x" ++ map (digit_char up) ds ++ r) -> ds <> [] -> Forall (fun d => (d < 16)%N) ds ->
  (number 16 ds <= i64_max)%N -> ends_word r = true ->
  exists e, in_scripting_token code nt lf s =
  TOk (TInt (Z.of_N (number 16 ds)), mk_span (src_pos s) e) (set_pos (src_pos s + 2 + List.length ds) s).
Proof.
  intros H N0 F M E. rewrite ends_label in E. apply negb_true_iff in E.
  destruct (pnum_at s (s2l "0x") is_hex 16 up ds r H eq_refl N0 F ltac:(lia)) as (e & X); auto.
  - eapply Forall_impl; [|exact F]. cbn. intros d D. apply hex_char; auto.
  - eapply Forall_impl; [|exact F]. cbn. intros d D. apply (hex_char up d); auto.
  - destruct r as [|c r]; auto. cbn in *. unfold is_hex, is_label_char, is_lower, is_upper in *.
    destruct (is_digit c); [rewrite orb_true_r in E; discriminate|]. rewrite orb_false_r in *.
    destruct (N.leb_spec 97 c), (N.leb_spec c 102), (N.leb_spec 65 c), (N.leb_spec c 70), (N.leb_spec c 122), (N.leb_spec c 90); auto; try lia; discriminate.
  - exists e. rewrite (pref_start s _ H) by reflexivity.
    rewrite (ret_none (bnum code) _ s s (pnum_none code s _ (s2l "0b") _ _ H ltac:(reflexivity))).
    apply (ret_ok (hnum code)). exact X.
Qed.
Theorem bin_tok s up ds r : at_ s (s2l "0b" ++ map (digit_char up) ds ++ r) -> ds <> [] -> Forall (fun d => (d < 2)%N) ds ->
  (number 2 ds <= i64_max)%N -> ends_word r = true ->
  exists e, in_scripting_token code nt lf s =
  TOk (TInt (Z.of_N (number 2 ds)), mk_span (src_pos s) e) (set_pos (src_pos s + 2 + List.length ds) s).
Proof.
  intros H N0 F M E. rewrite ends_label in E. apply negb_true_iff in E.
  destruct (pnum_at s (s2l "0b") (fun c => (c =? 48) || (c =? 49))%N 2 up ds r H eq_refl N0 F ltac:(lia)) as (e & X); auto.
  - eapply Forall_impl; [|exact F]. cbn. intros d D. apply (bin_char up d); auto.
  - eapply Forall_impl; [|exact F]. cbn. intros d D. apply (bin_char up d); auto.
  - destruct r as [|c r]; auto. cbn in *. destruct (N.eqb_spec c 48) as [->|]; [discriminate|]. destruct (N.eqb_spec c 49) as [->|]; [discriminate|]. reflexivity.
  - exists e. rewrite (pref_start s _ H) by reflexivity. apply (ret_ok (bnum code)). exact X.
Qed.
(** floating point literals *)
Theorem dbl_tok s w v r : at_ s (w ++ 46%N :: v ++ r) -> Forall (fun c => is_digit c = true) w -> Forall (fun c => is_digit c = true) v ->
  w ++ v <> [] -> head_is is_digit r = false ->
  exists a b, src_pos s <= a /\ in_scripting_token code nt lf s =
  TOk (TDouble (w ++ 46%N :: v), mk_span a b) (set_pos (src_pos s + List.length w + 1 + List.length v) s).
Proof.
  intros H F G N0 R.
  assert (A1 := blen_ascii w (digits_ascii w F)). assert (A2 := blen_ascii v (digits_ascii v G)).
  set (x := 46%N :: v ++ r) in *.
  assert (O : exists a b, src_pos s <= a /\ onum_dnum_lnum code s = TOk (TDouble (w ++ 46%N :: v), mk_span a b) (set_pos (src_pos s + List.length w + 1 + List.length v) s)).
  { unfold onum_dnum_lnum. rewrite (tbind_input _ _ _ _ H).
    rewrite (not_digit_pos w x F eq_refl). unfold x at 2 4.
    assert (E : exists c y, w ++ x = c :: y) by (destruct w; cbn; [unfold x|]; eauto).
    destruct E as (c & y & E). rewrite E. unfold tbind at 1, input_pos at 1. unfold tbind at 1.
    rewrite (adv_chars code s w x _ H eq_refl), A1.
    pose proof (at_move_eq code s w x (src_pos s + List.length w) H ltac:(rewrite A1; reflexivity)) as H1.
    rewrite (tbind_input _ _ _ _ H1). cbn [starts_with_c x]. unfold x in H1 |- *. rewrite N.eqb_refl. cbn [negb].
    unfold tbind at 1. rewrite (adv_chars code _ [46%N] (v ++ r) 1 H1 eq_refl).
    change (blen [46%N]) with 1. cbn [src_pos set_pos].
    pose proof (at_move_eq code _ [46%N] (v ++ r) (src_pos s + List.length w + 1) H1 eq_refl) as H2.
    change (set_pos _ (set_pos (src_pos s + List.length w) s)) with (set_pos (src_pos s + List.length w + 1) s) in *.
    rewrite (tbind_input _ _ _ _ H2). rewrite (not_digit_pos v r G R).
    assert (FS : f64_from_str ((w ++ [46%N]) ++ v) = Some (w ++ 46%N :: v)).
    { unfold f64_from_str. rewrite <- app_assoc. cbn [app].
      replace (existsb is_digit (w ++ 46%N :: v)) with true; auto. symmetry. apply existsb_exists.
      destruct w as [|d w]; [destruct v as [|d v]; [exfalso; apply N0; reflexivity|]|].
      - exists d. split; [right; left; auto|]. inversion G; auto.
      - exists d. split; [left; auto|]. inversion F; auto. }
    assert (K : forall n, n = List.length v -> 
      (p <- input_pos;; r0 <- advance_chars code n;; d <- unwrap (f64_from_str ((w ++ [46%N]) ++ r0));; tret (TDouble d, mk_span p (List.length w))) (set_pos (src_pos s + List.length w + 1) s)
      = TOk (TDouble (w ++ 46%N :: v), mk_span (src_pos s + List.length w + 1) (List.length w)) (set_pos (src_pos s + List.length w + 1 + List.length v) s)).
    { intros n ->. unfold tbind at 1, input_pos. unfold tbind at 1. rewrite (adv_chars code _ v r _ H2 eq_refl), A2, FS. reflexivity. }
    exists (src_pos s + List.length w + 1), (List.length w). split; [lia|].
    destruct r as [|d r].
    - rewrite app_nil_r in *. apply K; auto.
    - destruct v as [|d' v].
      + cbn [List.length]. destruct (Nat.eqb_spec (blen (w ++ [46%N])) 1) as [L|_].
        { rewrite blen_app in L. destruct w as [|c' w']; [exfalso; apply N0; reflexivity|]. cbn in L. pose proof (clen_pos c'). lia. }
        unfold tbind at 1, input_pos. rewrite app_nil_r in FS. rewrite FS. cbn. rewrite Nat.add_0_r. reflexivity.
      + apply K. auto. }
  destruct O as (a & b & L & O). exists a, b. split; auto.
  apply (num_chain s _ _ _ H); auto.
  - destruct w as [|c w]; [reflexivity|]. cbn. inversion F as [|? ? D]; subst. rewrite D. reflexivity.
  - destruct w as [|c [|d w]]; [reflexivity|cbn; apply andb_false_r|]. inversion F as [|? ? ? F']; subst. inversion F' as [|? ? D]; subst. cbn.
    destruct d as [|p]; [apply andb_false_r|]. destruct (Pos.eqb_spec 98 p) as [<-|]; [discriminate|apply andb_false_r].
  - destruct w as [|c [|d w]]; [reflexivity|cbn; apply andb_false_r|]. inversion F as [|? ? ? F']; subst. inversion F' as [|? ? D]; subst. cbn.
    destruct d as [|p]; [apply andb_false_r|]. destruct (Pos.eqb_spec 120 p) as [<-|]; [discriminate|apply andb_false_r].
Qed.
End Num.
