(** * LexBase: where the tokenizer is in the source, and its small steps *)
From Verif Require Import Base Tokens Lexer SmallFacts.
From Coq Require Import String.

(** ** Byte lengths *)
Lemma clen_pos c : 1 <= clen c.
Proof. unfold clen. repeat destruct (_ <? _)%N; lia. Qed.
Lemma blen_app a b : blen (a ++ b) = blen a + blen b.
Proof. induction a; cbn; lia. Qed.
Lemma drop0 s : drop_bytes 0 s = Some s.
Proof. destruct s; reflexivity. Qed.
Lemma take0 s : take_bytes 0 s = Some [].
Proof. destruct s; reflexivity. Qed.
Lemma drop_app a b : drop_bytes (blen a) (a ++ b) = Some b.
Proof.
  induction a as [|c a IH]; [apply drop0|]. cbn [blen app]. pose proof (clen_pos c).
  destruct (clen c + blen a) eqn:E; [lia|]. cbn [drop_bytes].
  destruct (Nat.leb_spec (clen c) (S n)); [|lia]. rewrite <- E.
  replace (clen c + blen a - clen c) with (blen a) by lia. exact IH.
Qed.
Lemma take_app a b : take_bytes (blen a) (a ++ b) = Some a.
Proof.
  induction a as [|c a IH]; [apply take0|]. cbn [blen app]. pose proof (clen_pos c).
  destruct (clen c + blen a) eqn:E; [lia|]. cbn [take_bytes].
  destruct (Nat.leb_spec (clen c) (S n)); [|lia]. rewrite <- E.
  replace (clen c + blen a - clen c) with (blen a) by lia. rewrite IH. reflexivity.
Qed.
Definition ascii (s : str) : Prop := Forall (fun c => (c < 128)%N) s.
Lemma clen_ascii c : (c < 128)%N -> clen c = 1.
Proof. intros H. unfold clen. destruct (N.ltb_spec c 128); lia. Qed.
Lemma blen_ascii s : ascii s -> blen s = List.length s.
Proof. induction 1; cbn; auto. rewrite clen_ascii; auto. Qed.
Lemma blen_ge s : List.length s <= blen s.
Proof. induction s; cbn; auto. pose proof (clen_pos a). lia. Qed.

(** ** Strings *)
Lemma starts_with_app p r : starts_with p (p ++ r) = true.
Proof. induction p; cbn; auto. rewrite N.eqb_refl. auto. Qed.
Lemma starts_with_iff p s : starts_with p s = true <-> exists r, s = p ++ r.
Proof.
  split.
  - revert s. induction p as [|c p IH]; intros s H; [exists s; reflexivity|].
    destruct s as [|d s]; [discriminate|]. cbn in H. apply andb_prop in H. destruct H as [A B].
    apply N.eqb_eq in A. apply IH in B. destruct B as (r & ->). exists r. subst. reflexivity.
  - intros (r & ->). apply starts_with_app.
Qed.
Lemma firstn_starts n p s : n = List.length p -> str_eqb (firstn n s) p = starts_with p s.
Proof.
  intros ->. revert s. induction p as [|c p IH]; intros s; [reflexivity|].
  destruct s as [|d s]; [reflexivity|]. cbn. rewrite IH, N.eqb_sym. reflexivity.
Qed.
Lemma lower1_ascii c : (c < 128)%N -> (lower1 c < 128)%N.
Proof. unfold lower1. destruct (_ && _) eqn:E; intros; [|auto]. apply andb_prop in E. destruct E as [E F]. apply N.leb_le in E, F. lia. Qed.
Lemma ci_starts inp s : ascii s -> starts_with_ci inp s = starts_with (to_lower s) inp.
Proof.
  intros A. unfold starts_with_ci. apply firstn_starts.
  rewrite (blen_ascii s A). unfold to_lower. rewrite map_length. reflexivity.
Qed.
Definition head_is (f : N -> bool) (s : str) : bool := match s with c :: _ => f c | [] => false end.
Lemma position_app f w r : Forall (fun c => f c = false) w -> head_is (fun c => negb (f c)) r = false ->
  position f (w ++ r) = match r with [] => None | _ => Some (List.length w) end.
Proof.
  intros F H. induction F as [|c w E F IH]; cbn.
  - destruct r as [|c r]; [reflexivity|]. cbn in *. destruct (f c); [reflexivity|discriminate].
  - rewrite E, IH. destruct r; reflexivity.
Qed.

Section At.
Variable code : str.

(** the unread input is [inp] *)
Definition at_ (s : tst) (inp : str) : Prop := exists pre, code = pre ++ inp /\ src_pos s = blen pre.
(** control part of the state *)
Definition ctl (s : tst) : lstate * list lstate * bool * list tokspan := (lmode s, lstack s, restart s, queue s).

Lemma at_set s inp p inp' : at_ s inp -> (forall pre, blen pre = src_pos s -> code = pre ++ inp -> exists pre', code = pre' ++ inp' /\ p = blen pre') -> at_ (set_pos p s) inp'.
Proof. intros (pre & E & P) H. destruct (H pre) as (q & A & B); auto. exists q. auto. Qed.
Lemma at_move s w r : at_ s (w ++ r) -> at_ (set_pos (src_pos s + blen w) s) r.
Proof.
  intros (pre & E & P). exists (pre ++ w). rewrite <- app_assoc. split; auto.
  cbn. rewrite blen_app. lia.
Qed.
Lemma at_move_eq s w r p : at_ s (w ++ r) -> p = src_pos s + blen w -> at_ (set_pos p s) r.
Proof. intros H ->. apply at_move; auto. Qed.
Lemma at_same s s' inp : src_pos s = src_pos s' -> at_ s inp -> at_ s' inp.
Proof. intros E (pre & A & B). exists pre. split; congruence. Qed.
Lemma at_fun s inp inp' : at_ s inp -> at_ s inp' -> inp = inp'.
Proof.
  intros (p & E & P) (q & F & Q). pose proof (drop_app p inp) as A. pose proof (drop_app q inp') as B.
  rewrite <- E in A. rewrite <- F in B. rewrite <- P in A. rewrite <- Q in B. congruence.
Qed.
Lemma at_pos s inp : at_ s inp -> src_pos s + blen inp = blen code.
Proof. intros (p & E & P). rewrite E, blen_app. lia. Qed.

Lemma input_at s inp : at_ s inp -> input code s = TOk inp s.
Proof. intros (p & E & P). unfold input. rewrite P. replace (drop_bytes (blen p) code) with (Some inp); auto. rewrite E, drop_app. auto. Qed.
Lemma tbind_input {A} s inp (k : str -> T A) : at_ s inp -> tbind (input code) k s = k inp s.
Proof. intros H. unfold tbind. rewrite (input_at _ _ H). reflexivity. Qed.
Lemma adv_bytes s w r : at_ s (w ++ r) -> advance_bytes code (blen w) s = TOk w (set_pos (src_pos s + blen w) s).
Proof. intros H. unfold advance_bytes. rewrite (tbind_input _ _ _ H), take_app. reflexivity. Qed.
Lemma adv_bytes_n s w r n : at_ s (w ++ r) -> n = blen w -> advance_bytes code n s = TOk w (set_pos (src_pos s + n) s).
Proof. intros H ->. apply adv_bytes with r; auto. Qed.
Lemma adv_chars s w r n : at_ s (w ++ r) -> n = List.length w -> advance_chars code n s = TOk w (set_pos (src_pos s + blen w) s).
Proof.
  intros H ->. unfold advance_chars. rewrite (tbind_input _ _ _ H).
  rewrite firstn_app, Nat.sub_diag, firstn_all, firstn_O, app_nil_r. apply adv_bytes with r; auto.
Qed.
Lemma set_pos_id s p : p = src_pos s -> set_pos p s = s.
Proof. intros ->. destruct s; reflexivity. Qed.
Lemma set_pos2 p q s : set_pos p (set_pos q s) = set_pos p s.
Proof. reflexivity. Qed.

(** ** Labels *)
Lemma label_at s w r : at_ s (w ++ r) -> w <> [] -> Forall (fun c => is_label_char c = true) w ->
  head_is is_digit w = false -> head_is is_label_char r = false ->
  label code s = TOk (Some (w, mk_span (src_pos s) (src_pos s + List.length w))) (set_pos (src_pos s + blen w) s).
Proof.
  intros H N F D R. unfold label. rewrite (tbind_input _ _ _ H).
  destruct w as [|c w]; [congruence|]. cbn [app]. cbn in D. rewrite D.
  rewrite app_comm_cons, position_app.
  - assert (E : forall n, (match r with [] => None | _ :: _ => Some (List.length (c :: w)) end) = Some n -> n = List.length (c :: w)).
    { intros n. destruct r; congruence. }
    assert (L : forall x, x = List.length (c :: w) ->
      tbind (input_pos) (fun old_pos => tbind (advance_chars code x) (fun r0 => tret (Some (r0, mk_span old_pos (old_pos + x))))) s
      = TOk (Some (c :: w, mk_span (src_pos s) (src_pos s + x))) (set_pos (src_pos s + blen (c :: w)) s)).
    { intros x X. unfold tbind at 1. unfold input_pos. unfold tbind. rewrite (adv_chars s (c :: w) r x); auto. }
    destruct r as [|d r].
    + rewrite app_nil_r. rewrite L; auto.
    + exact (L _ eq_refl).
  - eapply Forall_impl; [|exact F]. cbn. intros x ->. reflexivity.
  - destruct r as [|d r]; auto. cbn in *. rewrite Bool.negb_involutive. auto.
Qed.
Lemma label_none s inp : at_ s inp -> head_is (fun c => is_label_char c && negb (is_digit c)) inp = false ->
  label code s = TOk None s.
Proof.
  intros H D. unfold label. rewrite (tbind_input _ _ _ H). destruct inp as [|c r]; [reflexivity|].
  cbn in D. destruct (is_digit c); [reflexivity|]. rewrite andb_true_r in D.
  cbn [position]. rewrite D. reflexivity.
Qed.

(** ** White space *)
Definition is_ws (c : N) : bool := ((c =? 32) || (c =? 9) || (c =? 13) || (c =? 10))%N.
Lemma ws_clen c : is_ws c = true -> clen c = 1.
Proof. unfold is_ws. intros H. apply clen_ascii. repeat (apply orb_prop in H; destruct H as [H|H]); apply N.eqb_eq in H; subst; reflexivity. Qed.
Lemma ws_loop w r s : Forall (fun c => is_ws c = true) w -> head_is is_ws r = false -> at_ s (w ++ r) ->
  at_ (whitespace_loop (w ++ r) s) r /\ ctl (whitespace_loop (w ++ r) s) = ctl s.
Proof.
  intros F. revert s. induction F as [|c w E F IH]; intros s R A.
  - cbn [app] in *. destruct r as [|c r]; cbn [whitespace_loop]; auto. cbn in R. unfold is_ws in R.
    apply orb_false_elim in R. destruct R as [R1 R2]. rewrite R1, R2. auto.
  - cbn [app whitespace_loop]. pose proof (ws_clen c E) as L. unfold is_ws in E.
    assert (A' : at_ (set_pos (src_pos s + 1) s) (w ++ r)).
    { apply (at_move_eq s [c] (w ++ r)); auto. cbn. lia. }
    destruct ((c =? 32) || (c =? 9) || (c =? 13))%N.
    + apply IH in A'; auto.
    + cbn in E. rewrite E.
      assert (A'' : at_ (next_line_st (set_pos (src_pos s + 1) s)) (w ++ r)) by (eapply at_same; [|exact A']; reflexivity).
      apply IH in A''; auto.
Qed.
Lemma ws_none c r s : is_ws c = false -> whitespace_loop (c :: r) s = s.
Proof. intros R. cbn. unfold is_ws in R. apply orb_false_elim in R. destruct R as [R1 R2]. rewrite R1, R2. auto. Qed.
End At.

(** the fuel-free part of [TErr SENone s] reasoning *)
Lemma ret_none {A} (m k : T A) s s' : m s = TErr SENone s' -> ret_token m k s = k s'.
Proof. intros H. unfold ret_token. rewrite H. reflexivity. Qed.
Lemma ret_ok {A} (m k : T A) s a s' : m s = TOk a s' -> ret_token m k s = TOk a s'.
Proof. intros H. unfold ret_token. rewrite H. reflexivity. Qed.
