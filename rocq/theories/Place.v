(** * Place: where the tokenizer puts the tokens (C46) *)
From Verif Require Import Base Tokens Lexer Driver Spec SmallFacts LexBase LexInv LexBehind Wp SpecPlace.
From Coq Require Import String.
Local Open Scope list_scope.

Section Place.
Variable code : str.
Notation L := (blen code).
Notation hx := (LexInv.hx True).
Notation spot := (LexInv.spot code).
Notation fwd := (LexInv.fwd code).
Notation laid := (SpecPlace.laid code).
Notation stands := (SpecPlace.stands code).
Notation token_at := (SpecPlace.token_at code).

Lemma spot_stands s w r : spot s (w ++ r) -> stands (src_pos s) w.
Proof. intros H. destruct (drop_split _ _ _ H) as (pre & E & B). exists pre, r. auto. Qed.
Lemma split_at : forall (a b c d : str), a ++ b = c ++ d -> blen a = blen c -> a = c /\ b = d.
Proof.
  induction a as [|x a IH]; intros b [|y c] d E B; auto; cbn in *.
  - pose proof (clen_pos y). lia. - pose proof (clen_pos x). lia.
  - injection E as -> E. destruct (IH _ _ _ E) as [-> ->]; [lia|auto].
Qed.
Lemma stands_join p u v : stands p u -> stands (p + blen u) v -> stands p (u ++ v).
Proof.
  intros (a & b & E & B) (a' & b' & E' & B'). exists a, b'. split; [|exact B]. rewrite E, app_assoc in E'. apply split_at in E' as [<- ->]; [|rewrite blen_app; lia].
  rewrite E, <- !app_assoc. reflexivity.
Qed.
Lemma len_le (w : str) : List.length w <= blen w.
Proof. induction w as [|c w IH]; [auto|]. cbn. pose proof (clen_pos c). lia. Qed.
Lemma laid_le lo hi l : laid lo hi l -> lo <= hi.
Proof. induction 1; try lia. Qed.
Lemma laid_weak lo hi l : laid lo hi l -> forall lo' hi', lo' <= lo -> hi <= hi' -> laid lo' hi' l.
Proof.
  induction 1; intros lo' hi' X Y.
  - constructor; lia.
  - constructor; auto; lia.
  - eapply laid_radix; eauto; lia.
  - eapply laid_double; eauto; lia.
  - eapply laid_string; eauto; lia.
Qed.
Lemma laid_app lo m l1 : laid lo m l1 -> forall hi l2, laid m hi l2 -> laid lo hi (l1 ++ l2).
Proof.
  induction 1; intros hi2 l2 X; cbn [app].
  - eapply laid_weak; eauto.
  - constructor; auto.
  - eapply laid_radix; eauto.
  - eapply laid_double; eauto.
  - rewrite <- app_assoc. cbn [app]. eapply laid_string; eauto.
Qed.
Lemma laid_one t sp lo hi : token_at t (sp_start sp) (sp_end sp) -> lo <= sp_start sp -> sp_start sp <= sp_end sp -> sp_end sp <= hi -> laid lo hi [(t, sp)].
Proof. intros A B C D. apply laid_token; auto. constructor. exact D. Qed.

(** ** States *)
(** only the position has changed, forwards (the lines are of no interest here) *)
Definition calm (s s' : tst) : Prop := lmode s' = lmode s /\ lstack s' = lstack s /\ queue s' = queue s /\ src_pos s <= src_pos s'.
Lemma calm_refl s : calm s s. Proof. repeat split; auto. Qed.
Lemma calm_trans a b c : calm a b -> calm b c -> calm a c.
Proof. intros (A & B & C & D) (A' & B' & C' & D'). repeat split; try congruence; lia. Qed.
Lemma calm_move s p : src_pos s <= p -> calm s (set_pos p s). Proof. intros H. repeat split. exact H. Qed.
Lemma calm_pos a b : calm a b -> src_pos a <= src_pos b. Proof. intros H. apply H. Qed.
Lemma fwd_calm a b : fwd a b -> calm a b. Proof. intros (p & -> & P). apply calm_move. lia. Qed.
Lemma onward_calm a b : onward code a b -> calm a b. Proof. intros (p & -> & P). apply calm_move. lia. Qed.
Lemma calm_line s : calm s (next_line_st s). Proof. repeat split; auto. Qed.
Lemma calm_adv s w r : spot s (w ++ r) -> calm s (set_pos (src_pos s + blen w) s). Proof. intros _. apply calm_move. lia. Qed.
Lemma calm_restore b s : calm b s -> calm b (restore b s). Proof. intros (A & B & C & D). repeat split; auto. Qed.
Lemma calm_put b s p : calm b s -> src_pos b <= p -> calm b (set_pos p s). Proof. intros (A & B & C & D) H. repeat split; auto. Qed.
Lemma calm_lines n : forall s, calm s (next_lines n s).
Proof. induction n as [|n IH]; intros s; [apply calm_refl|]. cbn [next_lines]. eapply calm_trans; [apply calm_line|apply IH]. Qed.

Definition noend (t : tokspan) : Prop := fst t <> Kw KEnd.
(** the queue is only in use while it is emitted *)
Definition tidy (s : tst) : Prop := ~ In LEmitQueue (lstack s) /\ (lmode s <> LEmitQueue -> queue s = []) /\ Forall noend (queue s).
Definition usual (s : tst) : Prop := ~ In LEmitQueue (lstack s) /\ lmode s <> LEmitQueue /\ queue s = [].
Definition live (s : tst) : Prop := ~ In LEmitQueue (lstack s) /\ lmode s = LInScripting /\ queue s = [].
Lemma usual_tidy s : usual s -> tidy s. Proof. intros (A & B & C). split; [exact A|]. split; [auto|]. rewrite C. constructor. Qed.
Lemma live_usual s : live s -> usual s. Proof. intros (A & B & C). split; [exact A|]. split; [congruence|exact C]. Qed.
Lemma live_tidy s : live s -> tidy s. Proof. intros H. apply usual_tidy, live_usual, H. Qed.
Lemma calm_live a b : calm a b -> live a -> live b.
Proof. intros (A & B & C & D) (X & Y & Z). unfold live. rewrite A, B, C. auto. Qed.
Lemma calm_usual a b : calm a b -> usual a -> usual b.
Proof. intros (A & B & C & D) (X & Y & Z). unfold usual. rewrite A, B, C. auto. Qed.
Definition keeps (s s' : tst) : Prop := live s' /\ src_pos s <= src_pos s'.
Lemma calm_keeps a b : live a -> calm a b -> keeps a b. Proof. intros V C. split; [eapply calm_live; eauto|apply calm_pos, C]. Qed.
Lemma keeps_trans a b c : keeps a b -> keeps b c -> keeps a c. Proof. intros (_ & A) (B & C). split; [exact B|lia]. Qed.
Lemma keeps_refl a : live a -> keeps a a. Proof. split; auto. Qed.
Lemma live_restore b s : live b -> live s -> live (restore b s). Proof. intros (A & B & C) (A' & B' & C'). unfold live, restore. cbn. auto. Qed.
Lemma live_pos p s : live s -> live (set_pos p s). Proof. auto. Qed.

(** a token was read, the last one, or none *)
Definition gets (s : tst) (t : tokspan) (s' : tst) : Prop := tidy s' /\ noend t /\ laid (src_pos s) (src_pos s') (t :: queue s').
Definition finished (s : tst) : Prop := usual s /\ src_pos s = L /\ (lmode s = LDone \/ lmode s = LInScripting).
Definition fins (t : tokspan) (s' : tst) : Prop := fst t = Kw KEnd /\ finished s'.
Definition res (s : tst) (t : tokspan) (s' : tst) : Prop := gets s t s' \/ fins t s'.
Definition takes (m : T tokspan) (s : tst) : Prop := hx m s (res s) (fun _ s' => calm s s').
Lemma gets_from a b t s' : src_pos a <= src_pos b -> gets b t s' -> gets a t s'.
Proof. intros P (A & B & C). split; [exact A|]. split; [exact B|]. eapply laid_weak; eauto. Qed.
Lemma res_from a b t s' : src_pos a <= src_pos b -> res b t s' -> res a t s'.
Proof. intros P [H|H]; [left; eapply gets_from; eauto|right; exact H]. Qed.
Lemma gets_usual s t sp s' : usual s' -> token_at t (sp_start sp) (sp_end sp) -> t <> Kw KEnd ->
  src_pos s <= sp_start sp -> sp_start sp <= sp_end sp -> sp_end sp <= src_pos s' -> gets s (t, sp) s'.
Proof.
  intros V T N A B D. split; [apply usual_tidy, V|]. split; [exact N|]. destruct V as (_ & _ & ->). apply laid_one; auto.
Qed.
Lemma gets_one s t sp s' : live s -> calm s s' -> token_at t (sp_start sp) (sp_end sp) -> t <> Kw KEnd ->
  src_pos s <= sp_start sp -> sp_start sp <= sp_end sp -> sp_end sp <= src_pos s' -> gets s (t, sp) s'.
Proof. intros V C. apply gets_usual, live_usual, (calm_live s); auto. Qed.
Lemma res_end s : live s -> spot s [] -> res s (end_token code) s.
Proof. intros V H. right. split; [reflexivity|]. split; [apply live_usual, V|]. destruct V as (_ & M & Q). apply spot_len in H. cbn in H. split; [lia|auto]. Qed.

Lemma digit_iff c : is_digit c = true <-> (48 <= c <= 57)%N.
Proof. unfold is_digit. rewrite andb_true_iff, !N.leb_le. tauto. Qed.
Lemma not_digit_no c : not_digit c = false -> (48 <= c <= 57)%N.
Proof. unfold not_digit. intros H. apply orb_false_iff in H as [A B]. apply N.ltb_ge in A, B. lia. Qed.
Lemma position_before f (s : str) e : position f s = Some e -> Forall (fun c => f c = false) (firstn e s).
Proof.
  revert e. induction s as [|c s IH]; intros e H; cbn in H; [discriminate|]. destruct (f c) eqn:F; [injection H as <-; constructor|].
  destruct (position f s) as [k|]; [|discriminate]. injection H as <-. constructor; auto.
Qed.
Lemma position_nowhere f (s : str) : position f s = None -> Forall (fun c => f c = false) s.
Proof.
  induction s as [|c s IH]; intros H; [constructor|]. cbn in H. destruct (f c) eqn:F; [discriminate|]. destruct (position f s); [discriminate|]. constructor; auto.
Qed.
Lemma pos_bound f (inp : str) e : position f inp = Some e -> e <= List.length inp.
Proof.
  revert e. induction inp as [|c inp IH]; intros e H; cbn in H; [discriminate|]. destruct (f c); [injection H as <-; lia|].
  destruct (position f inp) as [k|]; [|discriminate]. injection H as <-. specialize (IH _ eq_refl). cbn [List.length]. lia.
Qed.
Lemma firstn_Forall {A} (P : A -> Prop) n l : Forall P l -> Forall P (firstn n l).
Proof. intros H. revert n. induction H; intros [|n]; cbn; constructor; auto. Qed.
Lemma ascii_blen w : Forall (fun c => (c < 128)%N) w -> blen w = List.length w.
Proof. induction 1 as [|c w H _ IH]; [reflexivity|]. cbn. rewrite IH. unfold clen. apply N.ltb_lt in H. rewrite H. reflexivity. Qed.
Lemma decimals_blen w : decimals w -> blen w = List.length w.
Proof. intros H. apply ascii_blen. eapply Forall_impl; [|exact H]. cbv beta. intros c. lia. Qed.
Lemma digit_run e inp w r : inp = w ++ r -> w = firstn e (w ++ r) -> e = match position not_digit inp with Some x => x | None => blen inp end -> decimals w /\ (w = [] -> e = 0 \/ inp = []).
Proof.
  intros E W D. assert (X : decimals w).
  { rewrite W, <- E. rewrite D. destruct (position not_digit inp) as [k|] eqn:P.
    - eapply Forall_impl; [|apply position_before, P]. exact not_digit_no.
    - apply firstn_Forall. eapply Forall_impl; [|apply position_nowhere, P]. exact not_digit_no. }
  split; [exact X|]. intros ->. cbn [app] in W. subst inp. destruct r as [|c r]; [auto|]. left. destruct e; [reflexivity|discriminate].
Qed.

(** ** Numbers, variables, names *)
Lemma spot_adv s w r : spot s (w ++ r) -> spot (set_pos (src_pos s + blen w) s) r.
Proof. apply spot_next. Qed.
Lemma p_onum s : live s -> takes (onum_dnum_lnum code) s.
Proof.
  intros V. unfold takes, onum_dnum_lnum. apply hx_bind, hx_input. intros [|c0 r0] H; [apply hx_ret, res_end; auto|].
  set (inp := c0 :: r0) in *. cbv beta iota zeta. remember (match position not_digit inp with Some e => e | None => blen inp end) as e eqn:EE.
  apply hx_bind, hx_pos, hx_bind, hx_advc. intros w r H' W H2. pose proof (spot_fun _ _ _ _ H H') as X.
  destruct (digit_run e inp w r X W EE) as [DW WN]. pose proof (decimals_blen _ DW) as BW. pose proof (calm_adv s w r H') as C1. set (s1 := set_pos (src_pos s + blen w) s) in *.
  assert (LE : List.length w = e).
  { rewrite W, <- X, firstn_length, EE. destruct (position not_digit inp) as [k|] eqn:P; [apply pos_bound in P; lia|]. pose proof (position_nowhere _ _ P) as DN.
    rewrite decimals_blen by (eapply Forall_impl; [|exact DN]; exact not_digit_no). lia. }
  apply hx_bind, hx_input. intros inp2 H3. pose proof (spot_fun _ _ _ _ H2 H3) as <-.
  destruct (negb (starts_with_c 46 r)) eqn:D1.
  - destruct (negb (e =? 0)) eqn:D2.
    + apply negb_true_iff, Nat.eqb_neq in D2. apply hx_bind, hx_pos, hx_bind, hx_unwrap. intros z _. apply hx_ret. left. apply gets_one; auto; try discriminate; cbn [mk_span sp_start sp_end].
      * exists w. split; [intros ->; cbn in LE; lia|]. split; [exact DW|]. split; [apply (spot_stands s w r H')|]. subst s1. cbn. lia.
      * apply calm_pos, C1.
    + apply hx_bind, hx_putpos, hx_err. apply calm_put; auto.
  - apply negb_false_iff in D1. destruct (sw1_split _ _ D1) as (r1 & ->).
    apply hx_bind, hx_advc. intros d r2 H4 D H5. pose proof (spot_fun _ _ _ _ H4 H3) as Y. rewrite Y in D. cbn [firstn] in D. subst d. injection Y as ->.
    pose proof (calm_adv s1 [46%N] r1 H4) as C2. set (s2 := set_pos (src_pos s1 + blen [46%N]) s1) in *. pose proof (calm_trans _ _ _ C1 C2) as C3.
    assert (P2 : src_pos s2 = src_pos s + List.length w + 1) by (subst s2 s1; cbn; lia).
    apply hx_bind, hx_input. intros inp3 H6. pose proof (spot_fun _ _ _ _ H5 H6) as <-.
    assert (GO : forall s3 v q z, calm s2 s3 -> src_pos s3 = src_pos s2 + List.length v -> decimals v -> r1 = v ++ q -> res s (TDouble z, mk_span (src_pos s2) e) s3).
    { intros s3 v q z C4 P4 DV ->. left. pose proof (calm_trans _ _ _ C3 C4) as C5. pose proof (calm_live _ _ C5 V) as V5. split; [apply live_tidy, V5|]. split; [discriminate|].
      destruct V5 as (_ & _ & ->). rewrite P2, <- LE. apply (laid_double _ _ _ w v z (src_pos s)); auto.
      - rewrite X in H. apply (spot_stands s _ q). change (s2l ".") with [46%N]. rewrite <- !app_assoc. exact H.
      - constructor. lia. }
    destruct (position not_digit r1) as [[|k]|] eqn:P.
    + destruct (blen (w ++ [46%N]) =? 1).
      * apply hx_bind, hx_putpos, hx_err. apply calm_put; auto.
      * apply hx_bind, hx_pos, hx_bind, hx_unwrap. intros z _. apply hx_ret. apply (GO s2 [] r1); [apply calm_refl|cbn; lia|constructor|reflexivity].
    + apply hx_bind, hx_pos, hx_bind, hx_advc. intros v q H7 W7 _. apply hx_bind, hx_unwrap. intros z _. apply hx_ret. pose proof (spot_fun _ _ _ _ H5 H7) as Z.
      assert (DV : decimals v) by (rewrite W7, <- Z; eapply Forall_impl; [|apply position_before, P]; exact not_digit_no).
      apply (GO _ v q); [apply calm_adv with (r := q); exact H7|cbn [src_pos set_pos]; rewrite (decimals_blen _ DV); reflexivity|exact DV|exact Z].
    + apply hx_bind, hx_pos, hx_bind, hx_advc. intros v q H7 W7 _. apply hx_bind, hx_unwrap. intros z _. apply hx_ret. pose proof (spot_fun _ _ _ _ H5 H7) as Z.
      assert (DV : decimals v) by (rewrite W7, <- Z; apply firstn_Forall; eapply Forall_impl; [|apply position_nowhere, P]; exact not_digit_no).
      apply (GO _ v q); [apply calm_adv with (r := q); exact H7|cbn [src_pos set_pos]; rewrite (decimals_blen _ DV); reflexivity|exact DV|exact Z].
Qed.

Lemma p_prefixed p ok radix s : In p ["0x"; "0b"]%string -> (forall c, ok c = true -> (c < 128)%N) -> live s -> takes (prefixed_num code (s2l p) ok radix) s.
Proof.
  intros IP OK V. unfold takes, prefixed_num. apply hx_bind, hx_input. intros inp H. destruct ((blen inp <? 3) || negb (starts_with (s2l p) inp))%bool eqn:B0; [apply hx_err, calm_refl|].
  apply orb_false_iff in B0 as [_ B0]. apply negb_false_iff in B0. destruct (sw_split _ _ B0) as (r0 & ->).
  assert (BP : blen (s2l p) = 2) by (destruct IP as [<-|[<-|[]]]; reflexivity).
  apply hx_bind, hx_advb. intros w r H' B H2. pose proof (spot_fun _ _ _ _ H H') as X. assert (E : w = s2l p /\ r = r0).
  { destruct (split_at _ _ _ _ X) as [-> ->]; [lia|auto]. }
  destruct E as [-> ->]. pose proof (calm_adv s (s2l p) r0 H') as C1. set (s1 := set_pos (src_pos s + blen (s2l p)) s) in *.
  apply hx_bind, hx_input. intros inp2 H3. pose proof (spot_fun _ _ _ _ H2 H3) as <-.
  assert (G : forall n, n <> 0 -> n <= List.length r0 -> Forall (fun c => negb (ok c) = false) (firstn n r0) ->
    hx (p <- input_pos;; q <- tsub p 2;; r0 <- advance_chars code n;; z <- unwrap (i64_from_str_radix radix r0);; tret (TInt z, mk_span q n)) s1 (res s) (fun _ s' => calm s s')).
  { intros n N0 N1 F. apply hx_bind, hx_pos, hx_bind, hx_sub. intros _. apply hx_bind, hx_advc. intros v q H7 W7 _. apply hx_bind, hx_unwrap. intros z _. apply hx_ret.
    pose proof (spot_fun _ _ _ _ H3 H7) as Z. rewrite <- Z in W7. assert (LV : List.length v = n) by (rewrite W7, firstn_length; lia).
    assert (BV : blen v = List.length v). { rewrite W7. apply ascii_blen. eapply Forall_impl; [|exact F]. cbv beta. intros c C. apply OK. apply negb_false_iff, C. }
    pose proof (calm_adv s1 v q H7) as C2. pose proof (calm_trans _ _ _ C1 C2) as C3. pose proof (calm_live _ _ C3 V) as V3. left. split; [apply live_tidy, V3|]. split; [discriminate|]. destruct V3 as (_ & _ & ->).
    replace (src_pos s1 - 2) with (src_pos s) by (subst s1; cbn [src_pos set_pos]; lia). rewrite <- LV. apply (laid_radix _ _ _ p v z (src_pos s)); auto.
    - intros ->. cbn in LV. lia.
    - apply (spot_stands s _ q). rewrite <- app_assoc, <- Z. exact H.
    - constructor. subst s1. cbn [src_pos set_pos]. lia. }
  destruct (position (fun c => negb (ok c)) r0) as [[|k]|] eqn:P.
  - apply hx_err. exact C1.
  - apply G; [discriminate|apply (pos_bound _ _ _ P)|apply (position_before _ _ _ P)].
  - destruct r0 as [|c r0].
    + cbn [List.length]. apply hx_bind, hx_pos, hx_bind, hx_sub. intros _. apply hx_bind, hx_advc. intros v q H7 W7 _. cbn [firstn] in W7. subst v. cbn [i64_from_str_radix]. apply hx_bind, hx_unwrap. intros z Z. exfalso. clear - Z. unfold i64_from_str_radix, from_str_radix in Z. discriminate Z.
    + apply G; [discriminate|auto|]. apply firstn_Forall, position_nowhere, P.
Qed.

Lemma p_label s : hx (label code) s
  (fun r s' => match r with None => s' = s | Some (w, sp) => s' = set_pos (src_pos s + blen w) s /\ w <> [] /\ stands (src_pos s) w /\ sp = mk_span (src_pos s) (src_pos s + List.length w) end) (fun _ _ => False).
Proof.
  unfold label. apply hx_bind, hx_input. intros [|c r0] H; [reflexivity|]. destruct (is_digit c); [reflexivity|].
  set (inp := c :: r0) in *. set (o := position (fun x => negb (is_label_char x)) inp).
  assert (G : forall e, e <> 0 -> e <= List.length inp -> hx (old_pos <- input_pos ;; r <- advance_chars code e ;; tret (Some (r, mk_span old_pos (old_pos + e)))) s
     (fun r s' => match r with None => s' = s | Some (w, sp) => s' = set_pos (src_pos s + blen w) s /\ w <> [] /\ stands (src_pos s) w /\ sp = mk_span (src_pos s) (src_pos s + List.length w) end) (fun _ _ => False)).
  { intros e E1 E2. apply hx_bind, hx_pos, hx_bind, hx_advc. intros w r H' W _. apply hx_ret. pose proof (spot_fun _ _ _ _ H H') as X. rewrite <- X in W.
    assert (WL : List.length w = e) by (rewrite W, firstn_length; lia).
    split; [reflexivity|]. split; [intros ->; cbn in WL; lia|]. split; [apply (spot_stands s w r H')|]. rewrite WL. reflexivity. }
  assert (LN : List.length inp <> 0) by (unfold inp; discriminate).
  destruct o as [[|e]|] eqn:O; [reflexivity|apply G; [lia|apply (pos_bound _ _ _ O)]|apply G; [exact LN|lia]].
Qed.
Lemma p_variable s : live s -> takes (match_variable code) s.
Proof.
  intros V. unfold takes, match_variable. apply hx_bind, hx_input. intros inp H. destruct ((blen inp <? 2) || negb (starts_with_c 36 inp))%bool eqn:B0; [apply hx_err, calm_refl|].
  apply orb_false_iff in B0 as [_ B0]. apply negb_false_iff in B0. destruct (sw1_split _ _ B0) as (r0 & ->).
  apply hx_bind, hx_pos, hx_bind, hx_advb. intros w r H' B H2. pose proof (spot_next _ s [36%N] r0 H) as H3. change (blen [36%N]) with 1 in H3. rewrite B in *.
  eapply hx_use; [apply p_label| |intros ? ? []]. intros [[name sp]|] s2.
  - intros (-> & N & ST & ->). apply hx_ret. left. cbn [src_pos set_pos] in *. apply gets_one; auto; try discriminate; cbn [set_start mk_span sp_start sp_end src_pos set_pos].
    + eapply calm_trans; apply calm_move; cbn [src_pos set_pos]; lia.
    + split; [|lia]. apply stands_join; [apply (spot_stands s [36%N] r0), H|exact ST].
    + lia.
    + pose proof (len_le name). lia.
  - intros ->. apply hx_bind, hx_putpos, hx_err. apply calm_put; [apply calm_move|]; cbn [src_pos set_pos]; lia.
Qed.

Lemma p_adv p r s (Q : str -> tst -> Prop) E : spot s (p ++ r) -> (spot (set_pos (src_pos s + blen p) s) r -> Q p (set_pos (src_pos s + blen p) s)) -> hx (advance_bytes code (blen p)) s Q E.
Proof.
  intros H K. apply hx_advb. intros w q H' B H2. pose proof (spot_fun _ _ _ _ H H') as X. destruct (split_at _ _ _ _ X) as [-> ->]; [lia|]. apply K, H2.
Qed.
Lemma p_escape bs sq s : hx (str_escape code bs sq) s (fun bs' s' => calm s s' /\ List.length bs' + src_pos s <= List.length bs + src_pos s') (fun _ s' => s' = s).
Proof.
  unfold str_escape. apply hx_bind, hx_input. intros inp H. destruct (nth_error inp 1) as [c|] eqn:N.
  2:{ apply hx_bind, hx_pos, hx_err. reflexivity. }
  destruct inp as [|c0 [|c1 inp]]; try discriminate. injection N as ->. set (i0 := c0 :: c :: inp) in *.
  assert (G : forall n (x : bytes), List.length x <= List.length bs + 1 + clen c -> hx (advance_chars code (S (S n)) ;;; tret x) s (fun bs' s' => calm s s' /\ List.length bs' + src_pos s <= List.length bs + src_pos s') (fun _ s' => s' = s)).
  { intros n x Z. apply hx_bind, hx_advc. intros w r H' W _. pose proof (spot_fun _ _ _ _ H H') as X. rewrite <- X in W. subst i0. cbn [firstn] in W. apply hx_ret.
    assert (B : 1 + clen c <= blen w) by (rewrite W; cbn [blen]; pose proof (clen_pos c0); lia). split; [apply (calm_adv s w r H')|cbn [src_pos set_pos]; lia]. }
  pose proof (clen_pos c) as CP. cbv zeta. repeat match goal with
    | |- context [match nth_error i0 ?k with Some x => is_alnum x | None => false end] => destruct (match nth_error i0 k with Some x => is_alnum x | None => false end); cbn [Nat.eqb Nat.add]
    | |- hx (if ?b then _ else _) _ _ _ => destruct b
    | |- hx (match nth_error i0 ?k with Some _ => _ | None => _ end) _ _ _ => destruct (nth_error i0 k)
    | |- hx (tpanic _) _ _ _ => exact Logic.I
    | |- hx (advance_chars code 2 ;;; tret _) _ _ _ => apply G; rewrite app_length; cbn [List.length app]; rewrite ?SmallFacts.enc1_clen; lia
    end; apply hx_bind, hx_unwrap; intros b _; apply G; rewrite app_length; cbn [List.length]; lia.
Qed.
Lemma frag_text bs : (exists w, frag_token bs = TCes w) \/ (exists w, frag_token bs = TBin w).
Proof. unfold frag_token. destruct (from_utf8 bs); eauto. Qed.
Lemma frag_at bs a b : token_at (frag_token bs) a b.
Proof. destruct (frag_text bs) as [(w & ->)|(w & ->)]; exact Logic.I. Qed.
Lemma frag_noend bs : frag_token bs <> Kw KEnd.
Proof. destruct (frag_text bs) as [(w & ->)|(w & ->)]; discriminate. Qed.
Lemma p_unterminated {A} g bak s msg (Q : A -> tst -> Prop) : live bak -> live s ->
  hx (old_pos <- input_pos ;; trestore bak ;;; p <- input_pos ;; terr (SEUnterminated msg (mk_span p (g old_pos)))) s Q (fun _ => keeps bak).
Proof. intros VB V. apply hx_bind, hx_pos, hx_bind, hx_restore, hx_bind, hx_pos, hx_err. split; [apply live_restore; auto|auto]. Qed.

Lemma p_sq n bak : live bak -> forall bs s, keeps bak s -> hx (sq_loop code n bak bs) s (fun _ s' => keeps bak s') (fun _ => keeps bak).
Proof.
  intros VB. induction n as [|n IH]; intros bs s K; cbn [sq_loop]; [exact Logic.I|].
  apply hx_bind, hx_input. intros inp H. cbv zeta. apply hx_bind, hx_advc. intros w r H' _ H2. pose proof (keeps_trans _ _ _ K (calm_keeps _ _ (proj1 K) (calm_adv s w r H'))) as K1. set (s1 := set_pos (src_pos s + blen w) s) in *.
  apply hx_bind, hx_input. intros inp2 H3. destruct inp2 as [|c r2]; [apply (p_unterminated (fun x => x + 1)); [exact VB|apply K1]|].
  destruct (c =? 10)%N. { apply hx_bind, hx_advb. intros w2 r3 H4 B2 _. apply hx_bind, hx_line. apply IH. destruct K1. split; [auto|]. cbn [src_pos next_line_st set_pos]. lia. }
  destruct (c =? 92)%N. { eapply hx_use; [apply p_escape| |intros e s' ->; exact K1]. intros bs' s2 (C & _). apply IH. eapply keeps_trans; [exact K1|apply calm_keeps; [apply K1|exact C]]. }
  destruct (c =? 39)%N; [|apply (p_unterminated (fun x => x + 1)); [exact VB|apply K1]].
  apply hx_bind, hx_advb. intros w2 r3 H4 B2 _. apply hx_ret. eapply keeps_trans; [exact K1|apply calm_keeps; [apply K1|apply (calm_adv s1 w2 r3 H4)]].
Qed.
Lemma p_open (b1 b2 : bool) k1 k2 s : 
  hx (if b1 then advance_bytes code k1 ;;; tret true else if b2 then advance_bytes code k2 ;;; tret true else tret false) s
     (fun b s' => if (b : bool) then calm s s' /\ (b1 = true /\ src_pos s' = src_pos s + k1 \/ b1 = false /\ b2 = true /\ src_pos s' = src_pos s + k2) else s' = s) (fun _ _ => False).
Proof.
  destruct b1; [|destruct b2]; [| |apply hx_ret; reflexivity]; apply hx_bind, hx_advb; intros w r H' B _; apply hx_ret; (split; [apply (calm_adv s w r H')|]); cbn [src_pos set_pos]; rewrite B; auto.
Qed.
Lemma p_sq_string lf s : live s -> hx (match_sq_string code lf) s (res s) (fun _ => keeps s).
Proof.
  intros V. pose proof (keeps_refl _ V) as K. unfold match_sq_string. apply hx_bind, hx_input. intros inp H. destruct (blen inp <? 2); [exact K|].
  apply hx_bind, hx_get. eapply hx_use; [apply p_open| |intros ? ? []]. intros [|] s1; [|intros ->; exact K]. intros (C1 & P1). pose proof (calm_keeps _ _ V C1) as K1.
  eapply hx_use; [apply p_sq; [exact V|exact K1]| |intros e s' X; exact X]. intros bs s2 K2. apply hx_bind, hx_pos, hx_ret. left. apply gets_usual; cbn [mk_span sp_start sp_end]; auto; try apply K2; [apply live_usual, K2|apply frag_at|apply frag_noend].
Qed.

Lemma p_comments s : live s -> hx (match_comments code) s (res s) (fun _ => keeps s).
Proof.
  intros V. pose proof (keeps_refl _ V) as K. unfold match_comments. apply hx_bind, hx_input. intros inp H. apply hx_bind, hx_pos. cbv zeta.
  assert (FIN : forall s1 o w c doc, In (o, c) comment_marks -> stands (src_pos s) (s2l o ++ w ++ s2l c) -> calm s s1 -> src_pos s1 = src_pos s + blen (s2l o ++ w ++ s2l c) ->
    hx ((fun s => TOk tt (next_lines (lines_count w - 1) s)) ;;; p <- input_pos ;; (let sp := mk_span (src_pos s) p in tret (TComment w, if (doc : bool) then set_doc (Some []) sp else sp))) s1 (res s) (fun _ => keeps s)).
  { intros s1 o w c doc I ST C1 P1. pose proof (calm_lines (lines_count w - 1) s1) as C2. apply hx_bind. unfold LexInv.hx at 1. apply hx_bind, hx_pos. cbv zeta. apply hx_ret.
    assert (P2 : src_pos (next_lines (lines_count w - 1) s1) = src_pos s1) by (clear; generalize (lines_count w - 1); intros n; revert s1; induction n as [|n IH]; intros s1; cbn [next_lines]; [reflexivity|rewrite IH; reflexivity]).
    left. apply gets_one; auto; try discriminate; try (destruct doc; cbn [set_doc mk_span sp_start sp_end]; lia). { eapply calm_trans; eauto. }
    exists o, c. split; [exact I|]. replace (sp_start _) with (src_pos s) by (destruct doc; reflexivity). split; [exact ST|]. destruct doc; cbn [set_doc mk_span sp_end]; lia. }
  assert (ONE : forall o r0, inp = s2l o ++ r0 -> In (o, ""%string) comment_marks ->
    hx (advance_bytes code (blen (s2l o)) ;;; inp2 <- input code ;; (r <- advance_chars code (match position (fun x => x =? 10)%N inp2 with Some e => e | None => blen inp2 end) ;;
      (fun s => TOk tt (next_lines (lines_count r - 1) s)) ;;; p <- input_pos ;; (let sp := mk_span (src_pos s) p in tret (TComment r, sp)))) s (res s) (fun _ => keeps s)).
  { intros o r0 -> I. apply hx_bind, (p_adv _ r0); [exact H|]. intros H2. apply hx_bind, hx_input. intros inp2 H3. apply hx_bind, hx_advc. intros w r H4 _ _. pose proof (spot_fun _ _ _ _ H2 H4) as ->.
    apply (FIN _ o w ""%string false I).
    - apply (spot_stands s _ r). change (s2l "") with (@nil N). rewrite app_nil_r, <- app_assoc. exact H.
    - eapply calm_trans; apply calm_move; cbn [src_pos set_pos]; lia.
    - change (s2l "") with (@nil N). rewrite app_nil_r, blen_app. cbn [src_pos set_pos]. lia. }
  assert (TWO : forall o r0 doc, inp = s2l o ++ r0 -> In (o, "*/"%string) comment_marks ->
    hx (advance_bytes code (blen (s2l o)) ;;; inp2 <- input code ;; match find_sub (s2l "*/") inp2 with None => p <- input_pos ;; terr (SEUnterminated (s2l "comment") (mk_span p p)) | Some e => r <- advance_bytes code e ;; advance_bytes code 2 ;;; (fun s => TOk tt (next_lines (lines_count r - 1) s)) ;;; p <- input_pos ;; (let sp := mk_span (src_pos s) p in tret (TComment r, if (doc : bool) then set_doc (Some []) sp else sp)) end) s (res s) (fun _ => keeps s)).
  { intros o r0 doc -> I. apply hx_bind, (p_adv _ r0); [exact H|]. intros H2. apply hx_bind, hx_input. intros inp2 H3. pose proof (spot_fun _ _ _ _ H2 H3) as <-. destruct (find_sub (s2l "*/") r0) as [e|] eqn:E.
    - destruct (find_sub_some _ _ _ E) as (w & r & -> & <-). apply hx_bind, (p_adv _ (s2l "*/" ++ r)); [exact H2|]. intros H4. change 2 with (blen (s2l "*/")). apply hx_bind, (p_adv _ r); [exact H4|]. intros H5.
      apply (FIN _ o w "*/"%string doc I).
      + apply (spot_stands s _ r). rewrite <- !app_assoc. exact H.
      + eapply calm_trans; [apply calm_move|eapply calm_trans; apply calm_move]; cbn [src_pos set_pos]; lia.
      + rewrite !blen_app. cbn [src_pos set_pos]. lia.
    - apply hx_bind, hx_pos, hx_err. apply calm_keeps; [exact V|]. apply calm_move. lia. }
  destruct (starts_with_c 35 inp) eqn:E1; [|destruct (starts_with (s2l "//") inp) eqn:E2].
  - destruct (sw1_split _ _ E1) as (r0 & ->). apply (ONE "#"%string r0); [reflexivity|cbn; auto].
  - destruct (sw_split _ _ E2) as (r0 & ->). apply (ONE "//"%string r0); [reflexivity|cbn; auto].
  - cbn [Nat.ltb Nat.leb]. destruct (starts_with (s2l "/**") inp) eqn:E3.
    + destruct (sw_split _ _ E3) as (r0 & ->). apply (TWO "/**"%string r0 true); [reflexivity|cbn; auto].
    + destruct (starts_with (s2l "/*") inp) eqn:E4; cbn [Nat.ltb Nat.leb]; [|exact K].
      destruct (sw_split _ _ E4) as (r0 & ->). apply (TWO "/*"%string r0 false); [reflexivity|cbn; auto].
Qed.

(** ** Keywords, operators and tags *)
Definition word_ok (k : kind) (t : str) (n : nat) : bool :=
  match k with
  | KEnd | KYield | KYieldFrom | KCastInt | KCastDouble | KCastString | KCastArray | KCastObject | KCastBool | KCastUnset
  | KDoubleQuote | KBackquote | KHereDocStart | KHereDocEnd | KDollarCurlyBracesOpen => false
  | KObjectOp => str_eqb t (s2l "->") && (n =? 2)
  | _ => existsb (fun e => kind_eqb (snd e) k && str_eqb (s2l (fst e)) t && (String.length (fst e) =? n)) (keywords ++ operators ++ tags)
  end.
Lemma word_at k t n p : word_ok k t n = true -> stands p t -> token_at (Kw k) p (p + n) /\ k <> KEnd.
Proof.
  intros W ST. assert (G : existsb (fun e => kind_eqb (snd e) k && str_eqb (s2l (fst e)) t && (String.length (fst e) =? n)) (keywords ++ operators ++ tags) = true ->
    exists w, In (w, k) (keywords ++ operators ++ tags) /\ stands p (s2l w) /\ p + n = p + String.length w).
  { intros X. apply existsb_exists in X as ([w k'] & I & X). apply andb_true_iff in X as [X X3]. apply andb_true_iff in X as [X1 X2]. cbn [fst snd] in *.
    apply kind_eqb_eq in X1. apply str_eqb_eq in X2. apply Nat.eqb_eq in X3. subst k' t n. exists w. auto. }
  destruct k; try (split; [exact (G W)|discriminate]); try discriminate W.
  split; [|discriminate]. cbn [word_ok] in W. apply andb_true_iff in W as [W1 W2]. apply str_eqb_eq in W1. apply Nat.eqb_eq in W2. subst. split; [exact ST|auto].
Qed.
Definition act_ok (a : tact) : bool := match a with ASet LEmitQueue | APush LEmitQueue => false | _ => true end.
Lemma p_act a s s' : act_ok a = true -> usual s -> do_act a s = TOk tt s' -> usual s' /\ src_pos s' = src_pos s.
Proof.
  intros O (A & B & C) H. destruct a as [|m|m|]; cbn in H.
  - injection H as <-. repeat split; auto.
  - injection H as <-. repeat split; auto. destruct m; try discriminate O; discriminate.
  - injection H as <-. repeat split; auto; [intros [X|X]; [congruence|auto]|]. destruct m; try discriminate O; discriminate.
  - unfold pop_state in H. destruct (lstack s) as [|m st] eqn:E; [discriminate|]. injection H as <-. repeat split; auto; cbn; [intros X; apply A; right; exact X|intros ->; apply A; left; reflexivity].
Qed.
Lemma p_alias alias k a s :
  hx (match_token_alias code alias k a) s
     (fun t s' => stands (src_pos s) (to_lower alias) /\ t = (Kw k, mk_span (src_pos s) (src_pos s + blen alias)) /\ do_act a (set_pos (src_pos s + blen alias) s) = TOk tt s')
     (fun e s' => e = SENone /\ s' = s /\ forall inp, spot s inp -> starts_with_ci inp alias = false).
Proof.
  unfold match_token_alias. apply hx_bind, hx_input. intros inp H. destruct (starts_with_ci inp alias) eqn:SW.
  2:{ split; [reflexivity|]. split; [reflexivity|]. intros inp' H'. rewrite <- (spot_fun _ _ _ _ H H'). exact SW. }
  unfold starts_with_ci in SW. apply str_eqb_eq in SW. apply hx_bind, hx_pos, hx_bind, hx_advb. intros w r H' B _. rewrite B.
  apply hx_bind, hx_pos, hx_bind. unfold LexInv.hx. destruct (do_act a (set_pos (src_pos s + blen alias) s)) as [u s'|e s'|p|] eqn:D; [|destruct a; try discriminate D|exact Logic.I|].
  - destruct u. split; [|split; [reflexivity|reflexivity]]. apply (spot_stands s _ (skipn (blen alias) inp)). rewrite <- SW, firstn_skipn. exact H.
  - unfold do_act, pop_state in D. destruct (lstack _); discriminate.
  - destruct a; try discriminate D. unfold do_act, pop_state in D. destruct (lstack _); discriminate.
Qed.
(** a token at [p]; what stands there is not the end *)
Definition took (p : nat) (t : tokspan) (s' : tst) : Prop :=
  usual s' /\ noend t /\ sp_start (snd t) = p /\ p <= sp_end (snd t) /\ sp_end (snd t) <= src_pos s' /\ token_at (fst t) p (sp_end (snd t)).
Definition slot (p : nat) (s : tst) : Prop := live s /\ src_pos s = p /\ exists c r, spot s (c :: r).
Definition tries (p : nat) (m : T tokspan) : Prop := forall s, slot p s -> hx m s (took p) (fun e s' => e = SENone /\ slot p s').
Definition stop (p : nat) (e : syntax_error) (s' : tst) : Prop := live s' /\ exists sp, err_span e = Some sp /\ p <= sp_end sp.
Definition finals (p : nat) (m : T tokspan) : Prop := forall s, slot p s -> hx m s (took p) (stop p).
Lemma t_chain p m k : tries p m -> finals p k -> finals p (ret_token m k).
Proof.
  intros M K s S. apply hx_ret_token. eapply hx_mono; [apply M, S|auto|]. intros e s' (-> & S'). split; [intros _; apply K, S'|congruence].
Qed.
Definition entry_ok (e : entry) : bool := word_ok (snd (fst e)) (to_lower (s2l (fst (fst e)))) (blen (s2l (fst (fst e)))) && act_ok (snd e).
Lemma took_alias alias k a s t s' : usual s -> word_ok k (to_lower alias) (blen alias) = true -> act_ok a = true ->
  stands (src_pos s) (to_lower alias) /\ t = (Kw k, mk_span (src_pos s) (src_pos s + blen alias)) /\ do_act a (set_pos (src_pos s + blen alias) s) = TOk tt s' -> took (src_pos s) t s'.
Proof.
  intros U W O (ST & -> & D). destruct (word_at _ _ _ _ W ST) as [T N]. destruct (p_act _ _ _ O (calm_usual _ _ (calm_move s (src_pos s + blen alias) (Nat.le_add_r _ _)) U) D) as [U' P'].
  split; [exact U'|]. split; [intros X; injection X as ->; auto|]. cbn [fst snd mk_span sp_start sp_end]. rewrite P'. cbn [src_pos set_pos]. repeat split; auto. lia.
Qed.
Lemma t_alias p alias k a : word_ok k (to_lower alias) (blen alias) = true -> act_ok a = true -> tries p (match_token_alias code alias k a).
Proof.
  intros W O s (V & <- & S). eapply hx_mono; [apply p_alias| |].
  - intros t s' H. eapply took_alias; eauto. apply live_usual, V.
  - intros e s' (-> & -> & _). split; [reflexivity|]. split; auto.
Qed.
Lemma t_entries p l k : forallb entry_ok l = true -> finals p k -> finals p (try_entries code l k).
Proof.
  intros O K. induction l as [|[[r kd] a] l IH]; [exact K|]. cbn [forallb] in O. apply andb_true_iff in O as [O1 O2]. unfold entry_ok in O1. cbn [fst snd] in O1. apply andb_true_iff in O1 as [O1 O3].
  cbn [try_entries]. apply t_chain; [apply t_alias; auto|apply IH, O2].
Qed.
Lemma ws_calm inp : forall s, calm s (whitespace_loop inp s).
Proof.
  induction inp as [|c inp IH]; intros s; cbn [whitespace_loop]; [apply calm_refl|].
  destruct ((c =? 32) || (c =? 9) || (c =? 13))%N; [eapply calm_trans; [|apply IH]; apply calm_move; lia|]. destruct (c =? 10)%N; [|apply calm_refl].
  eapply calm_trans; [|apply IH]. eapply calm_trans; [|apply calm_line]. apply calm_move. lia.
Qed.
Lemma p_whitespace s : hx (whitespace code) s (fun _ s' => calm s s') (fun _ _ => False).
Proof. unfold whitespace. apply hx_bind, hx_input. intros inp H. apply ws_calm. Qed.
Lemma wso_calm inp : forall s, calm s (whitespace_only_loop inp s).
Proof.
  induction inp as [|c inp IH]; intros s; cbn [whitespace_only_loop]; [apply calm_refl|].
  destruct ((c =? 32) || (c =? 9))%N; [eapply calm_trans; [|apply IH]; apply calm_move; lia|apply calm_refl].
Qed.
Lemma p_ws_only s : hx (whitespace_only code) s (fun _ s' => calm s s') (fun _ _ => False).
Proof. unfold whitespace_only. apply hx_bind, hx_input. intros inp H. apply wso_calm. Qed.
Lemma ci_stands w inp s : to_lower (s2l w) = s2l w -> spot s inp -> starts_with_ci inp (s2l w) = true -> stands (src_pos s) (s2l w).
Proof.
  intros LW H SW. unfold starts_with_ci in SW. apply str_eqb_eq in SW. rewrite LW in SW. apply (spot_stands s _ (skipn (blen (s2l w)) inp)). rewrite <- SW at 1. rewrite firstn_skipn. exact H.
Qed.
Lemma t_yield p : tries p (match_yield code).
Proof.
  intros s (V & <- & S). unfold match_yield. apply hx_bind, hx_input. intros inp H. destruct (starts_with_ci inp (s2l "yield")) eqn:SW; [|split; [reflexivity|split; auto]].
  pose proof (ci_stands "yield" inp s eq_refl H SW) as ST. apply hx_bind, hx_pos, hx_bind, hx_advb. intros w r H' B _. rewrite B. eapply hx_use; [apply p_whitespace| |intros ? ? []]. intros [] s2 C2. apply hx_bind, hx_input. intros inp2 H2.
  pose proof (calm_pos _ _ C2) as P2. cbn [src_pos set_pos] in P2. assert (C3 : calm s s2) by (eapply calm_trans; [apply calm_move|exact C2]; lia).
  assert (G : forall k s3, (k = KYield \/ k = KYieldFrom) -> calm s2 s3 -> took (src_pos s) (Kw k, mk_span (src_pos s) (src_pos s3)) s3).
  { intros k s3 KK C4. pose proof (calm_pos _ _ C4). split; [apply live_usual, (calm_live s); [eapply calm_trans; eauto|exact V]|]. cbn [fst snd mk_span sp_start sp_end].
    split; [destruct KK as [-> | ->]; discriminate|]. split; [reflexivity|]. split; [lia|]. split; [lia|]. destruct KK as [-> | ->]; (split; [exact ST|lia]). }
  destruct (starts_with_ci inp2 (s2l "from")).
  - apply hx_bind, hx_advb. intros w' r' H3 B' _. apply hx_bind, hx_pos, hx_ret. apply G; [auto|apply (calm_adv s2 w' r' H3)].
  - apply hx_bind, hx_pos, hx_ret. apply G; [auto|apply calm_refl].
Qed.
Definition casts : list kind := [KCastInt; KCastDouble; KCastString; KCastArray; KCastObject; KCastBool; KCastUnset].
Lemma p_casts l s : forallb (fun e => match snd e with ANone => existsb (kind_eqb (snd (fst e))) casts | _ => false end) l = true ->
  hx (try_entries code l (terr SENone)) s (fun t s' => calm s s' /\ exists k, fst t = Kw k /\ In k casts) (fun e s' => s' = s).
Proof.
  induction l as [|[[r kd] a] l IH]; intros O; [reflexivity|]. cbn [forallb fst snd] in O. apply andb_true_iff in O as [O1 O2]. cbn [try_entries]. destruct a; try discriminate O1. apply hx_none; [|apply IH, O2].
  eapply hx_mono; [apply p_alias| |].
  - intros t s' (_ & -> & D). injection D as <-. split; [apply calm_move; lia|]. exists kd. split; [reflexivity|]. apply existsb_exists in O1 as (k' & I & E). apply kind_eqb_eq in E. subst. exact I.
  - intros e s' (-> & -> & _). auto.
Qed.
Lemma slot_back p s s' : slot p s -> calm s s' -> slot p (set_pos p s').
Proof.
  intros (V & P & c & r & H) C. split; [apply live_pos, (calm_live s); auto|]. split; [reflexivity|]. exists c, r. unfold LexInv.spot in *. cbn [src_pos set_pos]. rewrite <- P. exact H.
Qed.
Lemma t_cast p : tries p (match_cast code).
Proof.
  intros s SS. pose proof SS as (V & P & c & r0 & HH). subst p. unfold match_cast. apply hx_bind, hx_input. intros inp H. destruct (starts_with_c 40 inp) eqn:SW; [|split; [reflexivity|exact SS]].
  destruct (sw1_split _ _ SW) as (r1 & ->). pose proof (spot_stands s [40%N] r1 H) as ST.
  apply hx_bind, hx_pos, hx_bind, hx_advb. intros w r H' B _. eapply hx_use; [apply p_ws_only| |intros ? ? []]. intros [] s2 C2. assert (C3 : calm s s2) by (eapply calm_trans; [apply (calm_adv s w r H')|exact C2]).
  pose proof (calm_pos _ _ C2) as P2. cbn [src_pos set_pos] in P2.
  unfold LexInv.hx. pose proof (p_casts cast_table s2 eq_refl) as G. unfold LexInv.hx in G. destruct (try_entries code cast_table (terr SENone) s2) as [t s3|e s3|pp|]; auto.
  - destruct G as (C4 & k & TK & IK). change (hx (whitespace_only code;;; inp0 <- input code;; (if starts_with_c 41 inp0 then advance_bytes code 1;;; p0 <- input_pos;; tret (fst t, mk_span (src_pos s) p0) else put_pos (src_pos s);;; terr SENone)) s3 (took (src_pos s)) (fun e s' => e = SENone /\ slot (src_pos s) s')).
    eapply hx_use; [apply p_ws_only| |intros ? ? []]. intros [] s4 C5. apply hx_bind, hx_input. intros inp2 H2. pose proof (calm_trans _ _ _ C3 (calm_trans _ _ _ C4 C5)) as C6. destruct (starts_with_c 41 inp2) eqn:SW2.
    + destruct (sw1_split _ _ SW2) as (r2 & ->). change 1 with (blen [41%N]). apply hx_bind, (p_adv [41%N] r2); [exact H2|]. intros H3. apply hx_bind, hx_pos, hx_ret. pose proof (calm_pos _ _ C4). pose proof (calm_pos _ _ C5). rewrite TK. cbn [src_pos set_pos].
      split; [apply live_usual, live_pos, (calm_live s); auto|]. cbn [fst snd mk_span sp_start sp_end]. split; [intros X; cbn [fst] in X; injection X as ->; cbn in IK; intuition discriminate|]. split; [reflexivity|]. cbn [blen]. change (clen 41) with 1. split; [lia|]. split; [cbn [src_pos set_pos]; lia|].
      assert (Z : stands (src_pos s) (s2l "(") /\ exists m, src_pos s < m /\ stands m (s2l ")") /\ src_pos s4 + (1 + 0) = m + 1).
      { split; [exact ST|]. exists (src_pos s4). split; [lia|]. split; [apply (spot_stands s4 [41%N] r2), H2|lia]. }
      cbn [In casts] in IK. destruct IK as [<-|[<-|[<-|[<-|[<-|[<-|[<-|[]]]]]]]]; exact Z.
    + apply hx_bind, hx_putpos, hx_err. split; [reflexivity|]. apply (slot_back (src_pos s) s); auto.
  - subst s3. apply hx_bind, hx_putpos, hx_err. split; [reflexivity|]. apply (slot_back (src_pos s) s); auto.
Qed.
Lemma simple_word c k : simple_token c = Some k -> word_ok k [c] 1 = true.
Proof.
  unfold simple_token. intros S. repeat (match type of S with context [(c =? ?k)%N] => destruct (N.eqb_spec c k) as [->|_] end; [injection S as <-; vm_compute; reflexivity|]). discriminate S.
Qed.
Lemma f_other p : finals p (in_scripting_other_token code).
Proof.
  unfold in_scripting_other_token. apply t_entries; [vm_compute; reflexivity|]. apply t_chain; [apply t_yield|]. apply t_entries; [vm_compute; reflexivity|]. apply t_chain; [apply t_cast|]. apply t_entries; [vm_compute; reflexivity|].
  apply t_chain.
  { intros s S. unfold match_close_brace. apply hx_bind. eapply hx_mono; [apply (t_alias p (s2l "}") KCurlyBracesClose APop eq_refl eq_refl s S)| |auto]. intros t s' T. apply hx_ret. exact T. }
  apply t_entries; [vm_compute; reflexivity|]. apply t_chain.
  - intros s SS. pose proof SS as (V & P & c & r & H). unfold m_token. apply hx_bind, hx_input. intros inp H'. rewrite <- (spot_fun _ _ _ _ H H'). destruct (simple_token c) as [k|] eqn:S; [|split; [reflexivity|exact SS]].
    apply hx_bind, hx_advc. intros w q H2 W _. pose proof (spot_fun _ _ _ _ H H2) as X. rewrite <- X in W. cbn [firstn] in W. subst w. pose proof (simple_one _ _ S) as C1.
    apply hx_bind, hx_pos, hx_bind, hx_sub. intros _. apply hx_ret. destruct (word_at _ _ _ p (simple_word _ _ S)) as [T N]; [rewrite <- P; apply (spot_stands s [c] q H2)|].
    split; [apply live_usual, live_pos, V|]. cbn [fst snd mk_span sp_start sp_end src_pos set_pos blen]. rewrite C1, P. split; [intros Z; injection Z as ->; auto|]. replace (p + (1 + 0) - 1) with p by lia. replace (p + (1 + 0)) with (p + 1) by lia. repeat split; auto; lia.
  - intros s (V & P & _). unfold unknown_character. apply hx_bind, hx_pos, hx_err. split; [exact V|]. eexists. split; [reflexivity|]. cbn [mk_span sp_end]. lia.
Qed.
Lemma p_label_or_other s : slot (src_pos s) s -> hx (label_or_other code (src_pos s)) s (gets s) (fun _ => keeps s).
Proof.
  intros S. unfold label_or_other. eapply hx_use; [apply p_label| |intros ? ? []]. intros l s1 HL. apply hx_bind, hx_putpos.
  assert (C1 : calm s s1) by (destruct l as [[w sp]|]; [destruct HL as (-> & _); apply calm_move; lia|subst; apply calm_refl]).
  pose proof (f_other (src_pos s) _ (slot_back _ _ _ S C1)) as O. unfold LexInv.hx in *. destruct (in_scripting_other_token code (set_pos (src_pos s) s1)) as [t s'|e s'|p|]; auto.
  - destruct O as (U & N & A & B & D & T). assert (G : gets s t (set_pos (sp_end (snd t)) s')).
    { destruct t as [t sp]. cbn [fst snd] in *. apply gets_usual; auto; try lia; rewrite A; auto. }
    destruct l as [[name sp]|]; [|exact G]. destruct (sp_end sp <=? sp_end (snd t)); [exact G|]. destruct HL as (_ & _ & ST & ->). apply gets_usual; auto; try discriminate; cbn [mk_span sp_start sp_end src_pos set_pos]; try lia. split; [exact ST|reflexivity].
  - destruct O as (V' & sp0 & ES & PE). destruct l as [[name sp]|].
    + destruct HL as (_ & _ & ST & ->). apply gets_usual; auto; try discriminate; cbn [mk_span sp_start sp_end src_pos set_pos]; try lia; [apply live_usual, live_pos, V'|]. split; [exact ST|reflexivity].
    + rewrite ES. split; [apply live_pos, V'|exact PE].
Qed.

(** ** Strings with variables *)
Section Interp.
Variable nt : T tokspan.
Variable lf : nat.
Definition nt_ok : Prop := forall s, tidy s -> hx nt s
  (fun t s' => fins t s' \/ tidy s' /\ noend t /\ exists X, t :: queue s' = queue s ++ X /\ laid (src_pos s) (src_pos s') X)
  (fun _ s' => queue s = [] /\ usual s' /\ src_pos s <= src_pos s').
Definition nt_end : Prop := forall s, finished s -> hx nt s fins (fun _ s' => queue s' = []).
Hypothesis NT : nt_ok.
Hypothesis NE : nt_end.

Lemma p_flush a m bs parts start s : laid a m parts -> m + List.length bs <= start -> Forall noend parts ->
  hx (flush bs parts start) s (fun parts' s' => s' = s /\ laid a start parts' /\ Forall noend parts' /\ (bs = [] -> parts' = parts)) (fun _ _ => False).
Proof.
  intros A B N. unfold flush. destruct bs as [|b bs]; [apply hx_ret; split; [reflexivity|]; split; [eapply laid_weak; [exact A|auto|cbn in B; lia]|auto]|].
  apply hx_bind, hx_sub. intros LE. apply hx_ret. split; [reflexivity|]. split; [|split; [|discriminate]].
  - eapply laid_app; [exact A|]. apply laid_one; cbn [mk_span sp_start sp_end]; auto; try lia. apply frag_at.
  - apply Forall_app. split; [exact N|]. constructor; [|constructor]. apply frag_noend.
Qed.
Definition over (toks : list tokspan) : Prop := exists l sp, toks = l ++ [(Kw KEnd, sp)].
Lemma p_block n a : forall toks s, (tidy s /\ Forall noend toks /\ laid a (src_pos s) (toks ++ queue s)) \/ (finished s /\ over toks) ->
  hx (block_loop nt n toks) s (fun toks' s' => queue s' = [] /\ (Forall noend toks' /\ laid a (src_pos s') toks' \/ over toks')) (fun _ _ => False).
Proof.
  induction n as [|n IH]; intros toks s H; cbn [block_loop]; [exact Logic.I|]. unfold LexInv.hx. destruct H as [(TD & N & LD)|(F & O)].
  - pose proof (NT s TD) as G. unfold LexInv.hx in G. destruct (nt s) as [t s'|e s'|p|]; auto.
    + apply IH. destruct G as [(E & F)|(TD' & N' & X & EX & LX)].
      * right. split; [exact F|]. exists toks, (snd t). destruct t as [t sp]. cbn [fst snd] in *. subst t. reflexivity.
      * left. split; [exact TD'|]. split; [apply Forall_app; split; [exact N|constructor; [exact N'|constructor]]|]. rewrite <- app_assoc. cbn [app]. rewrite EX, app_assoc. eapply laid_app; eauto.
    + destruct G as (Q & U & P). destruct U as (_ & _ & Q'). split; [exact Q'|]. left. split; [exact N|]. rewrite Q, app_nil_r in LD. eapply laid_weak; eauto.
  - pose proof (NE s F) as G. unfold LexInv.hx in G. destruct (nt s) as [t s'|e s'|p|]; auto.
    apply IH. destruct G as (E & F'). right. split; [exact F'|]. exists toks, (snd t). destruct t as [t sp]. cbn [fst snd] in *. subst t. reflexivity.
Qed.

Definition J (a : nat) (s : tst) (bs : bytes) (parts : list tokspan) : Prop :=
  live s /\ Forall noend parts /\ exists m, laid a m parts /\ m + List.length bs <= src_pos s.
Lemma J_calm a s s' bs bs' parts : J a s bs parts -> calm s s' -> List.length bs' + src_pos s <= List.length bs + src_pos s' -> J a s' bs' parts.
Proof. intros (V & N & m & LD & B) C E. split; [eapply calm_live; eauto|]. split; [exact N|]. exists m. split; [exact LD|lia]. Qed.
Lemma J_le a s bs parts : J a s bs parts -> a <= src_pos s. Proof. intros (_ & _ & m & LD & B). apply laid_le in LD. lia. Qed.

Definition blocked (a : nat) (s : tst) (bs : bytes) (parts : list tokspan) (r : bytes * list tokspan) (s' : tst) : Prop :=
  snd r = parts /\ J a s' (fst r) parts \/
  fst r = [] /\ live s' /\ exists l toks, snd r = l ++ (Kw KCurlyBracesOpen, mk_span (src_pos s) (src_pos s + 1)) :: toks /\ (bs = [] -> l = parts) /\
    laid a (src_pos s) l /\ Forall noend l /\ laid (src_pos s + 1) (src_pos s') toks /\ Forall noend toks.
Lemma p_str_block a bs parts rd r s : J a s bs parts -> spot s (123%N :: r) -> hx (str_block code nt lf bs parts rd) s (blocked a s bs parts) (fun _ _ => False).
Proof.
  intros HJ H. pose proof HJ as (V & N & m & LD & LB). unfold str_block. change 1 with (blen [123%N]) at 1. apply hx_bind, (p_adv [123%N] r); [exact H|]. intros H2. change (blen [123%N]) with 1 in *. set (s1 := set_pos (src_pos s + 1) s) in *.
  assert (C1 : calm s s1) by (apply calm_move; lia). assert (P1 : src_pos s1 = src_pos s + 1) by reflexivity.
  apply hx_bind, hx_input. intros inp H3. destruct (starts_with_c 36 inp || negb rd)%bool.
  2:{ apply hx_ret. left. split; [reflexivity|]. apply (J_calm a s s1 bs); auto. cbn [fst]. rewrite app_length. cbn [List.length]. lia. }
  apply hx_bind, hx_get, hx_bind, hx_put, hx_bind, hx_pos, hx_bind, hx_sub. intros _. cbn [src_pos set_stack set_mode]. rewrite P1. replace (src_pos s + 1 - 1) with (src_pos s) by lia.
  pose proof (calm_live _ _ C1 V) as V1. apply hx_bind. unfold LexInv.hx at 1.
  pose proof (p_block lf (src_pos s) [(Kw KCurlyBracesOpen, mk_span (src_pos s) (src_pos s + 1))] (set_stack [LDoNothing] (set_mode LInScripting s1))) as G.
  assert (I0 : tidy (set_stack [LDoNothing] (set_mode LInScripting s1)) /\ Forall noend [(Kw KCurlyBracesOpen, mk_span (src_pos s) (src_pos s + 1))] /\
    laid (src_pos s) (src_pos (set_stack [LDoNothing] (set_mode LInScripting s1))) ([(Kw KCurlyBracesOpen, mk_span (src_pos s) (src_pos s + 1))] ++ queue (set_stack [LDoNothing] (set_mode LInScripting s1)))).
  { destruct V1 as (_ & _ & Q1). cbn [src_pos set_stack set_mode queue lstack lmode]. rewrite Q1. cbn [app]. split; [|split].
    - unfold tidy. cbn [src_pos set_stack set_mode queue lstack lmode]. rewrite Q1. split; [cbn; intuition discriminate|]. split; [auto|constructor].
    - constructor; [discriminate|constructor].
    - apply laid_one; cbn [mk_span sp_start sp_end]; auto; try lia. exists "{"%string. split; [cbn; tauto|]. split; [apply (spot_stands s [123%N] r H)|reflexivity]. }
  specialize (G (or_introl I0)). unfold LexInv.hx in G. pose proof (h_block_head nt lf [(Kw KCurlyBracesOpen, mk_span (src_pos s) (src_pos s + 1))] (set_stack [LDoNothing] (set_mode LInScripting s1))) as HD.
  destruct (block_loop nt lf _ _) as [toks s2|e s2|pp|]; auto. destruct (HD _ _ eq_refl) as (more & ->). clear HD. destruct G as (Q2 & G).
  assert (BAD : hx (trestore s1 ;;; tret (bs, parts)) s2 (blocked a s bs parts) (fun _ _ => False)).
  { apply hx_bind, hx_restore, hx_ret. left. split; [reflexivity|]. cbn [fst]. split; [|split; [exact N|exists m; split; [exact LD|cbn [src_pos restore set_queue]; lia]]].
    destruct V1 as (A1 & B1 & D1). unfold live, restore. cbn. auto. }
  destruct G as [(NN & LT)|(l & sp & E)].
  2:{ rewrite E, last_last. exact BAD. }
  destruct (last _ _) as [[k| | | | | | | |] sp0]; try exact BAD. destruct k; try exact BAD.
  apply hx_bind, hx_sub. intros _. rewrite ?P1. replace (src_pos s + 1 - 1) with (src_pos s) by lia. eapply hx_use; [apply (p_flush a m); [exact LD|lia|exact N]| |intros ? ? []]. intros parts' s3 (-> & LF & NF & EF).
  apply hx_bind, hx_get, hx_bind, hx_put, hx_ret. right. cbn [fst snd]. split; [reflexivity|]. split; [destruct V1 as (A1 & B1 & D1); unfold live; cbn; auto|]. exists parts', more. cbn [app]. split; [reflexivity|]. split; [exact EF|]. split; [exact LF|]. split; [exact NF|].
  cbn [app] in LT, NN. inversion NN; subst. split; [|assumption]. cbn [src_pos set_stack set_mode]. inversion LT; subst; cbn [mk_span sp_start sp_end] in *; [assumption|exfalso; match goal with I : In _ _ |- _ => cbn in I; intuition discriminate end].
Qed.
Lemma p_str_variable a bs parts r s : J a s bs parts -> spot s (36%N :: r) -> hx (str_variable code nt lf bs parts) s (fun r s' => J a s' (fst r) (snd r)) (fun _ _ => False).
Proof.
  intros HJ H. pose proof HJ as (V & N & m & LD & LB). unfold str_variable. change 1 with (blen [36%N]) at 1. apply hx_bind, (p_adv [36%N] r); [exact H|]. intros H2. change (blen [36%N]) with 1 in *. set (s1 := set_pos (src_pos s + 1) s) in *.
  assert (C1 : calm s s1) by (apply calm_move; lia). assert (P1 : src_pos s1 = src_pos s + 1) by reflexivity. pose proof (calm_live _ _ C1 V) as V1.
  apply hx_bind, hx_input. intros inp H3. pose proof (spot_fun _ _ _ _ H2 H3) as <-. destruct (starts_with_c 123 r) eqn:C.
  - destruct (sw1_split _ _ C) as (r0 & ->). apply hx_bind, hx_pos, hx_bind, hx_sub. intros _. rewrite P1. replace (src_pos s + 1 - 1) with (src_pos s) by lia.
    eapply hx_use; [apply (p_flush a m); [exact LD|lia|exact N]| |intros ? ? []]. intros parts1 s2 (-> & LF & NF & _). cbv zeta.
    assert (J1 : J a s1 [] parts1) by (split; [exact V1|]; split; [exact NF|]; exists (src_pos s); split; [exact LF|cbn; lia]).
    eapply hx_use; [apply (p_str_block a [] parts1 false r0 s1 J1 H2)| |intros ? ? []]. intros [bs2 parts2] s3 [(E & _)|(E & V3 & l & toks & EL & EE & LL & NL & LT & NT')]; cbn [fst snd] in *.
    + subst parts2. rewrite (proj2 (nth_error_None parts1 (List.length parts1)) (le_n _)). exact Logic.I.
    + subst bs2. rewrite (EE eq_refl) in *. subst parts2. rewrite nth_error_app2, Nat.sub_diag by auto. cbn [nth_error]. apply hx_bind, hx_sub. intros _. apply hx_ret. cbn [fst snd mk_span sp_start sp_end]. rewrite firstn_app, Nat.sub_diag, firstn_all, firstn_O, app_nil_r.
      match goal with |- context [@skipn ?A ?n ?l] => assert (SK : @skipn A n l = toks) end.
      { rewrite skipn_app, skipn_all2 by (unfold tokspan; lia). rewrite Nat.sub_succ_l, Nat.sub_diag by auto. reflexivity. }
      rewrite SK. rewrite P1 in *. replace (src_pos s + 1 - 1) with (src_pos s) by lia. split; [exact V3|]. split; [apply Forall_app; split; [exact NF|constructor; [discriminate|exact NT']]|]. exists (src_pos s3). cbn [List.length]. split; [|lia].
      eapply laid_app; [exact LF|]. apply laid_token; cbn [set_start mk_span sp_start sp_end]; auto; try lia. split; [|lia]. apply (spot_stands s [36; 123]%N r0). exact H.
  - eapply hx_use; [apply p_label| |intros ? ? []]. intros [[name sp]|] s2.
    2:{ intros ->. apply hx_ret. apply (J_calm a s s1 bs); auto. cbn [fst]. rewrite app_length. cbn [List.length]. lia. }
    intros (-> & NN & ST & ->). set (s2 := set_pos (src_pos s1 + blen name) s1) in *. assert (P2 : src_pos s2 = src_pos s + 1 + blen name) by reflexivity. apply hx_bind, hx_input. intros inp2 H4. destruct (starts_with_c 91 inp2); [exact Logic.I|].
    assert (C2 : calm s s2) by (eapply calm_trans; [exact C1|apply calm_move; lia]). pose proof (len_le name) as LN.
    assert (G : forall tmp s3, calm s2 s3 -> laid (src_pos s2) (src_pos s3) tmp -> Forall noend tmp ->
      hx (start <- tsub (sp_start (mk_span (src_pos s1) (src_pos s1 + List.length name))) 1 ;; parts0 <- flush bs parts start ;; tret ([], parts0 ++ [(TVariable name, mk_span start (sp_end (mk_span (src_pos s1) (src_pos s1 + List.length name))))] ++ tmp)) s3 (fun r s' => J a s' (fst r) (snd r)) (fun _ _ => False)).
    { intros tmp s3 C3 LT NT'. cbn [mk_span sp_start sp_end]. apply hx_bind, hx_sub. intros _. rewrite P1. replace (src_pos s + 1 - 1) with (src_pos s) by lia.
      eapply hx_use; [apply (p_flush a m); [exact LD|lia|exact N]| |intros ? ? []]. intros parts1 s4 (-> & LF & NF & _). apply hx_ret. cbn [fst snd]. split; [eapply calm_live; [exact (calm_trans _ _ _ C2 C3)|exact V]|].
      split; [apply Forall_app; split; [exact NF|]; apply Forall_cons; [discriminate|exact NT']|]. exists (src_pos s3). cbn [List.length]. split; [|lia]. eapply laid_app; [exact LF|]. cbn [app]. apply laid_token; cbn [mk_span sp_start sp_end]; auto; try lia.
      - split; [|lia]. apply stands_join; [apply (spot_stands s [36%N] r H)|exact ST].
      - eapply laid_weak; [exact LT|lia|auto]. }
    destruct (starts_with (s2l "->") inp2) eqn:AR.
    + destruct (sw_split _ _ AR) as (r2 & ->). apply hx_bind. apply hx_bind, hx_pos. change 2 with (blen (s2l "->")) at 1. apply hx_bind, (p_adv (s2l "->") r2); [exact H4|]. intros H5. change (blen (s2l "->")) with 2 in *. set (s3 := set_pos (src_pos s2 + 2) s2) in *.
      assert (P3 : src_pos s3 = src_pos s2 + 2) by reflexivity. eapply hx_use; [apply p_label| |intros ? ? []]. intros [[prop sp2]|] s4.
      * intros (-> & N4 & ST4 & ->). apply hx_ret. pose proof (len_le prop) as LP. apply G.
        -- eapply calm_trans; apply calm_move; cbn [src_pos set_pos]; lia.
        -- cbn [mk_span sp_start sp_end src_pos set_pos]. apply laid_token; cbn [mk_span sp_start sp_end]; try lia. { split; [apply (spot_stands s2 _ r2 H4)|auto]. }
           apply laid_one; cbn [mk_span sp_start sp_end]; try lia. split; [exact ST4|reflexivity].
        -- repeat constructor; discriminate.
      * intros ->. apply hx_bind, hx_putpos, hx_ret. apply G; [eapply calm_trans; [apply calm_refl|]; split; [reflexivity|split; [reflexivity|split; [reflexivity|cbn; lia]]]|constructor; cbn; lia|constructor].
    + apply hx_bind, hx_ret. apply G; [apply calm_refl|constructor; auto|constructor].
Qed.

Definition closes (k : kind) (a : nat) (r : bytes * list tokspan) (s' : tst) : Prop :=
  live s' /\ Forall noend (snd r) /\ exists m, laid a m (snd r) /\ m + List.length (fst r) + 1 <= src_pos s' /\ token_at (Kw k) (src_pos s' - 1) (src_pos s').
Lemma J_next a s bs parts w r : J a s bs parts -> spot s (w ++ r) -> J a (set_pos (src_pos s + blen w) s) (bs ++ encode w) parts.
Proof. intros HJ H. apply (J_calm a s _ bs); [exact HJ|apply (calm_adv s w r H)|]. rewrite app_length, SmallFacts.encode_blen. cbn [src_pos set_pos]. lia. Qed.
Lemma J_line a s bs parts bs' : J a s bs parts -> List.length bs' <= List.length bs + 1 -> J a (next_line_st (set_pos (src_pos s + 1) s)) bs' parts.
Proof. intros HJ H. apply (J_calm a s _ bs); [exact HJ| |cbn; lia]. eapply calm_trans; [|apply calm_line]. apply calm_move. lia. Qed.
Lemma blocked_J a s bs parts r s0 s' : J a s bs parts -> spot s (123%N :: r) -> blocked a s bs parts s0 s' -> J a s' (fst s0) (snd s0).
Proof.
  intros HJ H [(E & B)|(E & V & l & toks & EL & _ & LL & NL & LT & NT')]; [rewrite E; exact B|]. rewrite E, EL. split; [exact V|]. split; [apply Forall_app; split; [exact NL|constructor; [discriminate|exact NT']]|].
  exists (src_pos s'). cbn [List.length]. split; [|lia]. eapply laid_app; [exact LL|]. apply laid_token; cbn [mk_span sp_start sp_end]; auto; try lia. exists "{"%string. split; [cbn; tauto|]. split; [apply (spot_stands s [123%N] r H)|reflexivity].
Qed.
Lemma p_dq_end inp s : hx (dq_end_pos inp) s (fun _ s' => s' = s) (fun _ _ => False).
Proof. unfold dq_end_pos. destruct (position dq_special inp); [apply hx_ret; reflexivity|]. apply hx_sub. reflexivity. Qed.

Lemma p_dq bak n : live bak -> forall bs parts s, J (src_pos bak + 1) s bs parts ->
  hx (dq_loop code nt lf n bak bs parts) s (closes KDoubleQuote (src_pos bak + 1)) (fun _ => keeps bak).
Proof.
  intros VB. induction n as [|n IH]; intros bs parts s HJ; cbn [dq_loop]; [exact Logic.I|].
  apply hx_bind, hx_input. intros inp H. eapply hx_use; [apply p_dq_end| |intros ? ? []]. intros e s' ->. cbv zeta. apply hx_bind, hx_advc. intros w r H' _ H2. pose proof (J_next _ _ _ _ _ _ HJ H') as J1. set (s1 := set_pos (src_pos s + blen w) s) in *.
  apply hx_bind, hx_input. intros inp2 H3. pose proof (spot_fun _ _ _ _ H2 H3) as <-. pose proof (proj1 J1) as V1. pose proof (J_le _ _ _ _ J1) as P1.
  destruct r as [|c r]; [apply (p_unterminated (fun x => x)); auto|].
  destruct (c =? 10)%N. { apply hx_bind, hx_advb. intros w2 r2 H4 B2 _. rewrite B2. apply hx_bind, hx_line. apply IH. apply (J_line _ _ (bs ++ encode w)); [exact J1|]. rewrite (app_length (bs ++ encode w)). cbn [List.length]. lia. }
  destruct (c =? 92)%N. { eapply hx_use; [apply p_escape| |intros e' s' ->; split; [exact V1|lia]]. intros bs' s2 (C2 & E2). apply IH. apply (J_calm _ s1 s2 (bs ++ encode w)); auto. }
  destruct (N.eqb_spec c 34) as [->|_].
  { change 1 with (blen [34%N]) at 1. apply hx_bind, (p_adv [34%N] r); [exact H3|]. intros H4. apply hx_ret. destruct J1 as (_ & N1 & m & LM & BM). split; [exact V1|]. split; [exact N1|]. exists m. cbn [fst snd src_pos set_pos]. change (blen [34%N]) with 1. split; [exact LM|]. split; [lia|].
    replace (src_pos s1 + 1 - 1) with (src_pos s1) by lia. split; [left; apply (spot_stands s1 [34%N] r H3)|reflexivity]. }
  destruct (N.eqb_spec c 36) as [->|_]. { eapply hx_use; [eapply (p_str_variable (src_pos bak + 1) _ _ r); [exact J1|exact H3]| |intros ? ? []]. intros r0 s2 J2. apply IH, J2. }
  destruct (N.eqb_spec c 123) as [->|_]; [|apply (p_unterminated (fun x => x)); auto].
  eapply hx_use; [eapply (p_str_block (src_pos bak + 1) _ _ true r); [exact J1|exact H3]| |intros ? ? []]. intros r0 s2 J2. apply IH. eapply blocked_J; eauto.
Qed.
Lemma p_bq bak n : live bak -> forall bs parts s, J (src_pos bak + 1) s bs parts ->
  hx (bq_loop code nt lf n bak bs parts) s (closes KBackquote (src_pos bak + 1)) (fun _ => keeps bak).
Proof.
  intros VB. induction n as [|n IH]; intros bs parts s HJ; cbn [bq_loop]; [exact Logic.I|].
  apply hx_bind, hx_input. intros inp H. eapply hx_use; [apply p_dq_end| |intros ? ? []]. intros e s' ->. cbv zeta. apply hx_bind, hx_advc. intros w r H' _ H2. pose proof (J_next _ _ _ _ _ _ HJ H') as J1. set (s1 := set_pos (src_pos s + blen w) s) in *.
  apply hx_bind, hx_input. intros inp2 H3. pose proof (spot_fun _ _ _ _ H2 H3) as <-. pose proof (proj1 J1) as V1. pose proof (J_le _ _ _ _ J1) as P1.
  destruct r as [|c r]; [apply (p_unterminated (fun x => x)); auto|].
  destruct (c =? 10)%N. { apply hx_bind, hx_advb. intros w2 r2 H4 B2 _. rewrite B2. apply hx_bind, hx_line. apply IH. apply (J_line _ _ (bs ++ encode w)); [exact J1|]. rewrite (app_length (bs ++ encode w)). cbn [List.length]. lia. }
  destruct (N.eqb_spec c 96) as [->|_].
  { change 1 with (blen [96%N]) at 1. apply hx_bind, (p_adv [96%N] r); [exact H3|]. intros H4. apply hx_ret. destruct J1 as (_ & N1 & m & LM & BM). split; [exact V1|]. split; [exact N1|]. exists m. cbn [fst snd src_pos set_pos]. change (blen [96%N]) with 1. split; [exact LM|]. split; [lia|].
    replace (src_pos s1 + 1 - 1) with (src_pos s1) by lia. split; [apply (spot_stands s1 [96%N] r H3)|reflexivity]. }
  destruct (N.eqb_spec c 36) as [->|_]. { eapply hx_use; [eapply (p_str_variable (src_pos bak + 1) _ _ r); [exact J1|exact H3]| |intros ? ? []]. intros r0 s2 J2. apply IH, J2. }
  destruct (N.eqb_spec c 123) as [->|_]; [|apply (p_unterminated (fun x => x)); auto].
  eapply hx_use; [eapply (p_str_block (src_pos bak + 1) _ _ true r); [exact J1|exact H3]| |intros ? ? []]. intros r0 s2 J2. apply IH. eapply blocked_J; eauto.
Qed.
Lemma p_newline s : hx (newline code) s (fun b s' => calm s s') (fun _ _ => False).
Proof.
  unfold newline. apply hx_bind, hx_input. intros inp H. assert (G : forall k, hx (advance_bytes code k ;;; next_line ;;; tret true) s (fun b s' => calm s s') (fun _ _ => False)).
  { intros k. apply hx_bind, hx_advb. intros w r H' B _. apply hx_bind, hx_line, hx_ret. eapply calm_trans; [apply (calm_adv s w r H')|apply calm_line]. }
  destruct (starts_with [13; 10]%N inp); [apply G|]. destruct (starts_with_c 10 inp || starts_with_c 13 inp)%bool; [apply G|apply hx_ret, calm_refl].
Qed.
Lemma p_opt (b : bool) {A} (x y : A) k s : hx (if b then advance_bytes code k ;;; tret x else tret y) s (fun a s' => a = (if b then x else y) /\ calm s s') (fun _ _ => False).
Proof. destruct b; [|apply hx_ret; split; [reflexivity|apply calm_refl]]. apply hx_bind, hx_advb. intros w r H' B _. apply hx_ret. split; [reflexivity|apply (calm_adv s w r H')]. Qed.
Lemma p_doc bak tag now n : live bak -> forall bs parts s, J (src_pos bak + 1) s bs parts ->
  hx (doc_loop code nt lf n bak tag now bs parts) s (closes KHereDocEnd (src_pos bak + 1)) (fun _ => keeps bak).
Proof.
  intros VB. induction n as [|n IH]; intros bs parts s HJ; cbn [doc_loop]; [exact Logic.I|].
  apply hx_bind, hx_input. intros inp H. cbv zeta. apply hx_bind, hx_advc. intros w r H' _ H2. pose proof (J_next _ _ _ _ _ _ HJ H') as J1. set (s1 := set_pos (src_pos s + blen w) s) in *.
  apply hx_bind, hx_input. intros inp2 H3. pose proof (spot_fun _ _ _ _ H2 H3) as <-. pose proof (proj1 J1) as V1. pose proof (J_le _ _ _ _ J1) as P1.
  destruct r as [|c r]; [apply (p_unterminated (fun x => x)); auto|].
  destruct (c =? 10)%N.
  { apply hx_bind, hx_advb. intros w2 r2 H4 B2 _. rewrite B2. apply hx_bind, hx_line. assert (J2 : J (src_pos bak + 1) (next_line_st (set_pos (src_pos s1 + 1) s1)) ((bs ++ encode w) ++ [10%N]) parts) by (apply (J_line _ _ (bs ++ encode w)); [exact J1|]; rewrite (app_length (bs ++ encode w)); cbn [List.length]; lia).
    set (s2 := next_line_st (set_pos (src_pos s1 + 1) s1)) in *. assert (P2 : src_pos s2 = src_pos s1 + 1) by reflexivity. apply hx_bind, hx_input. intros inp3 H5. destruct (starts_with tag inp3); [|apply IH, J2].
    apply hx_bind, hx_advb. intros w3 r3 H6 B3 _. pose proof (calm_adv s2 w3 r3 H6) as C3. set (s3 := set_pos (src_pos s2 + blen w3) s2) in *. pose proof (calm_live _ _ C3 (proj1 J2)) as V3. pose proof (calm_pos _ _ C3) as P3. apply hx_bind, hx_pos, hx_bind, hx_input. intros inp4 H7.
    eapply hx_use; [apply (p_opt (starts_with_c 59 inp4) tt tt 1 s3)| |intros ? ? []]. intros [] s4 (_ & C4). eapply hx_use; [apply p_newline| |intros ? ? []]. intros nl s5 C5. pose proof (calm_trans _ _ _ C4 C5) as C6. pose proof (calm_live _ _ C6 V3) as V5. destruct nl.
    - apply hx_bind, hx_putpos, hx_ret. destruct J1 as (_ & N1 & m & LM & BM). split; [apply live_pos, V5|]. split; [exact N1|]. exists m. cbn [fst snd src_pos set_pos]. split; [exact LM|]. split; [lia|]. change (src_pos s3 = src_pos s3 - 1 + 1). lia.
    - apply (p_unterminated (fun x => x)); auto. }
  destruct (c =? 92)%N. { eapply hx_use; [apply p_escape| |intros e' s' ->; split; [exact V1|lia]]. intros bs' s2 (C2 & E2). apply IH. apply (J_calm _ s1 s2 (bs ++ encode w)); auto. }
  destruct ((c =? 36)%N && negb now)%bool eqn:C4.
  { apply andb_true_iff in C4 as [C4 _]. apply N.eqb_eq in C4. subst c. eapply hx_use; [eapply (p_str_variable (src_pos bak + 1) _ _ r); [exact J1|exact H3]| |intros ? ? []]. intros r0 s2 J2. apply IH, J2. }
  destruct ((c =? 123)%N && negb now)%bool eqn:C5; [|apply (p_unterminated (fun x => x)); auto].
  apply andb_true_iff in C5 as [C5 _]. apply N.eqb_eq in C5. subst c. eapply hx_use; [eapply (p_str_block (src_pos bak + 1) _ _ true r); [exact J1|exact H3]| |intros ? ? []]. intros r0 s2 J2. apply IH. eapply blocked_J; eauto.
Qed.

Lemma p_return bak k k' bs parts s : In (k, k') [(KDoubleQuote, KDoubleQuote); (KBackquote, KBackquote); (KHereDocStart, KHereDocEnd)] ->
  token_at (Kw k) (src_pos bak) (src_pos bak + 1) -> closes k' (src_pos bak + 1) (bs, parts) s ->
  hx (return_tokens_from_parts (Kw k, mk_span (src_pos bak) (src_pos bak + 1)) (Kw k', mk_span (src_pos s - 1) (src_pos s)) bs parts) s (gets bak) (fun _ _ => False).
Proof.
  intros I TK (V & N & m & LM & BM & TK'). cbn [fst snd] in *. apply hx_bind, hx_get. cbv zeta. apply hx_bind, hx_put, hx_bind, hx_push, hx_ret. destruct V as (V1 & V2 & V3).
  assert (KE : k <> KEnd /\ k' <> KEnd) by (cbn [In] in I; destruct I as [E|[E|[E|[]]]]; injection E as <- <-; split; discriminate). destruct KE as [KE KE'].
  cbn [snd mk_span sp_start sp_end]. rewrite V3. set (e := src_pos s - 1) in *. assert (ES : src_pos s = e + 1) by (subst e; lia). rewrite ES in *.
  split; [|split; [intros X; injection X as ->; auto|]].
  - split; [cbn; intros [X|X]; [congruence|auto]|]. split; [cbn; congruence|]. cbn [queue set_mode set_stack set_queue]. apply Forall_app. split; [exact N|]. destruct bs; repeat constructor; try (intros X; injection X as ->; auto); try apply frag_noend.
  - cbn [src_pos queue set_mode set_stack set_queue]. rewrite ES. destruct bs as [|b bs].
    + apply laid_token; cbn [mk_span sp_start sp_end]; auto; try lia. eapply laid_app; [exact LM|]. cbn [List.length] in BM. apply laid_one; cbn [mk_span sp_start sp_end]; auto; lia.
    + cbn [List.length] in BM. apply (laid_string _ _ _ k k' (frag_token (b :: bs)) (src_pos bak) e parts []); auto; [apply frag_text|eapply laid_weak; [exact LM|auto|lia]|constructor; auto].
Qed.
Lemma J_start s s' : live s -> calm s s' -> src_pos s + 1 <= src_pos s' -> J (src_pos s + 1) s' [] [].
Proof. intros V C P. split; [eapply calm_live; eauto|]. split; [constructor|]. exists (src_pos s + 1). split; [constructor; auto|]. cbn [List.length]. lia. Qed.
Lemma p_dq_string s : live s -> hx (match_dq_string code nt lf) s (res s) (fun _ => keeps s).
Proof.
  intros V. pose proof (keeps_refl _ V) as K. unfold match_dq_string. apply hx_bind, hx_input. intros inp H. destruct (blen inp <? 2); [exact K|].
  apply hx_bind, hx_get. eapply hx_use; [apply p_open| |intros ? ? []]. intros [|] s1; [|intros ->; exact K]. intros (C1 & P1).
  eapply hx_use; [apply p_dq; [exact V|apply (J_start s s1 V C1); lia]| |intros e s' X; exact X]. intros [bs' parts'] s2 CL. apply hx_bind, hx_pos, hx_bind, hx_sub. intros _. cbn [fst snd].
  eapply hx_mono; [apply (p_return s KDoubleQuote KDoubleQuote); [cbn; auto| |exact CL]|intros t s' G; left; exact G|intros ? ? []].
  split; [|reflexivity]. destruct P1 as [(E & _)|(_ & E & _)]; [right; destruct (sw_split _ _ E) as (r & ->); apply (spot_stands s _ r H)|left; destruct (sw1_split _ _ E) as (r & ->); apply (spot_stands s [34%N] r H)].
Qed.
Lemma p_backquote s : live s -> hx (match_backquote code nt lf) s (res s) (fun _ => keeps s).
Proof.
  intros V. pose proof (keeps_refl _ V) as K. unfold match_backquote. apply hx_bind, hx_input. intros inp H. destruct (blen inp <? 2); [exact K|]. destruct (starts_with_c 96 inp) eqn:E; [|exact K].
  destruct (sw1_split _ _ E) as (r0 & ->). apply hx_bind, hx_get. apply hx_bind, hx_advb. intros w r H' B _. pose proof (calm_adv s w r H') as C1.
  eapply hx_use; [apply p_bq; [exact V|apply (J_start s _ V C1); cbn; lia]| |intros e s' X; exact X]. intros [bs' parts'] s2 CL. apply hx_bind, hx_pos, hx_bind, hx_sub. intros _. cbn [fst snd].
  eapply hx_mono; [apply (p_return s KBackquote KBackquote); [cbn; auto| |exact CL]|intros t s' G; left; exact G|intros ? ? []].
  split; [|reflexivity]. apply (spot_stands s [96%N] r0 H).
Qed.
Lemma p_heredoc s : live s -> hx (match_here_now_doc code nt lf) s (res s) (fun _ => keeps s).
Proof.
  intros V. pose proof (keeps_refl _ V) as K. unfold match_here_now_doc. apply hx_bind, hx_input. intros inp H. destruct (blen inp <? 8); [exact K|].
  apply hx_bind, hx_get. eapply hx_use; [apply p_open| |intros ? ? []]. intros [|] s1; cbn [negb]; [|intros ->; exact K]. intros (C1 & P1).
  assert (GIVEUP : forall s2, calm s s2 -> hx (trestore s ;;; terr SENone) s2 (res s) (fun _ => keeps s)).
  { intros s2 C. apply hx_bind, hx_restore, hx_err. split; [apply live_restore; [exact V|eapply calm_live; eauto]|auto]. }
  eapply hx_use; [apply p_ws_only| |intros ? ? []]. intros [] s2 C2. pose proof (calm_trans _ _ _ C1 C2) as C3. apply hx_bind, hx_input. intros inp2 H2.
  eapply hx_use with (Q0 := fun _ s3 => calm s2 s3) (E0 := fun _ _ => False); [| |intros ? ? []].
  { destruct (starts_with_c 39 inp2); [|destruct (starts_with_c 34 inp2)].
    - eapply hx_mono; [apply (p_opt true DNowDoc DNowDoc)|intros a s' (_ & X); exact X|auto].
    - eapply hx_mono; [apply (p_opt true DHereDocEncapsed DNowDoc)|intros a s' (_ & X); exact X|auto].
    - apply hx_ret, calm_refl. }
  intros ty s3 C4. pose proof (calm_trans _ _ _ C3 C4) as C5. eapply hx_use; [apply p_label| |intros ? ? []]. intros [[tag sp]|] s4.
  2:{ intros ->. apply GIVEUP, C5. }
  intros (E4 & _). assert (C45 : calm s3 s4) by (rewrite E4; apply calm_move; lia). pose proof (calm_trans _ _ _ C5 C45) as C6. clear E4. apply hx_bind, hx_input. intros inp3 H3.
  eapply hx_use with (Q0 := fun _ s5 => calm s4 s5) (E0 := fun _ _ => False); [| |intros ? ? []].
  { destruct ty; [apply hx_ret, calm_refl| |]; (eapply hx_mono; [apply p_opt|intros a s' (_ & X); exact X|auto]). }
  intros ok s5 C7. pose proof (calm_trans _ _ _ C6 C7) as C8. destruct ok; cbn [negb]; [|apply GIVEUP, C8].
  eapply hx_use; [apply p_newline| |intros ? ? []]. intros nl s6 C9. pose proof (calm_trans _ _ _ C8 C9) as C10. destruct nl; cbn [negb]; [|apply GIVEUP, C10]. cbv zeta.
  pose proof (calm_pos _ _ C2). pose proof (calm_pos _ _ C4). pose proof (calm_pos _ _ C7). pose proof (calm_pos _ _ C9).
  pose proof (calm_pos _ _ C45). assert (P6 : src_pos s + 1 <= src_pos s6) by lia.
  eapply hx_use; [apply (p_doc s tag _ lf V); apply (J_start s s6 V C10 P6)| |intros e s' X; exact X]. intros [bs' parts'] s7 CL. apply hx_bind, hx_pos.
  assert (RT : hx (q <- tsub (src_pos s7) 1 ;; return_tokens_from_parts (Kw KHereDocStart, mk_span (src_pos s) (src_pos s + 1)) (Kw KHereDocEnd, mk_span q (src_pos s7)) bs' parts') s7 (res s) (fun _ => keeps s)).
  { apply hx_bind, hx_sub. intros _. eapply hx_mono; [apply (p_return s KHereDocStart KHereDocEnd); [cbn; auto| |exact CL]|intros t s' G; left; exact G|intros ? ? []].
    split; [|reflexivity]. destruct P1 as [(E & _)|(_ & E & _)]; [right|left]; destruct (sw_split _ _ E) as (r & ->); apply (spot_stands s _ r H). }
  cbn [fst snd]. destruct ty; try exact RT. destruct parts'; [|exact Logic.I]. apply hx_ret. left. destruct CL as (V7 & _ & m & LM & BM & _). cbn [fst snd] in *. apply laid_le in LM.
  apply gets_usual; cbn [mk_span sp_start sp_end]; auto; try lia; [apply live_usual, V7|apply frag_at|apply frag_noend].
Qed.

(** ** One call of [next_token] *)
Lemma s_chain s0 m k s : hx m s (res s0) (fun _ => keeps s0) -> (forall s', keeps s0 s' -> hx k s' (res s0) (fun _ => keeps s0)) -> hx (ret_token m k) s (res s0) (fun _ => keeps s0).
Proof. intros H K. apply hx_ret_token. eapply hx_mono; [exact H|auto|]. intros e s' X. auto. Qed.
Lemma s_from m s0 s : keeps s0 s -> hx m s (res s) (fun _ => keeps s) -> hx m s (res s0) (fun _ => keeps s0).
Proof. intros K H. eapply hx_mono; [exact H|intros t s' R; eapply res_from; [apply K|exact R]|intros e s' X; eapply keeps_trans; eauto]. Qed.
Lemma s_takes m s0 s : keeps s0 s -> takes m s -> hx m s (res s0) (fun _ => keeps s0).
Proof. intros K H. apply s_from; [exact K|]. eapply hx_mono; [exact H|auto|]. intros e s' C. apply calm_keeps; [apply K|exact C]. Qed.
Lemma p_scripting s : live s -> hx (in_scripting_token code nt lf) s (res s) (fun _ => keeps s).
Proof.
  intros V. unfold in_scripting_token. eapply hx_use; [apply p_whitespace| |intros ? ? []]. intros [] s0 C0. pose proof (calm_keeps _ _ V C0) as KK. pose proof (proj1 KK) as V0. apply s_from; [exact KK|]. clear s V C0 KK.
  pose proof (keeps_refl _ V0) as K0. apply hx_bind, hx_input. intros [|c r] H; [apply hx_ret, res_end; auto|]. apply hx_bind, hx_pos.
  apply s_chain; [apply p_heredoc, V0|]. intros s1 K1. apply s_chain; [apply s_takes; [exact K1|]; apply (p_prefixed "0b"%string); [cbn; auto| |apply K1]; intros x X; apply orb_true_iff in X as [X|X]; apply N.eqb_eq in X; lia|]. intros s2 K2.
  apply s_chain; [apply s_takes; [exact K2|]; apply (p_prefixed "0x"%string); [cbn; auto| |apply K2]|].
  { intros x X. unfold is_hex, is_digit in X. rewrite !orb_true_iff, !andb_true_iff, !N.leb_le in X. lia. }
  intros s3 K3. apply s_chain; [apply s_takes; [exact K3|apply p_onum, K3]|]. intros s4 K4. apply s_chain; [apply s_from; [exact K4|apply p_dq_string, K4]|]. intros s5 K5.
  apply s_chain; [apply s_takes; [exact K5|apply p_variable, K5]|]. intros s6 K6. apply s_chain; [apply s_from; [exact K6|apply p_sq_string, K6]|]. intros s7 K7. apply s_chain; [apply s_from; [exact K7|apply p_comments, K7]|]. intros s8 K8.
  apply s_chain; [apply s_from; [exact K8|apply p_backquote, K8]|]. intros s9 K9. apply hx_bind, hx_putpos.
  eapply hx_mono; [apply (p_label_or_other (set_pos (src_pos s0) s9))| |].
  - split; [apply live_pos, K9|]. split; [reflexivity|]. exists c, r. exact H.
  - intros t s' G. left. exact G.
  - intros e s' X. exact X.
Qed.
Definition moved (s s' : tst) : Prop := usual s' /\ src_pos s <= src_pos s'.
Lemma took_gets s t s' : took (src_pos s) t s' -> gets s t s'.
Proof. intros (U & N & A & B & D & T). destruct t as [t sp]. cbn [fst snd] in *. apply gets_usual; auto; try lia. rewrite A. exact T. Qed.
Lemma p_property s : usual s -> hx (looking_for_property_token code) s (res s) (fun _ => moved s).
Proof.
  intros U. unfold looking_for_property_token. eapply hx_use; [apply p_whitespace| |intros ? ? []]. intros [] s0 C0. pose proof (calm_usual _ _ C0 U) as U0. pose proof (calm_pos _ _ C0) as P0.
  apply hx_none. { eapply hx_mono; [apply p_alias| |intros e s' (X & Y & _); auto]. intros t s' X. left. apply (gets_from s s0); [exact P0|]. apply took_gets. exact (took_alias (s2l "->") KObjectOp ANone s0 t s' U0 eq_refl eq_refl X). }
  assert (POP : forall s1 m st, calm s0 s1 -> lstack s1 = m :: st -> usual (set_mode m (set_stack st s1))).
  { intros s1 m st C E. destruct (calm_usual _ _ C U0) as (A & B & D). repeat split; auto; cbn; rewrite E in A; [intros X; apply A; right; exact X|intros ->; apply A; left; reflexivity]. }
  eapply hx_use; [apply p_label| |intros ? ? []]. intros [[x sp]|] s1.
  - intros (-> & N & ST & ->). apply hx_bind, hx_pop. intros m st E. apply hx_ret. left. apply (gets_from s s0); [exact P0|]. pose proof (len_le x). apply gets_usual; cbn [mk_span sp_start sp_end src_pos set_mode set_stack set_pos]; auto; try lia; try discriminate.
    + apply (POP (set_pos (src_pos s0 + blen x) s0) m st); [apply calm_move; lia|exact E].
    + split; [exact ST|reflexivity].
  - intros ->. apply hx_bind, hx_pop. intros m st E. unfold LexInv.hx. split; [|exact P0]. exact (POP s0 m st (calm_refl _) E).
Qed.
Lemma p_initial s : usual s -> hx (initial_token code) s (res s) (fun _ => moved s).
Proof.
  intros U. unfold initial_token. apply hx_bind, hx_input. intros [|c r] H.
  { unfold LexInv.hx. right. split; [reflexivity|]. apply spot_len in H. cbn in H. destruct U as (A & B & D). split; [repeat split; auto; discriminate|]. split; [cbn; lia|auto]. }
  set (inp := c :: r) in *.
  assert (AL : forall a k ac kk, word_ok k (to_lower a) (blen a) = true -> act_ok ac = true -> (starts_with_ci inp a = false -> hx kk s (res s) (fun _ => moved s)) -> hx (ret_token (match_token_alias code a k ac) kk) s (res s) (fun _ => moved s)).
  { intros a k ac kk W O KK. apply hx_ret_token. eapply hx_mono; [apply p_alias| |].
    - intros t s' X. left. apply took_gets. exact (took_alias a k ac s t s' U W O X).
    - intros e s' (-> & -> & X). split; [intros _; apply KK, X, H|congruence]. }
  apply AL; [vm_compute; reflexivity|reflexivity|]. intros _. apply AL; [vm_compute; reflexivity|reflexivity|]. intros _. apply AL; [vm_compute; reflexivity|reflexivity|]. intros NO. cbv zeta.
  set (e := match find_sub (s2l "<?") inp with None => blen inp | Some x => x end). destruct (negb (e =? 0)) eqn:E.
  - apply hx_bind, hx_pos, hx_bind, hx_advb. intros w r' H' B _. apply hx_ret. left. apply gets_usual; cbn [mk_span sp_start sp_end src_pos set_pos]; auto; try lia; try discriminate. split; [apply (spot_stands s w r' H')|lia].
  - exfalso. apply negb_false_iff, Nat.eqb_eq in E. subst e. destruct (find_sub (s2l "<?") inp) as [x|] eqn:F.
    + subst x. destruct (find_sub_some _ _ _ F) as (a & b & X & Z). destruct a as [|a0 a]; [|cbn in Z; pose proof (clen_pos a0); lia]. cbn [app] in X. rewrite X in NO. unfold starts_with_ci in NO. cbn in NO. discriminate NO.
    + subst inp. cbn in E. pose proof (clen_pos c). lia.
Qed.
Lemma p_scan s : usual s -> hx (scan code nt lf) s (res s) (fun _ => moved s).
Proof.
  intros U. assert (ST : moved s s) by (split; auto). unfold LexInv.hx, scan. destruct (lmode s) eqn:M; try exact ST.
  - exact (p_initial s U).
  - assert (V : live s) by (destruct U as (A & B & D); split; auto). pose proof (p_scripting s V) as G. unfold LexInv.hx in G. destruct (in_scripting_token code nt lf s); auto. destruct G as (G1 & G2). split; [apply live_usual, G1|exact G2].
  - exact (p_property s U).
Qed.
Lemma bound_input {A} (k : str -> T A) s a s' : tbind (input code) k s = TOk a s' -> src_pos s <= L.
Proof.
  unfold tbind. pose proof (hx_input code True s (fun _ _ => src_pos s <= L) (fun _ _ => False)) as H. unfold LexInv.hx in H. intros X. destruct (input code s) as [i s1|e s1|p|] eqn:E; try discriminate.
  apply H. intros inp SP. pose proof (spot_len _ _ _ SP). lia.
Qed.
Lemma bound_scan s t s' : scan code nt lf s = TOk t s' -> src_pos s <= L.
Proof.
  unfold scan. destruct (lmode s); try discriminate; [apply bound_input| |]; unfold in_scripting_token, looking_for_property_token, tbind at 1; destruct (whitespace code s) as [u s1|e s1|p|] eqn:E; try discriminate; intros _; exact (bound_input _ _ _ _ E).
Qed.
Lemma p_nt_loop n : forall s, tidy s -> hx (nt_loop code nt lf n) s
  (fun t s' => (fins t s' /\ queue s = [] /\ src_pos s <= L) \/ tidy s' /\ noend t /\ exists X, t :: queue s' = queue s ++ X /\ laid (src_pos s) (src_pos s') X)
  (fun _ s' => queue s = [] /\ usual s' /\ src_pos s <= src_pos s').
Proof.
  induction n as [|n IH]; intros s TD; [exact Logic.I|]. cbn [nt_loop]. unfold LexInv.hx.
  assert (S : lmode s <> LEmitQueue -> match match scan code nt lf s with TErr SENone s' => if restart s' then nt_loop code nt lf n (set_restart false s') else TErr SENone s' | r => r end with
    TOk t s' => (fins t s' /\ queue s = [] /\ src_pos s <= L) \/ tidy s' /\ noend t /\ exists X, t :: queue s' = queue s ++ X /\ laid (src_pos s) (src_pos s') X
    | TErr e s' => queue s = [] /\ usual s' /\ src_pos s <= src_pos s' | TPanic _ => True | TFuel => True end).
  { intros M. destruct TD as (A & B & D). pose proof (B M) as Q. assert (U : usual s) by (repeat split; auto). rewrite Q. pose proof (p_scan s U) as G. unfold LexInv.hx in G.
    assert (OUT : forall (e : syntax_error) s', moved s s' -> [] = @nil tokspan /\ usual s' /\ src_pos s <= src_pos s') by (intros e s' (X & Y); auto).
    destruct (scan code nt lf s) as [t s'|e s'|p|] eqn:SC; auto.
    - destruct G as [(T1 & T2 & T3)|F]; [|left; split; [exact F|]; split; [reflexivity|exact (bound_scan _ _ _ SC)]]. right. split; [exact T1|]. split; [exact T2|]. exists (t :: queue s'). auto.
    - destruct e; auto. destruct (restart s'); [|apply (OUT SENone), G]. destruct G as (U' & P').
      specialize (IH (set_restart false s') (usual_tidy _ U')). unfold LexInv.hx in IH. destruct (nt_loop code nt lf n (set_restart false s')) as [t s2|e s2|p|]; auto.
      + destruct IH as [(F & _ & F')|(T1 & T2 & X & EX & LX)]; [left; cbn [src_pos set_restart] in F'; split; [exact F|]; split; [reflexivity|lia]|]. right. split; [exact T1|]. split; [exact T2|]. exists X. destruct U' as (_ & _ & Q'). cbn [queue set_restart src_pos] in *. rewrite Q' in EX. split; [exact EX|]. eapply laid_weak; [exact LX|exact P'|auto].
      + destruct IH as (_ & U2 & P2). cbn [src_pos set_restart] in P2. split; [reflexivity|]. split; [exact U2|lia]. }
  destruct (lmode s) eqn:M; try (apply S; discriminate). destruct TD as (A & B & D). destruct (queue s) as [|x q] eqn:Q.
  - unfold pop_state. destruct (lstack s) as [|m st] eqn:ST; [exact Logic.I|].
    assert (TD' : tidy (set_restart true (set_mode m (set_stack st s)))).
    { split; [cbn; intros X; apply A; right; exact X|]. cbn [queue set_restart set_mode set_stack]. rewrite Q. split; [auto|constructor]. }
    specialize (IH _ TD'). unfold LexInv.hx in IH. destruct (nt_loop code nt lf n _) as [t s2|e s2|p|]; auto; cbn [queue set_restart set_mode set_stack src_pos] in IH; rewrite Q in IH; exact IH.
  - inversion D as [|x' q' X1 X2]; subst. right. split; [split; [exact A|split; [cbn; congruence|exact X2]]|]. split; [exact X1|]. exists []. rewrite app_nil_r. split; [reflexivity|constructor; auto].
Qed.
Lemma p_nt_end n : forall s, finished s -> hx (nt_loop code nt lf n) s fins (fun _ s' => queue s' = []).
Proof.
  induction n as [|n IH]; intros s F; [exact Logic.I|]. pose proof F as (U & P & M). pose proof U as (_ & ME & Q). cbn [nt_loop]. unfold LexInv.hx, scan. destruct M as [M|M]; rewrite M.
  - destruct (restart s); [|exact Q]. apply (IH (set_restart false s)). exact F.
  - assert (G : hx (in_scripting_token code nt lf) s fins (fun _ _ => False)).
    { unfold in_scripting_token, whitespace. apply hx_bind, hx_bind, hx_input. intros inp H. assert (inp = []) by (pose proof (spot_len _ _ _ H) as Z; destruct inp as [|c r]; [reflexivity|cbn in Z; pose proof (clen_pos c); lia]). subst inp. cbn [whitespace_loop]. unfold LexInv.hx at 1.
      apply hx_bind, hx_input. intros inp' H'. rewrite <- (spot_fun _ _ _ _ H H'). apply hx_ret. split; [reflexivity|exact F]. }
    unfold LexInv.hx in G. destruct (in_scripting_token code nt lf s); auto. destruct G.
Qed.
End Interp.

Lemma p_next_token f : nt_ok (next_token code f) /\ nt_end (next_token code f).
Proof.
  induction f as [|f [IH1 IH2]]; [split; intros s _; exact Logic.I|]. split; intros s H; cbn [next_token].
  - eapply hx_mono; [apply p_nt_loop; auto| |auto]. intros t s' [(F & _)|X]; auto.
  - apply p_nt_end; auto.
Qed.
Lemma p_tokenize_loop n f : forall acc s toks s', tidy s -> laid 0 (src_pos s) (acc ++ queue s) -> tokenize_loop code n f acc s = DOk (toks, s') -> laid 0 L toks.
Proof.
  induction n as [|n IH]; intros acc s toks s' TD LD H; cbn [tokenize_loop] in H; [discriminate|].
  destruct f as [|f]; [discriminate|]. cbn [next_token] in H.
  pose proof (p_nt_loop (next_token code f) f (proj1 (p_next_token f)) (proj2 (p_next_token f)) f s TD) as G. unfold LexInv.hx in G. destruct (nt_loop code (next_token code f) f f s) as [[t sp] s1|e s1|p|]; try discriminate.
  assert (GO : noend (t, sp) -> tokenize_loop code n (S f) (acc ++ [(t, sp)]) s1 = DOk (toks, s') -> laid 0 L toks).
  { intros NN HH. destruct G as [((E & _) & _)|(T1 & T2 & X & EX & LX)]; [destruct (NN E)|]. apply (IH _ _ _ _ T1) in HH; [exact HH|]. rewrite <- app_assoc. cbn [app]. rewrite EX, app_assoc. eapply laid_app; eauto. }
  destruct t as [k| | | | | | | |]; try (apply GO; [discriminate|exact H]). destruct k; try (apply GO; [discriminate|exact H]).
  injection H as <- <-. destruct G as [((_ & U & P & _) & Q & B)|(_ & N & _)]; [|destruct N; reflexivity]. rewrite Q, app_nil_r in LD. eapply laid_weak; [exact LD|auto|exact B].
Qed.
End Place.
Lemma tokens_laid f src toks s : tokenize f src = DOk (toks, s) -> SpecPlace.laid src 0 (blen src) toks.
Proof. apply (p_tokenize_loop src f f [] tst_init). - split; [intros []|]. split; [auto|constructor]. - cbn. constructor. auto. Qed.
Lemma laid_found src lo hi l : SpecPlace.laid src lo hi l -> forall t sp, In (t, sp) l ->
  match t with
  | TVariable v => SpecPlace.stands src (sp_start sp) (s2l "$" ++ v)
  | TString w | TInlineHtml w => SpecPlace.stands src (sp_start sp) w
  | TComment w => exists o c, In (o, c) comment_marks /\ SpecPlace.stands src (sp_start sp) (s2l o ++ w ++ s2l c)
  | Kw KEnd => False
  | _ => True
  end.
Proof.
  induction 1 as [lo hi H|lo hi t sp l T A B _ IH|lo hi p w z a l P W S A _ IH|lo hi w v d a l D D' S A _ IH|lo hi k k' f a b parts l K T T' A F _ IH1 _ IH2]; intros t0 sp0 I.
  - destruct I.
  - destruct I as [I|I]; [|apply IH, I]. injection I as <- <-. clear IH B A. destruct t as [k| | | | | | | |]; cbn [SpecPlace.token_at] in T; try exact Logic.I; try (apply T).
    + destruct k; try exact Logic.I. destruct T.
    + destruct T as (o & c & T1 & T2 & _). exists o, c. auto.
  - destruct I as [I|I]; [|apply IH, I]. injection I as <- <-. exact Logic.I.
  - destruct I as [I|I]; [|apply IH, I]. injection I as <- <-. exact Logic.I.
  - assert (NE : k <> KEnd /\ k' <> KEnd) by (cbn [In] in K; intuition congruence). destruct NE as [NE NE'].
    assert (KW : forall x, x <> KEnd -> match x with KEnd => False | _ => True end) by (intros []; auto).
    cbn [In] in I. rewrite in_app_iff in I. cbn [In] in I.
    destruct I as [I|[I|[I|[I|I]]]]; [| apply IH1, I | | |apply IH2, I]; injection I as <- <-; [exact (KW _ NE)| |exact (KW _ NE')]. destruct F as [[w ->]|[w ->]]; exact Logic.I.
Qed.
Lemma tokens_found f src toks s t sp : tokenize f src = DOk (toks, s) -> In (t, sp) toks ->
  match t with
  | TVariable v => SpecPlace.stands src (sp_start sp) (s2l "$" ++ v)
  | TString w | TInlineHtml w => SpecPlace.stands src (sp_start sp) w
  | TComment w => exists o c, In (o, c) comment_marks /\ SpecPlace.stands src (sp_start sp) (s2l o ++ w ++ s2l c)
  | Kw KEnd => False
  | _ => True
  end.
Proof. intros H. apply (laid_found _ _ _ _ (tokens_laid _ _ _ _ H)). Qed.
Definition place_source : str := s2l "a<?php $b = 0x1F; // c" ++ [10%N] ++ s2l "echo ""x$y z"", 1.5, (int)foo;".
Lemma place_case : exists s, tokenize 300 place_source = DOk
  ([(TInlineHtml (s2l "a"), mk_span 0 1); (Kw KOpenTag, mk_span 1 6); (TVariable (s2l "b"), mk_span 7 9); (Kw KEqual, mk_span 10 11);
    (TInt 31, mk_span 12 2);                                                       (* 0x1F *)
    (Kw KSemiColon, mk_span 16 17); (TComment (s2l " c"), mk_span 18 22); (Kw KEcho, mk_span 23 27);
    (Kw KDoubleQuote, mk_span 28 29); (TCes (s2l "x"), mk_span 29 30); (TVariable (s2l "y"), mk_span 30 32);
    (TCes (s2l " z"), mk_span 28 35); (Kw KDoubleQuote, mk_span 34 35);            (* the text has the span of the string *)
    (Kw KComma, mk_span 35 36); (TDouble (s2l "1.5"), mk_span 39 1);               (* 1.5 *)
    (Kw KComma, mk_span 40 41); (Kw KCastInt, mk_span 42 47); (TString (s2l "foo"), mk_span 47 50); (Kw KSemiColon, mk_span 50 51)], s)
  /\ place_source = s2l "a<?php $b = 0x1F; // c" ++ [10%N] ++ s2l "echo ""x$y z"", 1.5, (int)foo;".
Proof. eexists. split; [vm_compute; reflexivity|reflexivity]. Qed.
