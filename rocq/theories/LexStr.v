(** * LexStr: string literals and comments *)
From Verif Require Import Base Tokens Lexer Spec SmallFacts LexBase LexSteps LexWords LexTok.
From Coq Require Import String.

(** a run of characters outside [f], and what follows *)
Lemma split_run (f : N -> bool) s : exists w r, s = w ++ r /\ Forall (fun c => f c = false) w /\ head_is (fun c => negb (f c)) r = false.
Proof.
  induction s as [|c s (w & r & -> & F & R)].
  - exists [], []. auto.
  - destruct (f c) eqn:E.
    + exists [], (c :: w ++ r). cbn. rewrite E. auto.
    + exists (c :: w), r. cbn. auto.
Qed.
Lemma encode_app a b : encode (a ++ b) = encode a ++ encode b.
Proof. unfold encode. apply flat_map_app. Qed.
Lemma encode_ascii1 c : (c < 128)%N -> encode [c] = [c].
Proof. intros H. unfold encode, enc1. cbn. destruct (N.ltb_spec c 128); [reflexivity|lia]. Qed.
Lemma frag_ces s : Forall scalar s -> frag_token (encode s) = TCes s.
Proof. intros F. unfold frag_token, from_utf8. rewrite decode_encode; auto. Qed.

Lemma starts1 x r : starts_with [x] r = starts_with_c x r.
Proof. destruct r as [|d r]; cbn; rewrite ?andb_true_r, 1?N.eqb_sym; reflexivity. Qed.

Section Str.
Variable code : str.
Notation at_ := (at_ code).
Variable nt : T tokspan.
Variable lf : nat.

(** ** Single quotes *)
Definition sq_special (x : N) : bool := ((x =? 92) || (x =? 39) || (x =? 10))%N.
Lemma sq_content_run w r : Forall (fun c => sq_special c = false) w -> sq_content (w ++ r) = sq_content r.
Proof.
  induction 1 as [|c w H F IH]; auto. cbn. unfold sq_special in H. apply orb_false_elim in H. destruct H as [H _]. apply orb_false_elim in H. destruct H as [H1 H2].
  rewrite H1, H2. auto.
Qed.
Lemma sq_decode_cons c r : (c =? 92)%N = false -> sq_decode (c :: r) = c :: sq_decode r.
Proof. intros H. destruct r; cbn [sq_decode]; rewrite ?H; reflexivity. Qed.
Lemma sq_decode_run w r : Forall (fun c => sq_special c = false) w -> sq_decode (w ++ r) = w ++ sq_decode r.
Proof.
  induction 1 as [|c w H F IH]; auto. cbn [app]. unfold sq_special in H. apply orb_false_elim in H. destruct H as [H _]. apply orb_false_elim in H. destruct H as [H1 H2].
  rewrite sq_decode_cons, IH; auto.
Qed.
Lemma escape_sq s c d r bs : at_ s (c :: d :: r) -> (c < 128)%N ->
  str_escape code bs true s = TOk (bs ++ encode (if ((d =? 92) || (d =? 39))%N then [d] else [92; d]%N)) (set_pos (src_pos s + blen [c; d]) s).
Proof.
  intros H C. unfold str_escape. rewrite (tbind_input _ _ _ _ H). cbn [nth_error negb andb].
  assert (A : forall b : bytes, (advance_chars code 2 ;;; tret b) s = TOk b (set_pos (src_pos s + blen [c; d]) s)).
  { intros b. unfold tbind. rewrite (adv_chars code s [c; d] r 2 H eq_refl). reflexivity. }
  destruct (N.eqb_spec d 39) as [->|]; cbn [negb andb]; [exact (A _)|].
  destruct (N.eqb_spec d 92) as [->|]; [exact (A _)|].
  cbn [orb]. rewrite A. f_equal. unfold encode. cbn [flat_map]. rewrite app_nil_r. reflexivity.
Qed.
Lemma sq_loop_at : forall n content r s bak bs, at_ s (content ++ 39%N :: r) -> sq_content content = true -> List.length content < n ->
  exists s', sq_loop code n bak bs s = TOk (bs ++ encode (sq_decode content)) s' /\ at_ s' r /\ ctl s' = ctl s.
Proof.
  induction n as [|n IH]; intros content r s bak bs H C L; [lia|]. cbn [sq_loop].
  destruct (split_run sq_special content) as (w & q & -> & F & Q).
  rewrite sq_content_run in C by auto. rewrite sq_decode_run by auto. rewrite <- app_assoc in H.
  rewrite app_length in L.
  rewrite (tbind_input _ _ _ _ H).
  change (fun x => ((x =? 92) || (x =? 39) || (x =? 10))%N) with sq_special.
  rewrite position_app; auto.
  2: { destruct q; auto. }
  assert (E : match (match q ++ 39%N :: r with [] => None | _ :: _ => Some (List.length w) end) with Some e => e | None => List.length (w ++ q ++ 39%N :: r) end = List.length w).
  { destruct q; reflexivity. }
  rewrite E. clear E. unfold tbind at 1. rewrite (adv_chars code s w _ _ H eq_refl).
  pose proof (at_move code s w _ H) as H1. rewrite (tbind_input _ _ _ _ H1).
  destruct q as [|c q]; cbn [app].
  - cbn. rewrite app_nil_r. unfold tbind.
    rewrite (adv_bytes_n code _ [39%N] r 1 H1 eq_refl). eexists. split; [reflexivity|]. split; [|reflexivity].
    exact (at_move_eq code _ [39%N] r _ H1 eq_refl).
  - cbn in Q. apply negb_false_iff in Q. cbn [app] in H1.
    destruct (N.eqb_spec c 10) as [->|N10].
    + unfold tbind at 1. rewrite (adv_bytes_n code _ [10%N] _ 1 H1 eq_refl). unfold tbind at 1, next_line.
      pose proof (at_move_eq code _ [10%N] (q ++ 39%N :: r) (src_pos (set_pos (src_pos s + blen w) s) + 1) H1 eq_refl) as H2.
      cbn in C. cbn in L.
      destruct (IH q r (next_line_st (set_pos (src_pos (set_pos (src_pos s + blen w) s) + 1) (set_pos (src_pos s + blen w) s))) bak ((bs ++ encode w) ++ [10%N]))
        as (s' & A & B & D); [eapply at_same; [|exact H2]; reflexivity|auto|lia|].
      exists s'. split; [|split; [exact B|exact D]]. rewrite A. f_equal. rewrite sq_decode_cons by reflexivity.
      rewrite (encode_app w (10%N :: sq_decode q)). change (10%N :: sq_decode q) with ([10%N] ++ sq_decode q). rewrite encode_app, !app_assoc. reflexivity.
    + unfold sq_special in Q. rewrite (proj2 (N.eqb_neq c 10) N10), orb_false_r in Q. cbn in C.
      destruct (N.eqb_spec c 92) as [->|N92]; cycle 1.
      { cbn in Q. rewrite Q in C. discriminate. }
      cbn in C. destruct q as [|d q]; [discriminate|]. cbn in L. cbn [app] in *.
      unfold tbind at 1. rewrite (escape_sq _ 92 d (q ++ 39%N :: r) _ H1) by reflexivity.
      pose proof (at_move code _ [92; d]%N (q ++ 39%N :: r) H1) as H2.
      destruct (IH q r _ bak ((bs ++ encode w) ++ encode (if ((d =? 92) || (d =? 39))%N then [d] else [92%N; d])) H2 C ltac:(lia)) as (s' & A & B & D).
      exists s'. split; [|split; [exact B|exact D]]. rewrite A. f_equal.
      change (sq_decode (92%N :: d :: q)) with (if ((d =? 92) || (d =? 39))%N then d :: sq_decode q else 92%N :: sq_decode (d :: q)). rewrite encode_app, <- !app_assoc. do 2 f_equal.
      destruct ((d =? 92) || (d =? 39))%N eqn:DD.
      * change (d :: sq_decode q) with ([d] ++ sq_decode q). rewrite encode_app. reflexivity.
      * assert (X : sq_decode (d :: q) = d :: sq_decode q) by (apply sq_decode_cons; apply orb_false_elim in DD; tauto).
        rewrite X. change (92%N :: d :: sq_decode q) with ([92%N; d] ++ sq_decode q). rewrite encode_app. reflexivity.
Qed.
Theorem sq_tok s content r : at_ s (39%N :: content ++ 39%N :: r) -> sq_content content = true -> Forall scalar (sq_decode content) ->
  List.length content < lf ->
  exists s', in_scripting_token code nt lf s = TOk (TCes (sq_decode content), mk_span (src_pos s) (src_pos s')) s' /\ at_ s' r /\ ctl s' = ctl s.
Proof.
  intros H C SC L.
  unfold in_scripting_token. unfold tbind at 1, whitespace. rewrite (tbind_input _ _ _ _ H).
  rewrite ws_none by reflexivity. rewrite (tbind_input _ _ _ _ H). unfold tbind at 1, input_pos at 1.
  rewrite (ret_none _ _ _ _ (doc_none code nt lf s _ H ltac:(reflexivity) ltac:(reflexivity))).
  rewrite (ret_none (bnum code) _ s s (pnum_none code s _ (s2l "0b") _ _ H ltac:(reflexivity))).
  rewrite (ret_none (hnum code) _ s s (pnum_none code s _ (s2l "0x") _ _ H ltac:(reflexivity))).
  rewrite (ret_none _ _ _ _ (onum_none code s _ H ltac:(reflexivity))).
  rewrite (ret_none _ _ _ _ (dq_none code nt lf s _ H ltac:(reflexivity) ltac:(reflexivity))).
  rewrite (ret_none _ _ _ _ (var_none code s _ H ltac:(reflexivity))).
  pose proof (at_move_eq code s [39%N] _ (src_pos s + 1) H eq_refl) as H1.
  destruct (sq_loop_at lf content r _ s [] H1 C L) as (s' & A & B & D).
  exists s'. split; [|split; [exact B|exact D]].
  apply ret_ok. unfold match_sq_string. rewrite (tbind_input _ _ _ _ H).
  assert (BL : (blen (39%N :: content ++ 39%N :: r) <? 2) = false).
  { apply Nat.ltb_ge. cbn [blen]. rewrite blen_app. cbn [blen]. change (clen 39) with 1. lia. }
  rewrite BL. unfold tbind at 1, tget. 
  replace (starts_with (s2l "b'") (39%N :: content ++ 39%N :: r)) with false by reflexivity.
  cbn [starts_with_c]. rewrite N.eqb_refl. unfold tbind at 1. unfold tbind at 1. rewrite (adv_bytes_n code s [39%N] _ 1 H eq_refl). unfold tret at 1.
  unfold tbind at 1. rewrite A. unfold tbind, input_pos, tret. cbn [app]. rewrite frag_ces; auto.
Qed.

(** ** Double quotes *)
Lemma name_label c : name_char c = is_label_char c.
Proof.
  unfold name_char, ascii_letter, is_label_char, is_lower, is_upper, is_digit.
  destruct ((97 <=? c) && (c <=? 122))%N, ((65 <=? c) && (c <=? 90))%N, (c =? 95)%N, ((48 <=? c) && (c <=? 57))%N, ((128 <=? c) && (c <=? 255))%N; reflexivity.
Qed.
Lemma name_facts w : name_ok w = true -> w <> [] /\ Forall (fun c => is_label_char c = true) w /\ head_is is_digit w = false.
Proof.
  destruct w as [|c r]; [discriminate|]. intros H. cbn [name_ok] in H. apply andb_prop in H. destruct H as [H H2]. apply andb_prop in H. destruct H as [H1 H3].
  split; [discriminate|]. split.
  - constructor; [rewrite <- name_label; auto|]. apply forallb_Forall in H2. eapply Forall_impl; [|exact H2]. cbn. intros. rewrite <- name_label; auto.
  - cbn. apply negb_true_iff in H3. exact H3.
Qed.
Lemma position_lt f s m : position f s = Some m -> m < List.length s.
Proof.
  revert m. induction s as [|c s IH]; cbn; [discriminate|]. intros m. destruct (f c); [intros [= <-]; lia|].
  destruct (position f s) as [k|]; [|discriminate]. intros [= <-]. specialize (IH k eq_refl). lia.
Qed.
(** one plain character costs no fuel *)
Lemma dq_special_pos w q : exists n, position dq_special (w ++ 34%N :: q) = Some n.
Proof. induction w as [|c w (n & E)]; cbn; [eauto|]. destruct (dq_special c); [eauto|]. rewrite E. eauto. Qed.
Definition dq_rest n bak bs parts : T (bytes * list tokspan) :=
  inp2 <- input code ;;
  let unterminated : T (bytes * list tokspan) :=
      err_pos <- input_pos ;; trestore bak ;;; p <- input_pos ;;
      terr (SEUnterminated (s2l "double-quoted string literal") (mk_span p err_pos)) in
    match inp2 with
    | [] => unterminated
    | c :: _ =>
      if (c =? 10)%N then advance_bytes code 1 ;;; next_line ;;; dq_loop code nt lf n bak (bs ++ [10]%N) parts
      else if (c =? 92)%N then bs' <- str_escape code bs false ;; dq_loop code nt lf n bak bs' parts
      else if (c =? 34)%N then advance_bytes code 1 ;;; tret (bs, parts)
      else if (c =? 36)%N then r <- str_variable code nt lf bs parts ;; dq_loop code nt lf n bak (fst r) (snd r)
      else if (c =? 123)%N then r <- str_block code nt lf bs parts true ;; dq_loop code nt lf n bak (fst r) (snd r)
      else unterminated
    end.
Lemma dq_run s x y n bak bs parts : at_ s (x ++ y) -> position dq_special (x ++ y) = Some (List.length x) ->
  dq_loop code nt lf (S n) bak bs parts s = dq_rest n bak (bs ++ encode x) parts (set_pos (src_pos s + blen x) s).
Proof.
  intros H P. cbn [dq_loop]. rewrite (tbind_input _ _ _ _ H). unfold dq_end_pos. rewrite P.
  unfold tbind at 1, tret at 1. unfold tbind at 1. rewrite (adv_chars code s x y _ H eq_refl). reflexivity.
Qed.
Lemma dq_char s c w q n bak bs parts : at_ s (c :: w ++ 34%N :: q) -> dq_special c = false ->
  dq_loop code nt lf (S n) bak bs parts s = dq_loop code nt lf (S n) bak (bs ++ enc1 c) parts (set_pos (src_pos s + clen c) s).
Proof.
  intros H C.
  pose proof (at_move_eq code s [c] (w ++ 34%N :: q) (src_pos s + clen c) H ltac:(cbn; lia)) as H1.
  destruct (dq_special_pos w q) as (m & P).
  assert (X : exists x y, w ++ 34%N :: q = x ++ y /\ List.length x = m).
  { exists (firstn m (w ++ 34%N :: q)), (skipn m (w ++ 34%N :: q)). rewrite firstn_skipn. split; auto.
    apply firstn_length_le. apply position_lt in P. lia. }
  destruct X as (x & y & E & L). rewrite E in *. subst m.
  rewrite (dq_run s (c :: x) y n bak bs parts H) by (cbn [app position]; rewrite C, P; reflexivity).
  rewrite (dq_run _ x y n bak _ parts H1 P). cbn [src_pos set_pos]. rewrite set_pos2.
  replace (src_pos s + clen c + blen x) with (src_pos s + blen (c :: x)) by (cbn; lia).
  replace ((bs ++ enc1 c) ++ encode x) with (bs ++ encode (c :: x)) by (cbn; rewrite app_assoc; reflexivity).
  reflexivity.
Qed.
(** a special character is met at once *)
Lemma dq_here s c r n bak bs parts : at_ s (c :: r) -> dq_special c = true ->
  dq_loop code nt lf (S n) bak bs parts s =
  (if (c =? 10)%N then advance_bytes code 1 ;;; next_line ;;; dq_loop code nt lf n bak (bs ++ [10]%N) parts
      else if (c =? 92)%N then bs' <- str_escape code bs false ;; dq_loop code nt lf n bak bs' parts
      else if (c =? 34)%N then advance_bytes code 1 ;;; tret (bs, parts)
      else if (c =? 36)%N then r <- str_variable code nt lf bs parts ;; dq_loop code nt lf n bak (fst r) (snd r)
      else r <- str_block code nt lf bs parts true ;; dq_loop code nt lf n bak (fst r) (snd r)) s.
Proof.
  intros H C. cbn [dq_loop]. rewrite (tbind_input _ _ _ _ H). unfold dq_end_pos. cbn [position]. rewrite C.
  unfold tbind at 1, tret at 1. unfold tbind at 1. rewrite (adv0 code s _ H). rewrite (tbind_input _ _ _ _ H).
  change (encode []) with (@nil N). rewrite app_nil_r.
  unfold dq_special in C. destruct (c =? 10)%N; [reflexivity|]. destruct (c =? 92)%N; [reflexivity|]. destruct (c =? 34)%N; [reflexivity|].
  destruct (c =? 36)%N; [reflexivity|]. cbn in C. rewrite C. reflexivity.
Qed.
Lemma escape_dq s d r bs : at_ s (92%N :: d :: r) -> negb ((d =? 101) || (d =? 117) || (d =? 120) || (d =? 88))%N = true ->
  str_escape code bs false s = TOk (bs ++ dq_escape d) (set_pos (src_pos s + blen [92%N; d]) s).
Proof.
  intros H C. apply negb_true_iff in C. apply orb_false_elim in C. destruct C as [C C4]. apply orb_false_elim in C. destruct C as [C C3]. apply orb_false_elim in C. destruct C as [C1 C2].
  unfold str_escape. rewrite (tbind_input _ _ _ _ H). cbn [nth_error negb andb].
  assert (A : forall b : bytes, (advance_chars code 2 ;;; tret b) s = TOk b (set_pos (src_pos s + blen [92%N; d]) s)).
  { intros b. unfold tbind. rewrite (adv_chars code s [92%N; d] r 2 H eq_refl). reflexivity. }
  rewrite C1, C2, C3, C4. cbn [orb]. unfold dq_escape.
  destruct (N.eqb_spec d 110); [exact (A _)|]. destruct (N.eqb_spec d 114); [exact (A _)|]. destruct (N.eqb_spec d 116); [exact (A _)|].
  destruct (N.eqb_spec d 102); [exact (A _)|]. destruct (N.eqb_spec d 118); [exact (A _)|].
  destruct (N.eqb_spec d 34) as [->|]; [exact (A _)|]. destruct (N.eqb_spec d 92) as [->|]; [exact (A _)|]. destruct (N.eqb_spec d 36) as [->|]; [exact (A _)|].
  exact (A _).
Qed.
Lemma hex_alnum up d : (d < 16)%N -> is_alnum (digit_char up d) = true /\ clen (digit_char up d) = 1.
Proof.
  intros D. assert (I : In d (map N.of_nat (seq 0 16))) by (apply in_map_iff; exists (N.to_nat d); split; [lia|apply in_seq; lia]).
  cbn in I. repeat (destruct I as [<-|I]; [destruct up; split; reflexivity|]). contradiction.
Qed.
Lemma hex_byte up a b : (a < 16)%N -> (b < 16)%N -> from_str_radix 16 255 [digit_char up a; digit_char up b] = Some (Z.of_N (16 * a + b)).
Proof.
  intros A B.
  assert (IA : In a (map N.of_nat (seq 0 16))) by (apply in_map_iff; exists (N.to_nat a); split; [lia|apply in_seq; lia]).
  assert (IB : In b (map N.of_nat (seq 0 16))) by (apply in_map_iff; exists (N.to_nat b); split; [lia|apply in_seq; lia]).
  assert (X : forallb (fun a => forallb (fun b => match from_str_radix 16 255 [digit_char up a; digit_char up b] with Some z => Z.eqb z (Z.of_N (16 * a + b)) | None => false end)
     (map N.of_nat (seq 0 16))) (map N.of_nat (seq 0 16)) = true) by (destruct up; vm_compute; reflexivity).
  rewrite forallb_forall in X. specialize (X a IA). rewrite forallb_forall in X. specialize (X b IB).
  destruct (from_str_radix _ _ _) as [z|]; [|discriminate]. apply Z.eqb_eq in X. congruence.
Qed.
Lemma escape_hex s up a b r bs : at_ s (92%N :: 120%N :: digit_char up a :: digit_char up b :: r) -> (a < 16)%N -> (b < 16)%N -> r <> [] ->
  str_escape code bs false s = TOk (bs ++ [16 * a + b]%N) (set_pos (src_pos s + 4) s).
Proof.
  intros H A B R. unfold str_escape. rewrite (tbind_input _ _ _ _ H). cbn [nth_error negb andb].
  destruct r as [|c0 r]; [congruence|]. destruct (hex_alnum up a A) as [A1 A2]. destruct (hex_alnum up b B) as [B1 B2].
  cbn [N.eqb Pos.eqb orb]. rewrite A1, B1. cbn [Nat.eqb nth_error Nat.add skipn firstn Nat.sub].
  rewrite hex_byte by auto. unfold unwrap. unfold tbind at 1, tret at 1. unfold tbind.
  rewrite (adv_chars code s [92; 120; digit_char up a; digit_char up b]%N (c0 :: r) 4 H eq_refl).
  cbn [blen]. rewrite A2, B2. change (clen 92) with 1. change (clen 120) with 1. cbn [Nat.add].
  unfold tret. rewrite N2Z.id. reflexivity.
Qed.

(** the tokens of the pieces, given the bytes still pending *)
Definition pend (bs : bytes) : list token := match bs with [] => [] | _ => [frag_token bs] end.
Fixpoint dq_tokens (bs : bytes) (ps : list dq_piece) : list token :=
  match ps with
  | [] => pend bs
  | DqChar c :: r => dq_tokens (bs ++ enc1 c) r
  | DqEsc c :: r => dq_tokens (bs ++ dq_escape c) r
  | DqHex _ a b :: r => dq_tokens (bs ++ [16 * a + b]%N) r
  | DqVar v :: r => pend bs ++ TVariable v :: dq_tokens [] r
  | DqProp v p :: r => pend bs ++ TVariable v :: Kw KObjectOp :: TString p :: dq_tokens [] r
  end.
Definition late (p0 : nat) (ts : list tokspan) : Prop := Forall (fun t : tokspan => p0 <= sp_start (snd t)) ts.

Lemma flush_ok bs parts start s p0 : p0 + List.length bs <= start -> late p0 parts ->
  exists parts', flush bs parts start s = TOk parts' s /\ map fst parts' = map fst parts ++ pend bs /\ late p0 parts'.
Proof.
  intros L P. unfold flush. destruct bs as [|b bs].
  - exists parts. split; [reflexivity|]. split; auto. cbn. rewrite app_nil_r. reflexivity.
  - exists (parts ++ [(frag_token (b :: bs), mk_span (start - List.length (b :: bs)) start)]).
    unfold tbind, tsub. destruct (Nat.leb_spec (List.length (b :: bs)) start); [|lia]. unfold tret. split; [reflexivity|].
    split; [rewrite map_app; reflexivity|]. apply Forall_app. split; auto. constructor; auto. cbn [snd sp_start mk_span]. lia.
Qed.
Lemma str_var s v next bs parts p0 : at_ s (36%N :: v ++ next) -> name_ok v = true -> ends_word next = true ->
  starts_with (s2l "[") next = false -> starts_with (s2l "->") next = false ->
  p0 + List.length bs <= src_pos s -> late p0 parts ->
  exists parts', str_variable code nt lf bs parts s = TOk ([], parts') (set_pos (src_pos s + 1 + blen v) s) /\
    map fst parts' = map fst parts ++ pend bs ++ [TVariable v] /\ late p0 parts'.
Proof.
  intros H V E I A L P. destruct (name_facts v V) as (V0 & VF & VD).
  rewrite ends_label in E. apply negb_true_iff in E.
  unfold str_variable. unfold tbind at 1. rewrite (adv_bytes_n code s [36%N] (v ++ next) 1 H eq_refl).
  pose proof (at_move_eq code s [36%N] (v ++ next) (src_pos s + 1) H eq_refl) as H1.
  rewrite (tbind_input _ _ _ _ H1).
  replace (starts_with_c 123 (v ++ next)) with false.
  2: { destruct v as [|c v]; [congruence|]. inversion VF; subst. cbn. symmetry. apply label_not; auto. }
  unfold tbind at 1. rewrite (label_at code _ v next H1 V0 VF VD E). cbn [src_pos set_pos]. rewrite set_pos2.
  pose proof (at_move code _ v next H1) as H2. cbn [src_pos set_pos] in H2. rewrite set_pos2 in H2.
  rewrite (tbind_input _ _ _ _ H2).
  replace (starts_with_c 91 next) with false.
  2: { rewrite <- starts1. symmetry. exact I. }
  rewrite A. unfold tbind at 1, tret at 1. cbn [sp_start sp_end mk_span].
  unfold tbind at 1, tsub. destruct (Nat.leb_spec 1 (src_pos s + 1)); [|lia]. unfold tret at 1.
  replace (src_pos s + 1 - 1) with (src_pos s) by lia.
  destruct (flush_ok bs parts (src_pos s) (set_pos (src_pos s + 1 + blen v) s) p0 L P) as (parts' & F1 & F2 & F3).
  unfold tbind. rewrite F1. unfold tret. eexists. split; [reflexivity|]. rewrite app_nil_r.
  split; [rewrite app_assoc, <- F2; apply map_app|]. apply Forall_app. split; auto. constructor; auto. cbn. lia.
Qed.
Lemma str_prop s v p next bs parts p0 : at_ s (36%N :: v ++ s2l "->" ++ p ++ next) -> name_ok v = true -> name_ok p = true -> ends_word next = true ->
  p0 + List.length bs <= src_pos s -> late p0 parts ->
  exists parts', str_variable code nt lf bs parts s = TOk ([], parts') (set_pos (src_pos s + 1 + blen v + 2 + blen p) s) /\
    map fst parts' = map fst parts ++ pend bs ++ [TVariable v; Kw KObjectOp; TString p] /\ late p0 parts'.
Proof.
  intros H V PN E L P. destruct (name_facts v V) as (V0 & VF & VD). destruct (name_facts p PN) as (P0 & PF & PD).
  rewrite ends_label in E. apply negb_true_iff in E.
  unfold str_variable. unfold tbind at 1. rewrite (adv_bytes_n code s [36%N] (v ++ s2l "->" ++ p ++ next) 1 H eq_refl).
  pose proof (at_move_eq code s [36%N] _ (src_pos s + 1) H eq_refl) as H1.
  rewrite (tbind_input _ _ _ _ H1).
  replace (starts_with_c 123 (v ++ s2l "->" ++ p ++ next)) with false.
  2: { destruct v as [|c v]; [congruence|]. inversion VF; subst. cbn. symmetry. apply label_not; auto. }
  unfold tbind at 1. rewrite (label_at code _ v (s2l "->" ++ p ++ next) H1 V0 VF VD eq_refl). cbn [src_pos set_pos]. rewrite set_pos2.
  pose proof (at_move code _ v _ H1) as H2. cbn [src_pos set_pos] in H2. rewrite set_pos2 in H2.
  rewrite (tbind_input _ _ _ _ H2). cbn [starts_with_c].
  replace (starts_with_c 91 (s2l "->" ++ p ++ next)) with false by reflexivity.
  rewrite starts_with_app. unfold tbind at 1. unfold tbind at 1, input_pos at 1. unfold tbind at 1.
  rewrite (adv_bytes_n code _ (s2l "->") (p ++ next) 2 H2 eq_refl). cbn [src_pos set_pos]. rewrite set_pos2.
  pose proof (at_move code _ _ _ H2) as H3. cbn [src_pos set_pos] in H3. rewrite set_pos2 in H3. change (blen (s2l "->")) with 2 in H3.
  unfold tbind at 1. rewrite (label_at code _ p next H3 P0 PF PD E). cbn [src_pos set_pos]. rewrite set_pos2.
  unfold tret at 1. cbn [sp_start sp_end mk_span].
  unfold tbind at 1, tsub. destruct (Nat.leb_spec 1 (src_pos s + 1)); [|lia]. unfold tret at 1.
  replace (src_pos s + 1 - 1) with (src_pos s) by lia.
  destruct (flush_ok bs parts (src_pos s) (set_pos (src_pos s + 1 + blen v + 2 + blen p) s) p0 L P) as (parts' & F1 & F2 & F3).
  unfold tbind. rewrite F1. unfold tret. eexists. split; [reflexivity|].
  split; [rewrite (app_assoc (map fst parts)), <- F2; apply map_app|]. apply Forall_app. split; auto.
  repeat constructor; cbn; lia.
Qed.
Lemma enc1_len c : List.length (enc1 c) = clen c.
Proof. unfold enc1, clen. repeat destruct (_ <? _)%N; reflexivity. Qed.
Lemma dq_escape_len c : List.length (dq_escape c) <= 1 + clen c.
Proof. unfold dq_escape. pose proof (clen_pos c). repeat destruct (_ =? _)%N; cbn; try lia; rewrite ?enc1_len; lia. Qed.

Lemma dq_loop_at : forall ps n s bak bs parts r p0, at_ s (dq_text ps ++ 34%N :: r) -> dq_ok ps (34%N :: r) = true ->
  List.length ps < n -> p0 + List.length bs <= src_pos s -> late p0 parts ->
  exists bs' parts' s', dq_loop code nt lf n bak bs parts s = TOk (bs', parts') s' /\ at_ s' r /\ ctl s' = ctl s /\
    map fst parts' ++ pend bs' = map fst parts ++ dq_tokens bs ps /\ late p0 parts'.
Proof.
  induction ps as [|p ps IH]; intros n s bak bs parts r p0 H C L P LT.
  - destruct n as [|n]; [cbn in L; lia|]. cbn in H.
    rewrite (dq_here s 34 r n bak bs parts H eq_refl). cbn [N.eqb Pos.eqb]. unfold tbind. rewrite (adv_bytes_n code s [34%N] r 1 H eq_refl).
    exists bs, parts, (set_pos (src_pos s + 1) s). split; [reflexivity|].
    split; [exact (at_move_eq code s [34%N] r _ H eq_refl)|]. split; [reflexivity|]. split; auto.
  - destruct n as [|n]; [lia|]. cbn [List.length] in L.
    cbn [dq_ok] in C. apply andb_prop in C. destruct C as [C1 C2].
    cbn [dq_text flat_map] in H. fold (dq_text ps) in H. rewrite <- app_assoc in H.
    destruct p as [c|c|up a b|v|v q]; cbn [dq_text1 app] in H; cbn [dq_ok1] in C1.
    + destruct (N.eqb_spec c 10) as [->|N10].
      * rewrite (dq_here s 10 _ n bak bs parts H eq_refl). cbn [N.eqb Pos.eqb]. unfold tbind at 1. rewrite (adv_bytes_n code s [10%N] _ 1 H eq_refl).
        unfold tbind at 1, next_line.
        pose proof (at_move_eq code s [10%N] _ (src_pos s + 1) H eq_refl) as H1.
        destruct (IH n (next_line_st (set_pos (src_pos s + 1) s)) bak (bs ++ [10%N]) parts r p0) as (bs' & parts' & s' & E1 & E2 & E3 & E4 & E5); auto; try lia.
        { rewrite app_length. cbn. lia. }
        exists bs', parts', s'. auto.
      * assert (SP : dq_special c = false).
        { unfold dq_special. apply negb_true_iff in C1. rewrite (proj2 (N.eqb_neq c 10) N10). destruct (c =? 92)%N, (c =? 34)%N, (c =? 36)%N, (c =? 123)%N; auto. }
        rewrite (dq_char s c (dq_text ps) r n bak bs parts H SP).
        pose proof (at_move_eq code s [c] _ (src_pos s + clen c) H ltac:(cbn; lia)) as H1.
        destruct (IH (S n) (set_pos (src_pos s + clen c) s) bak (bs ++ enc1 c) parts r p0) as (bs' & parts' & s' & E1 & E2 & E3 & E4 & E5); auto; try lia.
        { rewrite app_length, enc1_len. cbn. lia. }
        exists bs', parts', s'. auto.
    + rewrite (dq_here s 92 _ n bak bs parts H eq_refl). cbn [N.eqb Pos.eqb]. unfold tbind at 1. rewrite (escape_dq s c _ bs H C1).
      pose proof (at_move code s [92%N; c] _ H) as H1.
      destruct (IH n (set_pos (src_pos s + blen [92%N; c]) s) bak (bs ++ dq_escape c) parts r p0) as (bs' & parts' & s' & E1 & E2 & E3 & E4 & E5); auto; try lia.
      { rewrite app_length. pose proof (dq_escape_len c). cbn. change (clen 92) with 1. lia. }
      exists bs', parts', s'. auto.
    + apply andb_prop in C1. destruct C1 as [A B]. apply N.ltb_lt in A, B.
      rewrite (dq_here s 92 _ n bak bs parts H eq_refl). cbn [N.eqb Pos.eqb]. unfold tbind at 1. rewrite (escape_hex s up a b _ bs H A B) by (destruct (dq_text ps); discriminate).
      pose proof (at_move_eq code s [92%N; 120%N; digit_char up a; digit_char up b] _ (src_pos s + 4) H) as H1.
      destruct (hex_alnum up a A) as [_ A2]. destruct (hex_alnum up b B) as [_ B2].
      cbn [blen] in H1. rewrite A2, B2 in H1. specialize (H1 eq_refl).
      destruct (IH n (set_pos (src_pos s + 4) s) bak (bs ++ [16 * a + b]%N) parts r p0) as (bs' & parts' & s' & E1 & E2 & E3 & E4 & E5); auto; try lia.
      { rewrite app_length. cbn. lia. }
      exists bs', parts', s'. auto.
    + apply andb_prop in C1. destruct C1 as [C1 C4]. apply andb_prop in C1. destruct C1 as [C1 C3]. apply andb_prop in C1. destruct C1 as [C0 C1].
      apply negb_true_iff in C3, C4.
      rewrite (dq_here s 36 _ n bak bs parts H eq_refl). cbn [N.eqb Pos.eqb]. unfold tbind at 1.
      destruct (str_var s v _ bs parts p0 H C0 C1 C3 C4 P LT) as (q & Q1 & Q2 & Q3). rewrite Q1. cbn [fst snd].
      pose proof (at_move_eq code s (36%N :: v) _ (src_pos s + 1 + blen v) H ltac:(cbn; change (clen 36) with 1; lia)) as H1.
      destruct (IH n (set_pos (src_pos s + 1 + blen v) s) bak [] q r p0) as (bs' & parts' & s' & E1 & E2 & E3 & E4 & E5); auto; try lia.
      { cbn. lia. }
      exists bs', parts', s'. split; auto. split; auto. split; auto. split; auto.
      rewrite E4, Q2, <- !app_assoc. reflexivity.
    + apply andb_prop in C1. destruct C1 as [C1 C3]. apply andb_prop in C1. destruct C1 as [C0 C1].
      rewrite (dq_here s 36 _ n bak bs parts H eq_refl). cbn [N.eqb Pos.eqb]. unfold tbind at 1.
      rewrite <- !app_assoc in H.
      destruct (str_prop s v q _ bs parts p0 H C0 C1 C3 P LT) as (x & Q1 & Q2 & Q3). rewrite Q1. cbn [fst snd].
      pose proof (at_move_eq code s (36%N :: v ++ s2l "->" ++ q) (dq_text ps ++ 34%N :: r) (src_pos s + 1 + blen v + 2 + blen q)) as H1.
      assert (H2 : at_ (set_pos (src_pos s + 1 + blen v + 2 + blen q) s) (dq_text ps ++ 34%N :: r)).
      { apply H1; [cbn [app]; rewrite <- !app_assoc; exact H|]. cbn [blen]. rewrite !blen_app. change (clen 36) with 1. change (blen (s2l "->")) with 2. lia. }
      destruct (IH n (set_pos (src_pos s + 1 + blen v + 2 + blen q) s) bak [] x r p0) as (bs' & parts' & s' & E1 & E2 & E3 & E4 & E5); auto; try lia.
      { cbn. lia. }
      exists bs', parts', s'. split; auto. split; auto. split; auto. split; auto.
      rewrite E4, Q2, <- !app_assoc. reflexivity.
Qed.
Theorem dq_tok s ps r : at_ s (34%N :: dq_text ps ++ 34%N :: r) -> dq_ok ps (34%N :: r) = true -> List.length ps < lf -> queue s = [] ->
  exists s' q, in_scripting_token code nt lf s = TOk (Kw KDoubleQuote, mk_span (src_pos s) (src_pos s + 1)) s' /\ at_ s' r /\
    ctl s' = (LEmitQueue, lmode s :: lstack s, restart s, q) /\
    map fst q = dq_tokens [] ps ++ [Kw KDoubleQuote] /\ late (src_pos s) q.
Proof.
  intros H C L Q.
  pose proof (at_move_eq code s [34%N] _ (src_pos s + 1) H eq_refl) as H1.
  destruct (dq_loop_at ps lf _ s [] [] r (src_pos s) H1 C L ltac:(cbn; lia) ltac:(constructor)) as (bs & parts & s1 & E1 & E2 & E3 & E4 & E5).
  assert (PM : match_dq_string code nt lf s = 
    (p <- input_pos ;; q <- tsub p 1 ;;
    return_tokens_from_parts (Kw KDoubleQuote, mk_span (src_pos s) (src_pos s + 1))
                             (Kw KDoubleQuote, mk_span q p) bs parts) s1).
  { unfold match_dq_string. rewrite (tbind_input _ _ _ _ H).
    assert (BL : (blen (34%N :: dq_text ps ++ 34%N :: r) <? 2) = false).
    { apply Nat.ltb_ge. cbn [blen]. rewrite blen_app. cbn [blen]. change (clen 34) with 1. lia. }
    rewrite BL. unfold tbind at 1, tget.
    replace (starts_with (s2l "b""") (34%N :: dq_text ps ++ 34%N :: r)) with false by reflexivity.
    cbn [starts_with_c]. rewrite N.eqb_refl. unfold tbind at 1. unfold tbind at 1. rewrite (adv_bytes_n code s [34%N] _ 1 H eq_refl). unfold tret at 1.
    unfold tbind at 1. rewrite E1. reflexivity. }
  assert (P1 : 1 <= src_pos s1).
  { destruct E2 as (x & X1 & X2). destruct H as (y & Y1 & Y2). 
    assert (List.length x > 0).
    { destruct x; [|cbn; lia]. cbn in X1. rewrite X1 in Y1. apply (f_equal (@List.length N)) in Y1. rewrite !app_length in Y1. cbn in Y1. rewrite app_length in Y1. cbn in Y1. lia. }
    destruct x as [|c x]; [cbn in *; lia|]. rewrite X2. cbn. pose proof (clen_pos c). lia. }
  unfold tbind at 1, input_pos in PM. unfold tbind at 1, tsub in PM.
  destruct (Nat.leb_spec 1 (src_pos s1)); [|lia]. unfold tret at 1, return_tokens_from_parts in PM.
  unfold tbind, tget, tput, push_state, tret in PM. cbn [snd sp_start sp_end mk_span] in PM.
  eexists. eexists. split; [|split; [|split; [|split]]].
  - unfold in_scripting_token. unfold tbind at 1, whitespace. rewrite (tbind_input _ _ _ _ H).
    rewrite ws_none by reflexivity. rewrite (tbind_input _ _ _ _ H). unfold tbind at 1, input_pos at 1.
    rewrite (ret_none _ _ _ _ (doc_none code nt lf s _ H ltac:(reflexivity) ltac:(reflexivity))).
    rewrite (ret_none (bnum code) _ s s (pnum_none code s _ (s2l "0b") _ _ H ltac:(reflexivity))).
    rewrite (ret_none (hnum code) _ s s (pnum_none code s _ (s2l "0x") _ _ H ltac:(reflexivity))).
    rewrite (ret_none _ _ _ _ (onum_none code s _ H ltac:(reflexivity))).
    apply (ret_ok _ _ _ _ _ PM).
  - eapply at_same; [|exact E2]. reflexivity.
  - unfold ctl in E3 |- *. cbn in E3 |- *. injection E3 as M1 M2 M3 M4. rewrite M1, M2, M3, M4, Q. reflexivity.
  - cbn [map app] in E4. rewrite <- E4, <- app_assoc. etransitivity; [apply map_app|]. f_equal. destruct bs; reflexivity.
  - assert (PP : src_pos s <= src_pos s1 - 1).
    { destruct E2 as (x & X1 & X2). destruct H as (y & Y1 & Y2). clear - X1 X2 Y1 Y2. rewrite X2, Y2.
      rewrite X1 in Y1. assert (LE : blen x + blen r = blen y + blen (34%N :: dq_text ps ++ 34%N :: r)) by (rewrite <- !blen_app; congruence).
      cbn [blen] in LE. rewrite blen_app in LE. cbn [blen] in LE. change (clen 34) with 1 in LE. lia. }
    apply Forall_app. split; auto.
    destruct bs; repeat apply Forall_cons; try apply Forall_nil; cbn; auto.
Qed.
End Str.
