(** * TextMain: the pieces of strings (proofs for C41) *)
From Verif Require Import Base Tokens Ast AstMap Lexer Parser Printer Driver Spec SpecMixed SpecText SpecUnread SpecGrammar SmallFacts ParserTermination ParserFacts LexBase LexSteps LexWords LexTok LexNum LexStr LexMore LexRun LexParse LexFacts LexCrash LexProg LexText TextTok TextProof UnreadProof.
From Coq Require Import String.
Local Open Scope list_scope.

(** ** One piece behind the other *)
Lemma pieces_none q b r : pieces_run [] q b r b r.
Proof.
  exists 0, 0. intros code f n s bak parts p0 LF LN H Q PB LP. exists n, parts, s. split; [lia|]. split; [reflexivity|]. split; [exact H|].
  repeat (split; [reflexivity || exact Q|]). split; [rewrite app_nil_r; reflexivity|]. split; [exact LP|exact PB].
Qed.
Lemma pieces_app raw raw' q b inp b' inp' b2 r : pieces_run raw q b inp b' inp' -> pieces_run raw' q b' inp' b2 r -> pieces_run (raw ++ raw') q b inp b2 r.
Proof.
  intros (F & k & G) (F' & k' & G'). exists (F + F' + k), (k + k'). intros code f n s bak parts p0 LF LN H Q PB LP.
  destruct (G code f n s bak parts p0 ltac:(lia) ltac:(lia) H Q PB LP) as (n' & parts' & s' & LE & X & A & M & ST & Q2 & MP & LP' & PB').
  destruct (G' code f n' s' bak parts' p0 ltac:(lia) ltac:(lia) A Q2 PB' LP') as (n2 & p2 & s2 & LE2 & X2 & A2 & M2 & ST2 & Q3 & MP2 & LP2 & PB2).
  exists n2, p2, s2. split; [lia|]. split; [congruence|]. split; [exact A2|]. split; [congruence|]. split; [congruence|]. split; [exact Q3|].
  split; [rewrite MP2, MP, app_assoc; reflexivity|]. split; [exact LP2|exact PB2].
Qed.
Lemma reads_none q b r : reads_pieces q b r [] b r.
Proof. split; [intros []|]. split; [exists []; reflexivity|]. intros H. split; [exact H|apply pieces_none]. Qed.
Lemma reads_more q b inp ts b1 inp1 us b2 r : reads_piece q b inp ts b1 inp1 -> reads_pieces q b1 inp1 us b2 r -> reads_pieces q b inp (ts ++ us) b2 r.
Proof.
  intros (N & (w & W & E) & G) (N' & (w' & E') & G').
  split; [intros X; apply in_app_or in X; tauto|].
  split; [exists (w ++ w'); rewrite E, E', app_assoc; reflexivity|]. intros H. destruct (G' H) as [H1 R1]. destruct (G (or_introl H1)) as [H2 R2].
  split; [exact H2|]. eapply pieces_app; eassumption.
Qed.
Lemma reads_start q inp : reads_behind q inp [] [] inp.
Proof. split; [intros []|]. split; [exists []; reflexivity|apply pieces_none]. Qed.
Lemma special_plain q c : ~ plain_char q c -> special q c = true.
Proof. intros N. destruct (special q c) eqn:E; [reflexivity|]. exfalso. apply N, plain_special, E. Qed.
Lemma reads_last q inp us b p ts b' r : reads_pieces q [] inp us b p -> reads_piece q b p ts b' r -> (forall c z, p = c :: z -> ~ plain_char q c) -> reads_behind q inp (us ++ ts) b' r.
Proof.
  intros (N & (w & E) & G) (N' & (w' & W' & E') & G') P.
  split; [intros X; apply in_app_or in X; tauto|].
  split; [exists (w ++ w'); rewrite E, E', app_assoc; reflexivity|].
  destruct w' as [|c w']; [congruence|].
  assert (S : special q c = true) by (apply special_plain; apply (P c (w' ++ r)); exact E').
  destruct (G' ltac:(right; rewrite E'; exact S)) as [_ R2].
  destruct (G ltac:(rewrite E'; apply (runs_head q c _ S))) as [_ R1]. eapply pieces_app; eassumption.
Qed.
(** one piece that begins with a special character *)
Lemma piece_next q b inp us b' inp' : head_is (special q) inp = true -> (exists w, w <> [] /\ inp = w ++ inp') -> ~ In (Kw KEnd) us ->
  (exists F, forall code f n s bak parts p0, F <= f -> F <= n -> at_ code s inp -> queue s = [] -> p0 + List.length b <= src_pos s -> late p0 parts ->
     exists n' parts' s', n <= n' + 1 /\ qloop q code f n bak b parts s = qloop q code f n' bak b' parts' s' /\ at_ code s' inp' /\ lmode s' = lmode s /\ lstack s' = lstack s /\
       queue s' = [] /\ map fst parts' = map fst parts ++ us /\ late p0 parts' /\ p0 + List.length b' <= src_pos s') ->
  reads_piece q b inp us b' inp'.
Proof.
  intros S W N (F & G). split; [exact N|]. split; [exact W|]. intros _. split; [|exists F, 1; exact G].
  destruct inp as [|c z]; [discriminate|]. apply runs_head. exact S.
Qed.
Lemma special_at q c : In c [92; 36; 123]%N -> special q c = true.
Proof. intros [<-|[<-|[<-|[]]]]; destruct q; reflexivity. Qed.
Ltac sp_head := first [reflexivity | (apply special_at; cbn; tauto)].
Ltac none := intros [].
Ltac rests Q LP := repeat (split; [reflexivity || exact Q || exact LP || (rewrite app_nil_r; reflexivity)|]).

(** ** Characters *)
Lemma char_run q c b r : verbatim q c -> reads_piece q b (c :: r) [] (b ++ enc1 c) r.
Proof.
  intros V. split; [none|]. split; [exists [c]; split; [discriminate|reflexivity]|]. intros HS.
  destruct (special q c) eqn:SP.
  - destruct (verbatim_special q c V SP) as [I ->]. split; [apply runs_head, SP|]. exists 1, 1. intros code f n s bak parts p0 LF LN H Q PB LP. fuel n.
    pose proof (at_move_eq code s [10%N] r (src_pos s + clen 10) H ltac:(cbn; lia)) as H1.
    assert (LL : p0 + List.length (b ++ enc1 10) <= src_pos s + clen 10) by (rewrite app_length, enc1_len; lia).
    exists n, parts, (next_line_st (set_pos (src_pos s + clen 10) s)). split; [lia|].
    split; [|split; [eapply at_same; [|exact H1]; reflexivity|]; rests Q LP; exact LL].
    rewrite (q_here code f n bak q s 10%N _ b parts H SP), (q_newline code f n bak q s r b parts H I).
    unfold tbind at 1. rewrite (adv_bytes_n code s [10%N] _ 1 H eq_refl). reflexivity.
  - destruct HS as [HS|X]; [|cbn in X; congruence]. split; [apply runs_more, HS|].
    exists 1, 1. intros code f n s bak parts p0 LF LN H Q PB LP. fuel n.
    pose proof (at_move_eq code s [c] r (src_pos s + clen c) H ltac:(cbn; lia)) as H1.
    assert (LL : p0 + List.length (b ++ enc1 c) <= src_pos s + clen c) by (rewrite app_length, enc1_len; lia).
    exists (S n), parts, (set_pos (src_pos s + clen c) s). split; [lia|].
    split; [apply q_char with (inp := r); assumption|]. split; [exact H1|]. rests Q LP. exact LL.
Qed.
Lemma newline_run q tag b inp : is_doc q tag -> starts_with tag inp = false -> reads_piece q b (10%N :: inp) [] (b ++ [10%N]) inp.
Proof.
  intros D N. assert (SP : special q 10 = true) by (destruct D as [->| ->]; reflexivity).
  apply (piece_next q b (10%N :: inp) [] (b ++ [10%N]) inp); [exact SP|exists [10%N]; split; [discriminate|reflexivity]|none|].
  exists 1. intros code f n s bak parts p0 LF LN H Q PB LP. fuel n.
  pose proof (at_move_eq code s [10%N] inp (src_pos s + 1) H eq_refl) as H1.
  assert (H2 : at_ code (next_line_st (set_pos (src_pos s + 1) s)) inp) by (eapply at_same; [|exact H1]; reflexivity).
  exists n, parts, (next_line_st (set_pos (src_pos s + 1) s)). split; [lia|].
  split; [|split; [exact H2|]; rests Q LP; rewrite app_length; cbn; lia].
  rewrite (q_here code f n bak q s 10%N _ b parts H SP). apply (q_doc_newline code f n bak q tag s inp b parts H D N).
Qed.

(** ** Escape sequences *)
Lemma escape_next q b w inp b' : q <> Back -> (forall code s, at_ code s (92%N :: w ++ inp) -> str_escape code b (is_now q) s = TOk b' (set_pos (src_pos s + blen (92%N :: w)) s)) ->
  List.length b' <= List.length b + blen (92%N :: w) -> reads_piece q b (92%N :: w ++ inp) [] b' inp.
Proof.
  intros NB G L. apply (piece_next q b _ [] b' inp); [sp_head|exists (92%N :: w); split; [discriminate|reflexivity]|none|].
  exists 1. intros code f n s bak parts p0 LF LN H Q PB LP. fuel n.
  exists n, parts, (set_pos (src_pos s + blen (92%N :: w)) s). split; [lia|].
  split; [rewrite (q_here code f n bak q s 92%N _ b parts H (special_at q 92%N ltac:(cbn; tauto))), (q_escape code f n bak q s _ b parts H NB); unfold tbind; rewrite (G code s H); reflexivity|].
  split; [exact (at_move code s (92%N :: w) inp H)|]. rests Q LP. cbn [src_pos set_pos]. lia.
Qed.
Lemma escapes_facts q : escapes q -> q <> Back /\ is_now q = false.
Proof. destruct q; cbn; try contradiction; split; congruence. Qed.
Lemma escape_run q c b inp : escapes q -> ~ In c (s2l "euxX") -> reads_piece q b (92%N :: c :: inp) [] (b ++ dq_escape c) inp.
Proof.
  intros E N. destruct (escapes_facts q E) as [NB NW].
  assert (C : negb ((c =? 101) || (c =? 117) || (c =? 120) || (c =? 88))%N = true).
  { apply negb_true_iff, not_true_iff_false. intros X. apply N. cbn. repeat (apply orb_prop in X; destruct X as [X|X]); apply N.eqb_eq in X; subst; tauto. }
  apply (escape_next q b [c] inp _ NB).
  - intros code s H. rewrite NW. apply (escape_dq code s c inp b H C).
  - rewrite app_length. pose proof (dq_escape_len c). cbn. change (clen 92) with 1. lia.
Qed.
Lemma hex_byte2 up up' x y : (x < 16)%N -> (y < 16)%N -> from_str_radix 16 255 [digit_char up x; digit_char up' y] = Some (Z.of_N (16 * x + y)).
Proof.
  intros A B.
  assert (IA : In x (map N.of_nat (seq 0 16))) by (apply in_map_iff; exists (N.to_nat x); split; [lia|apply in_seq; lia]).
  assert (IB : In y (map N.of_nat (seq 0 16))) by (apply in_map_iff; exists (N.to_nat y); split; [lia|apply in_seq; lia]).
  assert (X : forallb (fun a => forallb (fun b => match from_str_radix 16 255 [digit_char up a; digit_char up' b] with Some z => Z.eqb z (Z.of_N (16 * a + b)) | None => false end)
     (map N.of_nat (seq 0 16))) (map N.of_nat (seq 0 16)) = true) by (destruct up, up'; vm_compute; reflexivity).
  rewrite forallb_forall in X. specialize (X x IA). rewrite forallb_forall in X. specialize (X y IB).
  destruct (from_str_radix _ _ _) as [z|]; [|discriminate]. apply Z.eqb_eq in X. congruence.
Qed.
Lemma hex_byte1 up x : (x < 16)%N -> from_str_radix 16 255 [digit_char up x] = Some (Z.of_N x).
Proof.
  intros A.
  assert (IA : In x (map N.of_nat (seq 0 16))) by (apply in_map_iff; exists (N.to_nat x); split; [lia|apply in_seq; lia]).
  assert (X : forallb (fun a => match from_str_radix 16 255 [digit_char up a] with Some z => Z.eqb z (Z.of_N a) | None => false end)
     (map N.of_nat (seq 0 16)) = true) by (destruct up; vm_compute; reflexivity).
  rewrite forallb_forall in X. specialize (X x IA).
  destruct (from_str_radix _ _ _) as [z|]; [|discriminate]. apply Z.eqb_eq in X. congruence.
Qed.
Lemma alnum_iff c : is_alnum c = true <-> letter_or_digit c.
Proof.
  unfold is_alnum, is_lower, is_upper, is_digit, letter_or_digit.
  destruct (N.leb_spec 97 c), (N.leb_spec c 122), (N.leb_spec 65 c), (N.leb_spec c 90), (N.leb_spec 48 c), (N.leb_spec c 57); cbn; split; intros; try lia; try discriminate; reflexivity.
Qed.
Lemma no_alnum r : (forall d z, r = d :: z -> ~ letter_or_digit d) -> match r with x :: _ => is_alnum x | [] => false end = false.
Proof. destruct r as [|d z]; [reflexivity|]. intros H. apply not_true_iff_false. intros X. apply alnum_iff in X. exact (H d z eq_refl X). Qed.
(** the escape sequences that begin with [x] *)
Definition x_index (inp : str) : nat :=
  let hexish i := match nth_error inp i with Some x => is_alnum x | None => false end in if hexish 2 then (if hexish 3 then 3 else 2) else 0.
Lemma escape_x code s c inp bs : In c (s2l "xX") -> at_ code s (92%N :: c :: inp) ->
  str_escape code bs false s =
  (let e := x_index (92%N :: c :: inp) in
   if e =? 0 then (advance_chars code 2 ;;; tret (bs ++ [92; c]%N)) s
   else match nth_error (92%N :: c :: inp) (e + 1) with
   | None => TPanic PUnwrap
   | Some _ => (b <- unwrap (from_str_radix 16 255 (firstn (e - 1) (skipn 2 (92%N :: c :: inp)))) ;; advance_chars code (1 + e) ;;; tret (bs ++ [Z.to_N b])) s
   end).
Proof.
  intros C H. unfold str_escape. rewrite (tbind_input _ _ _ _ H). cbn [nth_error negb andb]. unfold x_index. cbn [nth_error].
  change (In c [120; 88]%N) in C. destruct C as [<-|[<-|[]]]; cbn [N.eqb Pos.eqb orb].
  all: repeat match goal with |- context [match ?o with Some _ => _ | None => _ end] => destruct o end; try reflexivity.
  all: repeat match goal with |- context [if ?o then _ else _] => destruct o end; reflexivity.
Qed.
Lemma x_clen c : In c (s2l "xX") -> clen c = 1 /\ clen 92 = 1.
Proof. intros [<-|[<-|[]]]; split; reflexivity. Qed.
Lemma byte_run q c up up' x y b inp : escapes q -> In c (s2l "xX") -> (x < 16)%N -> (y < 16)%N -> inp <> [] ->
  reads_piece q b (92%N :: c :: digit_char up x :: digit_char up' y :: inp) [] (b ++ [16 * x + y]%N) inp.
Proof.
  intros ES C X Y NE. destruct (hex_alnum up x X) as [A1 A2]. destruct (hex_alnum up' y Y) as [B1 B2]. destruct (x_clen c C) as [C1 C2]. destruct (escapes_facts q ES) as [NB NW].
  apply (escape_next q b [c; digit_char up x; digit_char up' y] inp _ NB).
  - intros code s H. rewrite NW. cbn [app] in H. rewrite (escape_x code s c _ b C H). unfold x_index. cbn [nth_error]. rewrite A1, B1. cbn [Nat.eqb Nat.add nth_error]. destruct inp as [|c0 inp]; [congruence|]. cbn [nth_error Nat.sub skipn firstn].
    rewrite hex_byte2 by assumption. unfold unwrap. unfold tbind at 1, tret at 1. unfold tbind. rewrite (adv_chars code s [92; c; digit_char up x; digit_char up' y]%N (c0 :: inp) 4 H eq_refl).
    unfold tret. rewrite N2Z.id. reflexivity.
  - rewrite app_length. cbn [blen List.length]. rewrite C2. lia.
Qed.
Lemma short_byte_run q c up x b inp : escapes q -> In c (s2l "xX") -> (x < 16)%N -> inp <> [] -> (forall d z, inp = d :: z -> ~ letter_or_digit d) ->
  reads_piece q b (92%N :: c :: digit_char up x :: inp) [] (b ++ [x]) inp.
Proof.
  intros ES C X NE NA. destruct (hex_alnum up x X) as [A1 A2]. destruct (x_clen c C) as [C1 C2]. pose proof (no_alnum inp NA) as B1. destruct (escapes_facts q ES) as [NB NW].
  apply (escape_next q b [c; digit_char up x] inp _ NB).
  - intros code s H. rewrite NW. cbn [app] in H. rewrite (escape_x code s c _ b C H). unfold x_index. cbn [nth_error]. destruct inp as [|c0 inp]; [congruence|]. rewrite A1, B1. cbn [Nat.eqb Nat.add nth_error]. cbn [nth_error Nat.sub skipn firstn].
    rewrite hex_byte1 by assumption. unfold unwrap. unfold tbind at 1, tret at 1. unfold tbind. rewrite (adv_chars code s [92; c; digit_char up x]%N (c0 :: inp) 3 H eq_refl).
    unfold tret. rewrite N2Z.id. reflexivity.
  - rewrite app_length. cbn [blen List.length]. rewrite C2. lia.
Qed.
Lemma no_byte_run q c b inp : escapes q -> In c (s2l "xX") -> (forall d z, inp = d :: z -> ~ letter_or_digit d) ->
  reads_piece q b (92%N :: c :: inp) [] (b ++ [92%N; c]) inp.
Proof.
  intros ES C NA. destruct (x_clen c C) as [C1 C2]. pose proof (no_alnum inp NA) as B1. destruct (escapes_facts q ES) as [NB NW].
  apply (escape_next q b [c] inp _ NB).
  - intros code s H. rewrite NW. cbn [app] in H. rewrite (escape_x code s c _ b C H). assert (I0 : x_index (92%N :: c :: inp) = 0) by (unfold x_index; cbn [nth_error]; destruct inp; [reflexivity|]; cbn [nth_error]; rewrite B1; reflexivity).
    rewrite I0. cbn [Nat.eqb]. unfold tbind. rewrite (adv_chars code s [92; c]%N inp 2 H eq_refl). reflexivity.
  - rewrite app_length. cbn [blen List.length]. rewrite C1, C2. lia.
Qed.
Lemma raw_run tag c b inp : reads_piece (Now tag) b (92%N :: c :: inp) [] (b ++ (if ((c =? 39) || (c =? 92))%N then [c] else 92%N :: enc1 c)) inp.
Proof.
  apply (escape_next (Now tag) b [c] inp); [discriminate| |].
  - intros code s H. cbn [app is_now] in *. unfold str_escape. rewrite (tbind_input _ _ _ _ H). cbn [nth_error negb andb].
    assert (A : forall z : bytes, (advance_chars code 2 ;;; tret z) s = TOk z (set_pos (src_pos s + blen [92%N; c]) s)).
    { intros z. unfold tbind. rewrite (adv_chars code s [92%N; c] inp 2 H eq_refl). reflexivity. }
    destruct (N.eqb_spec c 39) as [->|N1]; [exact (A _)|]. cbn [orb]. destruct (N.eqb_spec c 92) as [->|N2]; exact (A _).
  - rewrite app_length. pose proof (clen_pos c). destruct ((c =? 39) || (c =? 92))%N; cbn [List.length blen]; change (clen 92) with 1; rewrite ?enc1_len; lia.
Qed.

(** ** Variables *)
(** [$] and what follows it *)
Lemma variable_next q b inp us b' inp' w : splices q -> 36%N :: inp = w ++ inp' -> w <> [] -> ~ In (Kw KEnd) us -> b' = [] \/ List.length b' <= List.length b + blen w ->
  (exists F, forall code f s parts p0, F <= f -> at_ code s (36%N :: inp) -> queue s = [] -> p0 + List.length b <= src_pos s -> late p0 parts ->
     exists parts' s', str_variable code (next_token code f) f b parts s = TOk (b', parts') s' /\ at_ code s' inp' /\ lmode s' = lmode s /\ lstack s' = lstack s /\
       queue s' = [] /\ map fst parts' = map fst parts ++ us /\ late p0 parts') ->
  reads_piece q b (36%N :: inp) us b' inp'.
Proof.
  intros SP W NE N LB (F & G). apply (piece_next q b _ us b' inp'); [sp_head|exists w; split; assumption|exact N|].
  exists (S F). intros code f n s bak parts p0 LF LN H Q PB LP. fuel n.
  destruct (G code f s parts p0 ltac:(lia) H Q PB LP) as (parts' & s' & X1 & X2 & X3 & X4 & X5 & X6 & X7).
  exists n, parts', s'. split; [lia|].
  split; [rewrite (q_here code f n bak q s 36%N _ b parts H (special_at q 36%N ltac:(cbn; tauto))), (q_variable code f n bak q s _ b parts H SP); unfold tbind; rewrite X1; reflexivity|].
  split; [exact X2|]. split; [exact X3|]. split; [exact X4|]. split; [exact X5|]. split; [exact X6|]. split; [exact X7|].
  pose proof (at_pos _ _ _ H) as P1. pose proof (at_pos _ _ _ X2) as P2. rewrite W, blen_app in P1. destruct LB as [->|LB]; cbn [List.length]; lia.
Qed.
Lemma brace_next q b inp us b' inp' w : splices q -> 123%N :: inp = w ++ inp' -> w <> [] -> ~ In (Kw KEnd) us -> b' = [] \/ List.length b' <= List.length b + blen w ->
  (exists F, forall code f s parts p0, F <= f -> at_ code s (123%N :: inp) -> queue s = [] -> p0 + List.length b <= src_pos s -> late p0 parts ->
     exists parts' s', str_block code (next_token code f) f b parts true s = TOk (b', parts') s' /\ at_ code s' inp' /\ lmode s' = lmode s /\ lstack s' = lstack s /\
       queue s' = [] /\ map fst parts' = map fst parts ++ us /\ late p0 parts') ->
  reads_piece q b (123%N :: inp) us b' inp'.
Proof.
  intros SP W NE N LB (F & G). apply (piece_next q b _ us b' inp'); [sp_head|exists w; split; assumption|exact N|].
  exists (S F). intros code f n s bak parts p0 LF LN H Q PB LP. fuel n.
  destruct (G code f s parts p0 ltac:(lia) H Q PB LP) as (parts' & s' & X1 & X2 & X3 & X4 & X5 & X6 & X7).
  exists n, parts', s'. split; [lia|].
  split; [rewrite (q_here code f n bak q s 123%N _ b parts H (special_at q 123%N ltac:(cbn; tauto))), (q_block code f n bak q s _ b parts H SP); unfold tbind; rewrite X1; reflexivity|].
  split; [exact X2|]. split; [exact X3|]. split; [exact X4|]. split; [exact X5|]. split; [exact X6|]. split; [exact X7|].
  pose proof (at_pos _ _ _ H) as P1. pose proof (at_pos _ _ _ X2) as P2. rewrite W, blen_app in P1. destruct LB as [->|LB]; cbn [List.length]; lia.
Qed.
Lemma dollar_run q b inp : splices q -> (forall c z, inp = c :: z -> name_ok [c] = false /\ c <> 123%N) -> reads_piece q b (36%N :: inp) [] (b ++ [36%N]) inp.
Proof.
  intros SP N. apply (variable_next q b inp [] _ inp [36%N] SP eq_refl ltac:(discriminate)); [none|right; rewrite app_length; cbn; change (clen 36) with 1; lia|].
  exists 0. intros code f s parts p0 _ H Q PB LP. exists parts, (set_pos (src_pos s + 1) s).
  split; [exact (str_dollar code _ f s inp b parts H N)|]. split; [exact (at_move_eq code s [36%N] inp _ H eq_refl)|]. rests Q LP. exact LP.
Qed.
Lemma brace_run q b inp : splices q -> starts_with (s2l "$") inp = false -> reads_piece q b (123%N :: inp) [] (b ++ [123%N]) inp.
Proof.
  intros SP N. apply (brace_next q b inp [] _ inp [123%N] SP eq_refl ltac:(discriminate)); [none|right; rewrite app_length; cbn; change (clen 123) with 1; lia|].
  exists 0. intros code f s parts p0 _ H Q PB LP. exists parts, (set_pos (src_pos s + 1) s).
  split; [exact (str_brace code _ f s inp b parts H N)|]. split; [exact (at_move_eq code s [123%N] inp _ H eq_refl)|]. rests Q LP. exact LP.
Qed.
(** an arrow without a name *)
Lemma str_var_arrow code nt lf s v next bs parts p0 : at_ code s (36%N :: v ++ s2l "->" ++ next) -> name_ok v = true ->
  (forall c z, next = c :: z -> name_ok [c] = false) -> p0 + List.length bs <= src_pos s -> late p0 parts ->
  exists parts', str_variable code nt lf bs parts s = TOk ([], parts') (set_pos (src_pos s + 1 + blen v) s) /\
    map fst parts' = map fst parts ++ LexStr.pend bs ++ [TVariable v] /\ late p0 parts'.
Proof.
  intros H V NN L P. destruct (name_facts v V) as (V0 & VF & VD).
  unfold str_variable. unfold tbind at 1. rewrite (adv_bytes_n code s [36%N] _ 1 H eq_refl).
  pose proof (at_move_eq code s [36%N] _ (src_pos s + 1) H eq_refl) as H1.
  rewrite (tbind_input _ _ _ _ H1).
  replace (starts_with_c 123 (v ++ s2l "->" ++ next)) with false.
  2: { destruct v as [|c v]; [congruence|]. inversion VF; subst. cbn. symmetry. apply label_not; auto. }
  unfold tbind at 1. rewrite (label_at code _ v (s2l "->" ++ next) H1 V0 VF VD eq_refl). cbn [src_pos set_pos]. rewrite set_pos2.
  pose proof (at_move code _ v _ H1) as H2. cbn [src_pos set_pos] in H2. rewrite set_pos2 in H2.
  rewrite (tbind_input _ _ _ _ H2).
  replace (starts_with_c 91 (s2l "->" ++ next)) with false by reflexivity.
  rewrite starts_with_app. unfold tbind at 1. unfold tbind at 1, input_pos at 1. unfold tbind at 1.
  rewrite (adv_bytes_n code _ (s2l "->") next 2 H2 eq_refl). cbn [src_pos set_pos]. rewrite set_pos2.
  pose proof (at_move code _ _ _ H2) as H3. cbn [src_pos set_pos] in H3. rewrite set_pos2 in H3. change (blen (s2l "->")) with 2 in H3.
  assert (HL : head_is (fun c => is_label_char c && negb (is_digit c)) next = false).
  { destruct next as [|c z]; [reflexivity|]. specialize (NN c z eq_refl). cbn in NN |- *. rewrite andb_true_r in NN. rewrite name_label in NN. exact NN. }
  unfold tbind at 1. rewrite (label_none code _ next H3 HL). unfold tbind at 1, put_pos at 1. rewrite set_pos2. unfold tret at 1. cbn [sp_start sp_end mk_span].
  unfold tbind at 1, tsub. destruct (Nat.leb_spec 1 (src_pos s + 1)); [|lia]. unfold tret at 1.
  replace (src_pos s + 1 - 1) with (src_pos s) by lia.
  destruct (flush_ok bs parts (src_pos s) (set_pos (src_pos s + 1 + blen v) s) p0 L P) as (parts' & F1 & F2 & F3).
  unfold tbind. rewrite F1. unfold tret. eexists. split; [reflexivity|]. rewrite app_nil_r.
  split; [rewrite app_assoc, <- F2; apply map_app|]. apply Forall_app. split; auto. constructor; auto. cbn. lia.
Qed.
Lemma variable_run q v b l inp : splices q -> Literal b l -> name_ok v = true -> ends_word inp = true -> starts_with (s2l "[") inp = false ->
    (forall c z, inp = s2l "->" ++ c :: z -> name_ok [c] = false) -> reads_piece q b (36%N :: v ++ inp) (l ++ [TVariable v]) [] inp.
Proof.
  intros SP L N E A B. apply literal_pend in L. subst l.
  apply (variable_next q b (v ++ inp) _ [] inp (36%N :: v) SP eq_refl ltac:(discriminate)).
  { intros X. apply in_app_or in X. destruct X as [X|[X|[]]]; [exact (pend_no_end b X)|discriminate]. }
  { auto. }
  exists 0. intros code f s parts p0 _ H Q PB LP.
  assert (X : exists parts', str_variable code (next_token code f) f b parts s = TOk ([], parts') (set_pos (src_pos s + 1 + blen v) s) /\
    map fst parts' = map fst parts ++ LexStr.pend b ++ [TVariable v] /\ late p0 parts').
  { destruct (starts_with (s2l "->") inp) eqn:AR; [|exact (str_var code (next_token code f) f s v inp b parts p0 H N E A AR PB LP)].
    apply starts_with_iff in AR. destruct AR as (z & ->). apply (str_var_arrow code _ f s v z b parts p0 H N); [|exact PB|exact LP].
    intros c y ->. exact (B c y eq_refl). }
  destruct X as (parts' & Q1 & Q2 & Q3).
  exists parts', (set_pos (src_pos s + 1 + blen v) s). split; [exact Q1|].
  split; [exact (at_move_eq code s (36%N :: v) inp (src_pos s + 1 + blen v) H ltac:(cbn; change (clen 36) with 1; lia))|].
  repeat (split; [reflexivity || exact Q|]). split; [rewrite Q2; reflexivity|exact Q3].
Qed.
Lemma property_run q v p b l inp : splices q -> Literal b l -> name_ok v = true -> name_ok p = true -> ends_word inp = true ->
  reads_piece q b (36%N :: v ++ s2l "->" ++ p ++ inp) (l ++ [TVariable v; Kw KObjectOp; TString p]) [] inp.
Proof.
  intros SP L N N2 E. apply literal_pend in L. subst l.
  assert (W : 36%N :: v ++ s2l "->" ++ p ++ inp = (36%N :: v ++ s2l "->" ++ p) ++ inp) by (cbn [app]; rewrite <- !app_assoc; reflexivity).
  apply (variable_next q b (v ++ s2l "->" ++ p ++ inp) _ [] inp _ SP W ltac:(discriminate)).
  { intros X. apply in_app_or in X. destruct X as [X|[X|[X|[X|[]]]]]; [exact (pend_no_end b X)|discriminate..]. }
  { auto. }
  exists 0. intros code f s parts p0 _ H Q PB LP.
  destruct (str_prop code (next_token code f) f s v p inp b parts p0 H N N2 E PB LP) as (parts' & Q1 & Q2 & Q3).
  exists parts', (set_pos (src_pos s + 1 + blen v + 2 + blen p) s). split; [exact Q1|].
  split.
  { rewrite W in H. apply (at_move_eq code s _ inp _ H). cbn [blen]. rewrite !blen_app. change (clen 36) with 1. change (blen (s2l "->")) with 2. lia. }
  repeat (split; [reflexivity || exact Q|]). split; [rewrite Q2; reflexivity|exact Q3].
Qed.

(** ** Code inside a string *)
(** the loop over the tokens of the code: it ends with the tokens [toks], in a state that satisfies [P] *)
Definition block_done (inp : str) (toks : list token) (P : str -> tst -> Prop) : Prop :=
  exists F, forall code f s n acc, F <= f -> F <= n -> at_ code s inp -> lmode s = LInScripting -> lstack s = [LDoNothing] -> queue s = [] ->
  exists ts sf, block_loop (next_token code f) n acc s = TOk (acc ++ ts) sf /\ map fst ts = toks /\ late (src_pos s) ts /\ P code sf /\ queue sf = [].
Lemma block_brace inp toks r : lexg (at_brace r) LInScripting [LDoNothing] inp toks -> block_done inp toks (fun code s => at_ code s r).
Proof.
  intros (F & R). exists (S (F + S (List.length toks))). intros code f s n acc LF LN H M ST Q. fuel f.
  destruct (R code f s ltac:(lia) H M ST Q) as (ts & RR & MT & LT).
  assert (L : List.length ts = List.length toks) by (rewrite <- MT; symmetry; apply map_length).
  destruct (block_run code f F r s ts RR ltac:(lia) n acc ltac:(lia)) as (sf & A & B & C). exists ts, sf. auto.
Qed.
Lemma block_ends x code f F s ts : runz code f F (ends x code) s ts -> F <= f -> forall n acc, List.length ts < n ->
  match x with
  | Panics => exists p, block_loop (next_token code (S f)) n acc s = TPanic p
  | Hangs => block_loop (next_token code (S f)) n acc s = TFuel
  | Reports c from _ => exists sf, block_loop (next_token code (S f)) n acc s = TOk (acc ++ ts) sf /\ src_pos sf = blen code - blen from + skipped c /\ queue sf = []
  end.
Proof.
  induction 1 as [s o EO X|s t s' ts X NE R IH]; intros LF n acc LN; (destruct n as [|n]; [lia|]);
    cbn [block_loop]; change (next_token code (S f) s) with (nt_loop code (next_token code f) f f s).
  - rewrite X by lia. destruct x; cbn in EO; [destruct EO as (p & ->); eauto|rewrite EO; reflexivity|destruct EO as (sf & -> & EP)]. rewrite app_nil_r. eauto.
  - rewrite X by lia. specialize (IH LF n (acc ++ [t]) ltac:(cbn in LN; lia)). rewrite <- app_assoc in IH. exact IH.
Qed.
Lemma block_report inp toks c from len : lexg (ends (Reports c from len)) LInScripting [LDoNothing] inp toks ->
  block_done inp toks (fun code s => src_pos s = blen code - blen from + skipped c).
Proof.
  intros (F & R). exists (S (F + S (List.length toks))). intros code f s n acc LF LN H M ST Q. fuel f.
  destruct (R code f s ltac:(lia) H M ST Q) as (ts & RR & MT & LT).
  assert (L : List.length ts = List.length toks) by (rewrite <- MT; symmetry; apply map_length).
  destruct (block_ends _ code f F s ts RR ltac:(lia) n acc ltac:(lia)) as (sf & A & B & C). exists ts, sf. auto.
Qed.
(** HTML up to the end of the source *)
Definition eoh (code : str) (o : tout tokspan) : Prop := exists s, o = TOk (end_token code) s /\ lmode s = LDone /\ queue s = [].
Lemma g_eoh st : lexg eoh LInitial st [] [].
Proof.
  exists 1. intros code f s L H M ST Q. exists []. split; [|split; [reflexivity|constructor]].
  eapply runz_end; [|intros k K; destruct k as [|k]; [lia|]; rewrite nt_scan by congruence; unfold scan; rewrite M, (html_end code s H); reflexivity].
  eexists. split; [reflexivity|]. split; [reflexivity|exact Q].
Qed.
Lemma block_eoh code f F s ts : runz code f F (eoh code) s ts -> F <= f -> 2 <= f -> forall n acc, S (List.length ts) < n ->
  exists sf, block_loop (next_token code (S f)) n acc s = TOk (acc ++ ts ++ [end_token code]) sf /\ queue sf = [].
Proof.
  induction 1 as [s o EO X|s t s' ts X NE R IH]; intros LF L2 n acc LN; (destruct n as [|n]; [lia|]);
    cbn [block_loop]; change (next_token code (S f) s) with (nt_loop code (next_token code f) f f s).
  - rewrite X by lia. destruct EO as (s' & -> & M & Q). destruct n as [|n]; [cbn in LN; lia|]. cbn [block_loop app].
    change (next_token code (S f) s') with (nt_loop code (next_token code f) f f s'). destruct f as [|[|f]]; [lia|lia|].
    rewrite nt_scan by congruence. unfold scan. rewrite M. destruct (restart s') eqn:RS.
    + rewrite nt_scan by (cbn; congruence). unfold scan. cbn [lmode set_restart]. rewrite M. cbn [restart set_restart]. eexists. split; [reflexivity|exact Q].
    + eexists. split; [reflexivity|exact Q].
  - rewrite X by lia. destruct (IH LF L2 n (acc ++ [t]) ltac:(cbn in LN; lia)) as (sf & A & B). rewrite <- app_assoc in A. exists sf. split; [exact A|exact B].
Qed.
Lemma block_html inp toks : lexg eoh LInScripting [LDoNothing] inp toks -> block_done inp (toks ++ [Kw KEnd]) (fun _ _ => True).
Proof.
  intros (F & R). exists (S (S (S (F + S (List.length toks))))). intros code f s n acc LF LN H M ST Q. fuel f.
  destruct (R code f s ltac:(lia) H M ST Q) as (ts & RR & MT & LT).
  assert (L : List.length ts = List.length toks) by (rewrite <- MT; symmetry; apply map_length).
  destruct (block_eoh code f F s ts RR ltac:(lia) ltac:(lia) n acc ltac:(lia)) as (sf & A & B). exists (ts ++ [end_token code]), sf.
  split; [exact A|]. split; [unfold tokspan in *; rewrite map_app, MT; reflexivity|]. split; [|auto].
  apply Forall_app. split; [exact LT|]. constructor; [|constructor]. cbn. pose proof (at_pos _ _ _ H). lia.
Qed.
Definition eof (code : str) (o : tout tokspan) : Prop := exists t s, o = TOk t s /\ at_ code s [] /\ lmode s = LInScripting /\ queue s = [].
Lemma scan_eof code f s k : at_ code s [] -> lmode s = LInScripting -> nt_loop code (next_token code f) f (S k) s = TOk (end_token code) s.
Proof.
  intros H M. rewrite nt_scan by congruence. unfold scan. rewrite M. unfold in_scripting_token. unfold tbind at 1, whitespace. rewrite (tbind_input _ _ _ _ H).
  cbn [whitespace_loop]. rewrite (tbind_input _ _ _ _ H). reflexivity.
Qed.
Lemma g_eof st : lexg eof LInScripting st [] [].
Proof.
  exists 1. intros code f s LF H M ST Q. exists []. split; [|split; [reflexivity|constructor]].
  eapply (runz_end _ _ _ _ s (TOk (end_token code) s)); [exists (end_token code), s; auto|]. intros k K. fuel k. apply scan_eof; assumption.
Qed.
Lemma block_eof code f F s ts : runz code f F (eof code) s ts -> F <= f -> 1 <= f -> forall n acc, block_loop (next_token code (S f)) n acc s = TFuel.
Proof.
  induction 1 as [s o EO X|s t s' ts X NE R IH]; intros LF L1 n acc; (destruct n as [|n]; [reflexivity|]);
    cbn [block_loop]; change (next_token code (S f) s) with (nt_loop code (next_token code f) f f s).
  - rewrite X by lia. destruct EO as (t & s' & -> & H & M & Q). generalize (acc ++ [t]) as acc'. clear - H M L1.
    induction n as [|n IH]; intros acc; [reflexivity|]. cbn [block_loop]. change (next_token code (S f) s') with (nt_loop code (next_token code f) f f s').
    destruct f as [|f]; [lia|]. rewrite scan_eof by assumption. apply IH.
  - rewrite X by lia. apply IH; assumption.
Qed.
(** [str_block] up to the loop *)
Lemma block_enter code f s inp bs parts (req : bool) : at_ code s (123%N :: inp) -> (req = true -> starts_with_c 36 inp = true) ->
  let s1 := set_pos (src_pos s + 1) s in let s2 := set_stack [LDoNothing] (set_mode LInScripting s1) in
  at_ code s2 inp /\
  str_block code (next_token code f) f bs parts req s =
  (toks <- block_loop (next_token code f) f [(Kw KCurlyBracesOpen, mk_span (src_pos s) (src_pos s + 1))] ;;
    match List.last toks (Kw KEnd, span_new) with
    | (Kw KCurlyBracesClose, _) =>
      start <- tsub (src_pos s1) 1 ;;
      parts <- flush bs parts start ;;
      s <- tget ;;
      tput (set_stack (lstack s1) (set_mode (lmode s1) s)) ;;;
      tret ([], parts ++ toks)
    | _ => trestore s1 ;;; tret (bs, parts)
    end) s2.
Proof.
  intros H RQ s1 s2. pose proof (at_move_eq code s [123%N] inp (src_pos s + 1) H eq_refl) as H1. fold s1 in H1.
  split; [eapply at_same; [|exact H1]; reflexivity|].
  unfold str_block. unfold tbind at 1. rewrite (adv_bytes_n code s [123%N] inp 1 H eq_refl). fold s1. rewrite (tbind_input _ _ _ _ H1).
  replace (starts_with_c 36 inp || negb req) with true by (destruct req; [rewrite RQ by reflexivity; reflexivity|rewrite orb_true_r; reflexivity]).
  unfold tbind at 1, tget at 1. unfold tbind at 1, tput at 1. unfold tbind at 1, input_pos at 1. fold s2.
  unfold tbind at 1, tsub at 1. change (src_pos s2) with (src_pos s + 1). destruct (Nat.leb_spec 1 (src_pos s + 1)) as [_|]; [|lia]. unfold tret at 1.
  replace (src_pos s + 1 - 1) with (src_pos s) by lia. reflexivity.
Qed.
Lemma last_fst (x : tokspan) ts toks : map fst ts = toks -> fst x <> Kw KCurlyBracesClose ->
  (fst (List.last (x :: ts) (Kw KEnd, span_new)) = Kw KCurlyBracesClose <-> List.last toks (Kw KEnd) = Kw KCurlyBracesClose).
Proof.
  intros <- NX. destruct ts as [|t0 ts0]; [cbn; split; [contradiction|discriminate]|].
  destruct (exists_last (l := t0 :: ts0)) as (l & t & EL); [discriminate|]. rewrite EL in *.
  change (x :: l ++ [t]) with ((x :: l) ++ [t]). rewrite last_last. unfold tokspan in *. rewrite map_app. cbn [map]. rewrite last_last. reflexivity.
Qed.
(** the code ends with a brace *)
Definition block_takes (inp : str) (toks : list token) (P : str -> tst -> Prop) : Prop :=
  exists F, forall code f s bs parts p0 (req : bool), F <= f -> at_ code s (123%N :: inp) -> (req = true -> starts_with_c 36 inp = true) ->
  queue s = [] -> p0 + List.length bs <= src_pos s -> late p0 parts ->
  exists sf pb ts, str_block code (next_token code f) f bs parts req s = TOk ([], pb ++ (Kw KCurlyBracesOpen, mk_span (src_pos s) (src_pos s + 1)) :: ts) (set_stack (lstack s) (set_mode (lmode s) sf)) /\
    P code sf /\ queue sf = [] /\ map fst pb = map fst parts ++ LexStr.pend bs /\ late p0 pb /\ map fst ts = toks /\ late p0 ts /\ (bs = [] -> pb = parts).
Lemma block_take inp toks P : block_done inp toks P -> List.last toks (Kw KEnd) = Kw KCurlyBracesClose -> block_takes inp toks P.
Proof.
  intros (F & R) LA. exists F. intros code f s bs parts p0 req LF H RQ Q PB LP.
  destruct (block_enter code f s inp bs parts req H RQ) as [H2 ->]. cbv zeta.
  match goal with |- context [block_loop _ _ [?y]] => set (x := y) in * end.
  match type of H2 with at_ _ ?s2 _ => destruct (R code f s2 f [x] LF LF H2 eq_refl eq_refl Q) as (ts & sf & B & M & LT & PS & QS) end.
  destruct (flush_ok bs parts (src_pos s) sf p0 PB LP) as (pb & F1 & F2 & F3).
  exists sf, pb, ts. split; [|split; [exact PS|split; [exact QS|split; [exact F2|split; [exact F3|split; [exact M|split; [eapply late_weak; [|exact LT]; cbn; lia|]]]]]]].
  2: { intros ->. cbn in F1. unfold tret in F1. injection F1 as <-. reflexivity. }
  unfold tbind at 1. rewrite B. cbn [app].
  pose proof (proj2 (last_fst x ts toks M ltac:(discriminate)) LA) as LX.
  unfold tokspan in *. destruct (List.last (x :: ts) (Kw KEnd, span_new)) as [t sp] eqn:EL. cbn [fst] in LX. subst t.
  unfold tbind at 1, tsub at 1. cbn [src_pos set_pos]. destruct (Nat.leb_spec 1 (src_pos s + 1)) as [_|]; [|lia]. unfold tret at 1.
  replace (src_pos s + 1 - 1) with (src_pos s) by lia. unfold tbind at 1. rewrite F1. reflexivity.
Qed.
(** the code does not end with a brace *)
Definition block_drops (inp : str) : Prop :=
  exists F, forall code f s bs parts (req : bool), F <= f -> at_ code s (123%N :: inp) -> (req = true -> starts_with_c 36 inp = true) -> queue s = [] ->
  exists s', str_block code (next_token code f) f bs parts req s = TOk (bs, parts) s' /\ at_ code s' inp /\ lmode s' = lmode s /\ lstack s' = lstack s /\ queue s' = [].
Lemma block_drop inp toks P : block_done inp toks P -> List.last toks (Kw KEnd) <> Kw KCurlyBracesClose -> block_drops inp.
Proof.
  intros (F & R) LA. exists F. intros code f s bs parts req LF H RQ Q.
  pose proof (at_move_eq code s [123%N] inp (src_pos s + 1) H eq_refl) as H1.
  destruct (block_enter code f s inp bs parts req H RQ) as [H2 ->]. cbv zeta.
  match goal with |- context [block_loop _ _ [?y]] => set (x := y) in * end.
  match type of H2 with at_ _ ?s2 _ => destruct (R code f s2 f [x] LF LF H2 eq_refl eq_refl Q) as (ts & sf & B & M & LT & PS & QS) end.
  exists (restore (set_pos (src_pos s + 1) s) sf). split; [|split; [eapply at_same; [|exact H1]; reflexivity|split; [reflexivity|split; [reflexivity|exact QS]]]].
  unfold tbind at 1. rewrite B. cbn [app].
  assert (LX : fst (List.last (x :: ts) (Kw KEnd, span_new)) <> Kw KCurlyBracesClose) by (intros E; apply LA, (last_fst x ts toks M ltac:(discriminate)), E).
  unfold tokspan in *. destruct (List.last (x :: ts) (Kw KEnd, span_new)) as [t sp] eqn:EL. cbn [fst] in LX.
  destruct t as [k| | | | | | | |]; try reflexivity. destruct k; try reflexivity. congruence.
Qed.
(** the same behind a dollar sign *)
Lemma dollar_enter code f s inp b parts p0 : at_ code s (36%N :: 123%N :: inp) -> p0 + List.length b <= src_pos s -> late p0 parts ->
  exists pb, at_ code (set_pos (src_pos s + 1) s) (123%N :: inp) /\ str_variable code (next_token code f) f b parts s =
  (r <- str_block code (next_token code f) f [] pb false ;;
    let (bs', parts') := r in
    match nth_error parts' (List.length pb) with
    | None => tpanic PIndex
    | Some (Kw KCurlyBracesOpen, sp) =>
      st <- tsub (sp_start sp) 1 ;;
      tret (bs', firstn (List.length pb) parts' ++ (Kw KDollarCurlyBracesOpen, set_start st sp) :: skipn (S (List.length pb)) parts')
    | Some _ => tpanic PAssert
    end) (set_pos (src_pos s + 1) s).
Proof.
  intros H PB LP. pose proof (at_move_eq code s [36%N] (123%N :: inp) (src_pos s + 1) H eq_refl) as H1.
  destruct (flush_ok b parts (src_pos s) (set_pos (src_pos s + 1) s) p0 PB LP) as (pb & F1 & F2 & F3). exists pb. split; [exact H1|].
  unfold str_variable. unfold tbind at 1. rewrite (adv_bytes_n code s [36%N] _ 1 H eq_refl). rewrite (tbind_input _ _ _ _ H1).
  change (starts_with_c 123 (123%N :: inp)) with true. unfold tbind at 1, input_pos at 1. unfold tbind at 1, tsub at 1. cbn [src_pos set_pos].
  destruct (Nat.leb_spec 1 (src_pos s + 1)) as [_|]; [|lia]. unfold tret at 1. replace (src_pos s + 1 - 1) with (src_pos s) by lia.
  unfold tbind at 1. rewrite F1. reflexivity.
Qed.
Lemma dollar_takes inp toks P : block_takes inp toks P -> exists F, forall code f s bs parts p0, F <= f -> at_ code s (36%N :: 123%N :: inp) ->
  queue s = [] -> p0 + List.length bs <= src_pos s -> late p0 parts ->
  exists sf parts', str_variable code (next_token code f) f bs parts s = TOk ([], parts') (set_stack (lstack s) (set_mode (lmode s) sf)) /\
    P code sf /\ queue sf = [] /\ map fst parts' = map fst parts ++ LexStr.pend bs ++ Kw KDollarCurlyBracesOpen :: toks /\ late p0 parts'.
Proof.
  intros (F & G). exists F. intros code f s bs parts p0 LF H Q PB LP.
  pose proof (at_move_eq code s [36%N] (123%N :: inp) (src_pos s + 1) H eq_refl) as H1.
  destruct (flush_ok bs parts (src_pos s) (set_pos (src_pos s + 1) s) p0 PB LP) as (pb & F1 & F2 & F3).
  destruct (G code f (set_pos (src_pos s + 1) s) [] pb p0 false LF H1 ltac:(discriminate) Q ltac:(cbn; lia) F3) as (sf & pb' & ts & X1 & X2 & X3 & X4 & X5 & X6 & X7 & X8).
  specialize (X8 eq_refl). subst pb'.
  exists sf, (pb ++ (Kw KDollarCurlyBracesOpen, set_start (src_pos s) (mk_span (src_pos s + 1) (src_pos s + 1 + 1))) :: ts).
  split; [|split; [exact X2|split; [exact X3|split]]].
  - unfold str_variable. unfold tbind at 1. rewrite (adv_bytes_n code s [36%N] _ 1 H eq_refl). rewrite (tbind_input _ _ _ _ H1).
    change (starts_with_c 123 (123%N :: inp)) with true. unfold tbind at 1, input_pos at 1. unfold tbind at 1, tsub at 1. cbn [src_pos set_pos].
    destruct (Nat.leb_spec 1 (src_pos s + 1)) as [_|]; [|lia]. unfold tret at 1. replace (src_pos s + 1 - 1) with (src_pos s) by lia.
    unfold tbind at 1. rewrite F1. unfold tbind at 1. rewrite X1. cbn [src_pos set_pos].
    unfold tokspan in *. rewrite nth_error_app2, Nat.sub_diag by apply Nat.le_refl. cbn [nth_error]. unfold tbind at 1, tsub at 1. cbn [sp_start mk_span].
    destruct (Nat.leb_spec 1 (src_pos s + 1)) as [_|]; [|lia]. unfold tret. replace (src_pos s + 1 - 1) with (src_pos s) by lia.
    f_equal. f_equal. rewrite firstn_app, firstn_all, Nat.sub_diag. cbn [firstn]. rewrite app_nil_r. f_equal. f_equal.
    replace (S (List.length pb)) with (List.length (pb ++ [(Kw KCurlyBracesOpen, mk_span (src_pos s + 1) (src_pos s + 1 + 1))])) by (rewrite app_length; cbn; lia).
    change (pb ++ (?a, ?b) :: ts) with (pb ++ [(a, b)] ++ ts). rewrite app_assoc, skipn_app, skipn_all, Nat.sub_diag. reflexivity.
  - unfold tokspan in *. rewrite map_app. cbn [map fst]. rewrite F2, X6, <- app_assoc. reflexivity.
  - apply Forall_app. split; [exact F3|]. constructor; [cbn; lia|exact X7].
Qed.
(** the piece: code in braces up to [r] *)
Lemma code_piece q (dollar : bool) b l inp toks r w : splices q -> Literal b l -> (dollar = false -> starts_with (s2l "$") inp = true) ->
  block_takes inp toks (fun code s => at_ code s r) -> ~ In (Kw KEnd) toks -> inp = w ++ r ->
  reads_piece q b (s2l (fst (opener dollar)) ++ inp) (l ++ Kw (snd (opener dollar)) :: toks) [] r.
Proof.
  intros SP L D T N W. apply literal_pend in L. subst l.
  assert (NE : ~ In (Kw KEnd) (LexStr.pend b ++ Kw (snd (opener dollar)) :: toks)).
  { intros X. apply in_app_or in X. destruct X as [X|[X|X]]; [exact (pend_no_end b X)|destruct dollar; discriminate|contradiction]. }
  destruct dollar; cbn [opener fst snd] in *.
  - destruct (dollar_takes _ _ _ T) as (F & G). change (s2l "${" ++ inp) with (36%N :: 123%N :: inp).
    apply (variable_next q b (123%N :: inp) _ [] r (36%N :: 123%N :: w) SP ltac:(rewrite W; reflexivity) ltac:(discriminate) NE); [auto|].
    exists F. intros code f s parts p0 LF H Q PB LP. destruct (G code f s b parts p0 LF H Q PB LP) as (sf & parts' & X1 & X2 & X3 & X4 & X5).
    exists parts', (set_stack (lstack s) (set_mode (lmode s) sf)). split; [exact X1|]. split; [eapply at_same; [|exact X2]; reflexivity|]. split; [reflexivity|]. split; [reflexivity|]. auto.
  - destruct T as (F & G). change (s2l "{" ++ inp) with (123%N :: inp).
    apply (brace_next q b inp _ [] r (123%N :: w) SP ltac:(rewrite W; reflexivity) ltac:(discriminate) NE); [auto|].
    exists F. intros code f s parts p0 LF H Q PB LP.
    destruct (G code f s b parts p0 true LF H ltac:(intros _; rewrite <- starts1; apply D; reflexivity) Q PB LP) as (sf & pb & ts & X1 & X2 & X3 & X4 & X5 & X6 & X7 & X8).
    eexists. exists (set_stack (lstack s) (set_mode (lmode s) sf)). split; [exact X1|]. split; [eapply at_same; [|exact X2]; reflexivity|]. split; [reflexivity|]. split; [reflexivity|].
    split; [exact X3|]. split.
    + unfold tokspan in *. rewrite map_app. cbn [map fst]. rewrite X4, X6, <- app_assoc. reflexivity.
    + apply Forall_app. split; [exact X5|]. constructor; [cbn; lia|exact X7].
Qed.
Lemma lost_piece q b inp : splices q -> starts_with (s2l "$") inp = true -> block_drops inp -> reads_piece q b (123%N :: inp) [] b inp.
Proof.
  intros SP D (F & G). apply (brace_next q b inp [] b inp [123%N] SP eq_refl ltac:(discriminate)); [none|right; lia|].
  exists F. intros code f s parts p0 LF H Q PB LP.
  destruct (G code f s b parts true LF H ltac:(intros _; rewrite <- starts1; exact D) Q) as (s' & X1 & X2 & X3 & X4 & X5).
  exists parts, s'. split; [exact X1|]. split; [exact X2|]. split; [exact X3|]. split; [exact X4|]. split; [exact X5|]. split; [rewrite app_nil_r; reflexivity|exact LP].
Qed.
