(** * TextTotal: the rules of SpecText leave no source out (proofs for C43) *)
From Verif Require Import Base Tokens Lexer Spec SpecMixed SpecText LexBase LexSteps LexWords LexTok LexNum LexStr LexMore LexFacts LexProg TextTok TextProof TextMain UnreadInside TextMain2.
From Coq Require Import String Ascii.
Local Open Scope list_scope.

Definition ended (top : bool) (d : nat) (r : str) : Prop :=
  r = [] \/ (exists w, r = s2l "?>" ++ w /\ no_tag w) \/ (exists x, Stuck top d r x) \/ (top = false /\ d = 0 /\ exists z, r = s2l "}" ++ z).
Definition total (top : bool) (d : nat) (inp : str) : Prop := exists ts d' r, Text d inp ts d' r /\ ended top d' r.
Definition shorter (inp r : str) : Prop := exists w, w <> [] /\ inp = w ++ r.
Lemma total_more top d inp d1 r ts : (forall us d2 q, Text d1 r us d2 q -> Text d inp (ts ++ us) d2 q) -> total top d1 r -> total top d inp.
Proof. intros H (us & d2 & q & T & E). exists (ts ++ us), d2, q. auto. Qed.
Lemma total_ended top d inp : ended top d inp -> total top d inp.
Proof. intros H. exists [], d, inp. split; [constructor|exact H]. Qed.
Lemma total_stuck top d inp x : Stuck top d inp x -> total top d inp.
Proof. intros H. apply total_ended. right. right. left. eauto. Qed.
Lemma shorter_app x w r : shorter x (w ++ r) -> shorter x r.
Proof. intros (v & N & ->). exists (v ++ w). split; [destruct v; [congruence|discriminate]|rewrite app_assoc; reflexivity]. Qed.
Lemma shorter_len x r : shorter x r -> List.length r < List.length x.
Proof. intros (v & N & ->). rewrite app_length. destruct v; [congruence|]. cbn. lia. Qed.

(** ** Splitting texts *)
Lemma split_at (a b : N) (x : str) : (forall u v, x <> u ++ [a; b] ++ v) \/ exists w r, x = w ++ [a; b] ++ r /\ forall u v, w <> u ++ [a; b] ++ v.
Proof.
  induction x as [|c x IH]; [left; intros [|? ?] v; discriminate|].
  destruct (starts_with [a; b] (c :: x)) eqn:S.
  { apply starts_with_iff in S. destruct S as (r & E). right. exists [], r. split; [exact E|]. intros [|? ?] v; discriminate. }
  assert (NS : forall v, c :: x <> [a; b] ++ v) by (intros v E; rewrite E, starts_with_app in S; discriminate).
  destruct IH as [N|(w & r & E & N)].
  - left. intros [|y u] v E; [apply (NS v E)|]. injection E as _ E. exact (N u v E).
  - right. exists (c :: w), r. split; [rewrite E; reflexivity|]. intros [|y u] v F.
    + cbn in F. apply (NS (v ++ [a; b] ++ r)). rewrite E. change (c :: w ++ [a; b] ++ r) with ((c :: w) ++ [a; b] ++ r). rewrite F. reflexivity.
    + injection F as _ F. exact (N u v F).
Qed.
Lemma split_line x : exists w r, x = w ++ r /\ ~ In 10%N w /\ (r = [] \/ exists z, r = 10%N :: z).
Proof.
  induction x as [|c x (w & r & -> & N & R)]; [exists [], []; cbn; tauto|].
  destruct (N.eqb_spec c 10) as [->|C]; [exists [], (10%N :: w ++ r); split; [reflexivity|split; [intros []|eauto]]|].
  exists (c :: w), r. split; [reflexivity|]. split; [intros [X|X]; congruence|exact R].
Qed.
Lemma split_white x : exists w r, x = w ++ r /\ white w = true /\ forall c z, r = c :: z -> white [c] = false.
Proof.
  induction x as [|c x (w & r & -> & W & R)]; [exists [], []; split; [reflexivity|split; [reflexivity|discriminate]]|].
  destruct (white [c]) eqn:C; [|exists [], (c :: w ++ r); split; [reflexivity|split; [reflexivity|]]; intros ? ? E; injection E as <- _; exact C].
  exists (c :: w), r. split; [reflexivity|]. split; [|exact R]. cbn in *. rewrite andb_true_r in C. rewrite C. exact W.
Qed.
Lemma split_plain q x : exists w r, x = w ++ r /\ Forall (plain_char q) w /\ forall c z, r = c :: z -> ~ plain_char q c.
Proof.
  induction x as [|c x (w & r & -> & W & R)]; [exists [], []; split; [reflexivity|split; [constructor|discriminate]]|].
  destruct (special q c) eqn:C.
  - exists [], (c :: w ++ r). split; [reflexivity|]. split; [constructor|]. intros ? ? E. injection E as <- _. rewrite plain_special. congruence.
  - exists (c :: w), r. split; [reflexivity|]. split; [constructor; [apply plain_special, C|exact W]|exact R].
Qed.
Lemma split_base base x : In base [16; 2]%N -> exists w ds r, x = w ++ r /\ in_base base w ds /\ no_base base r.
Proof.
  intros B. induction x as [|c x (w & ds & r & -> & W & R)]; [exists [], [], []; split; [reflexivity|split; [constructor|discriminate]]|].
  destruct (is_base base c) eqn:C.
  - destruct (is_digit_of base c B C) as (up & d & D & E). exists (c :: w), (d :: ds), r. split; [reflexivity|]. split; [constructor; [eauto|exact W]|exact R].
  - exists [], [], (c :: w ++ r). split; [reflexivity|]. split; [constructor|]. intros c' z up d E D X. injection E as <- _. rewrite X in C.
    destruct B as [<-|[<-|[]]]; [pose proof (base_digit "0x" 16 up d ltac:(cbn; tauto) D)|pose proof (base_digit "0b" 2 up d ltac:(cbn; tauto) D)]; congruence.
Qed.
Lemma sq_split_n n : forall x, List.length x <= n -> (exists w r, x = w ++ 39%N :: r /\ sq_content w = true) \/ sq_content x = true \/ exists w, x = w ++ [92%N] /\ sq_content w = true.
Proof.
  induction n as [|n IH]; intros x L; (destruct x as [|c x]; [right; left; reflexivity|]); [cbn in L; lia|].
  destruct (N.eqb_spec c 39) as [->|C]; [left; exists [], x; auto|]. destruct (N.eqb_spec c 92) as [->|D].
  - destruct x as [|d x]; [right; right; exists []; auto|]. destruct (IH x) as [(w & r & -> & W)|[W|(w & -> & W)]]; [cbn in L; lia| | |].
    + left. exists (92%N :: d :: w), r. auto.
    + right. left. exact W.
    + right. right. exists (92%N :: d :: w). auto.
  - apply N.eqb_neq in C, D. destruct (IH x) as [(w & r & -> & W)|[W|(w & -> & W)]]; [cbn in L; lia| | |].
    + left. exists (c :: w), r. split; [reflexivity|]. cbn [sq_content]. rewrite C, D. exact W.
    + right. left. cbn [sq_content]. rewrite C, D. exact W.
    + right. right. exists (c :: w). split; [reflexivity|]. cbn [sq_content]. rewrite C, D. exact W.
Qed.
Lemma split_bytes n w : (exists a b, w = a ++ b /\ blen a = n) \/ forall a b, w = a ++ b -> blen a <> n.
Proof.
  revert n. induction w as [|c w IH]; intros n.
  - destruct n as [|n]; [left; exists [], []; auto|]. right. intros [|? ?] b E; [discriminate|discriminate].
  - destruct n as [|n]; [left; exists [], (c :: w); auto|]. destruct (Nat.leb_spec (clen c) (S n)) as [L|L].
    + destruct (IH (S n - clen c)) as [(a & b & -> & E)|N].
      * left. exists (c :: a), b. split; [reflexivity|]. cbn [blen]. lia.
      * right. intros [|y a] b E; [discriminate|]. injection E as <- E. cbn [blen]. intros X. apply (N a b E). lia.
    + right. intros [|y a] b E; [discriminate|]. injection E as <- E. cbn [blen]. lia.
Qed.
Lemma digit_of c : is_digit c = true -> exists d, (d < 10)%N /\ c = digit_char false d.
Proof.
  unfold is_digit. intros H. apply andb_prop in H. destruct H as [A B]. apply N.leb_le in A, B. exists (c - 48)%N. split; [lia|]. unfold digit_char. destruct (N.ltb_spec (c - 48) 10); lia.
Qed.
Lemma digits_of w : Forall (fun c => is_digit c = true) w -> exists ds, Forall (fun d => (d < 10)%N) ds /\ w = map (digit_char false) ds.
Proof.
  induction 1 as [|c w C _ (ds & D & ->)]; [exists []; auto|]. destruct (digit_of c C) as (d & L & ->). exists (d :: ds). split; [constructor; auto|reflexivity].
Qed.
Lemma head_no_digit r : head_is is_digit r = false -> no_digit r.
Proof. intros H c q -> D. cbn in H. rewrite (digit_range c D) in H. discriminate. Qed.
Lemma is_digits w : Forall (fun c => is_digit c = true) w -> digits w.
Proof. apply Forall_impl. intros c H. unfold is_digit in H. apply andb_prop in H. rewrite !N.leb_le in H. exact H. Qed.
Lemma name_cases r : (exists c z, r = c :: z /\ name_ok [c] = true) \/ (forall c z, r = c :: z -> name_ok [c] = false).
Proof. destruct r as [|c z]; [right; discriminate|]. destruct (name_ok [c]) eqn:E; [left; eauto|right]. intros ? ? X. injection X as <- _. exact E. Qed.
Lemma name_head c z : name_ok [c] = true -> exists w r, c :: z = w ++ r /\ name_ok w = true /\ ends_word r = true.
Proof. intros N. apply split_name. cbn in *. rewrite andb_true_r in N. rewrite name_label in N. exact N. Qed.
Lemma literal_some_token b : exists l, Literal b l.
Proof. exists (LexStr.pend b). apply literal_pend. reflexivity. Qed.

(** ** Decisions *)
Lemma doc_dec x : opens_doc x \/ ~ opens_doc x.
Proof.
  assert (H : at_ x tst_init x) by (exists []; split; reflexivity).
  destruct (doc_parse x (next_token x 0) 0 tst_init x H) as [[N _]|(bin & a & ty & tag & nl & inp & s1 & S & _)]; [right; exact N|left].
  exists (match ty with DNowDoc => Now tag | _ => Doc tag end), inp. split; [eapply shape_opened; exact S|]. destruct ty; split; discriminate.
Qed.
Lemma again_inv c r : again (c :: r) -> (48 <= c <= 57)%N \/ (c = 46%N /\ forall x q, r = x :: q -> (48 <= x <= 57)%N) \/ (c = 36%N /\ exists v q, r = v ++ q /\ name_ok v = true) \/
  (In c [34; 39; 96]%N /\ r <> []) \/ (c = 98%N /\ exists d q, r = d :: q /\ In d [34; 39]%N) \/ exists w, In w ["#"; "//"; "/*"]%string /\ starts_with (s2l w) (c :: r) = true.
Proof.
  intros A. remember (c :: r) as x eqn:X. destruct A as [x q L|q L|v q N|x q I N|x q I|w q I]; [| | | | |do 5 right; exists w; split; [exact I|apply starts_with_app]]; injection X as <- <-; eauto 12.
Qed.
Lemma again_dec r : again r \/ ~ again r.
Proof.
  destruct r as [|c r]; [right; intros A; inversion A as [x q L E|q L E|v q NN E|x q I2 NN E|x q I2 E|w q I2 E]; cbn in I2; destruct I2 as [<-|[<-|[<-|[]]]]; discriminate|].
  destruct (is_digit c) eqn:D; [left; apply again_number; unfold is_digit in D; apply andb_prop in D; rewrite !N.leb_le in D; exact D|].
  assert (ND : ~ (48 <= c <= 57)%N) by (intros L; rewrite (digit_range c L) in D; discriminate).
  destruct (existsb (fun w => starts_with (s2l w) (c :: r)) ["#"; "//"; "/*"]%string) eqn:X.
  { apply existsb_exists in X. destruct X as (w & I & X). apply starts_with_iff in X. destruct X as (q & ->). left. apply again_comment, I. }
  assert (NC : forall w, In w ["#"; "//"; "/*"]%string -> starts_with (s2l w) (c :: r) = true -> False).
  { intros w I S. apply not_true_iff_false in X. apply X. apply existsb_exists. eauto. }
  destruct (N.eqb_spec c 46) as [->|N46].
  { destruct r as [|d r]; [left; apply (again_point []); discriminate|]. destruct (is_digit d) eqn:DD.
    - left. apply (again_point (d :: r)). intros c q E. injection E as <- _. unfold is_digit in DD. apply andb_prop in DD. rewrite !N.leb_le in DD. exact DD.
    - right. intros A. destruct (again_inv _ _ A) as [Z|[(_ & L)|[(Z & _)|[(Z & _)|[(Z & _)|(w & I & S)]]]]]; [lia| |lia|cbn in Z; lia|lia|eauto].
      rewrite (digit_range d (L d r eq_refl)) in DD. discriminate. }
  destruct (N.eqb_spec c 36) as [->|N36].
  { destruct (name_cases r) as [(x & z & -> & N)|N].
    - destruct (name_head x z N) as (w & q & -> & W & _). left. apply (again_variable w q W).
    - right. intros A. destruct (again_inv _ _ A) as [Z|[(Z & L)|[(_ & v & q & -> & NV)|[(Z & _)|[(Z & _)|(w & I & S)]]]]]; [lia|lia| |cbn in Z; lia|lia|eauto].
      destruct v as [|x v]; [discriminate|]. specialize (N x _ eq_refl). cbn in NV, N. rewrite andb_true_r in N. rewrite N in NV. discriminate. }
  destruct (in_dec N.eq_dec c [34; 39; 96]%N) as [I|NI].
  { destruct r as [|d r]; [right|left; apply again_quote; [exact I|discriminate]]. intros A. destruct (again_inv _ _ A) as [Z|[(Z & L)|[(Z & L)|[(_ & Z)|[(_ & d & q & Z & _)|(w & I2 & S)]]]]]; try contradiction; try discriminate; eauto. }
  destruct (N.eqb_spec c 98) as [->|N98].
  { assert (G : (exists d q, r = d :: q /\ In d [34; 39]%N) \/ ~ exists d q, r = d :: q /\ In d [34; 39]%N).
    { destruct r as [|d r]; [right; intros (d & q & Z & _); discriminate|]. destruct (in_dec N.eq_dec d [34; 39]%N) as [I|N]; [left; eauto|right]. intros (? & ? & Z & I). injection Z as <- _. contradiction. }
    destruct G as [(d & q & -> & I)|N]; [left; apply again_prefix, I|right]. intros A. destruct (again_inv _ _ A) as [Z|[(Z & L)|[(Z & L)|[(Z & _)|[(_ & Z)|(w & I2 & S)]]]]]; try contradiction; eauto. }
  right. intros A. destruct (again_inv _ _ A) as [Z|[(Z & L)|[(Z & L)|[(Z & _)|[(Z & _)|(w & I2 & S)]]]]]; try contradiction; eauto.
Qed.
Definition is_cast (x : str) : Prop := exists a w b k r, In (w, k) cast_words /\ blanks a /\ blanks b /\ x = cast_text a w b ++ r.
Lemma cast_at x : is_cast (40%N :: x) <-> exists w k r, In (w, k) cast_words /\ skip_blank x = s2l w ++ r /\ exists z, skip_blank r = 41%N :: z.
Proof.
  split.
  - intros (a & w & b & k & r & I & A & B & E). unfold cast_text in E. change (s2l "(") with [40%N] in E. cbn [app] in E. injection E as E. rewrite <- !app_assoc in E. subst x.
    exists w, k, (b ++ s2l ")" ++ r). split; [exact I|]. split; [|exists r; rewrite (skip_blank_app b _ B); reflexivity].
    rewrite (skip_blank_app a _ A). cbn in I. repeat destruct I as [I|I]; try (injection I as <- _; reflexivity). contradiction.
  - intros (w & k & r & I & E & z & Z). destruct (blank_split x) as (a & A & EA & _). destruct (blank_split r) as (b & B & EB & _).
    exists a, w, b, k, z. split; [exact I|]. split; [exact A|]. split; [exact B|]. unfold cast_text. rewrite EA, E, EB, Z, <- !app_assoc. reflexivity.
Qed.
Lemma cast_dec x : is_cast x \/ ~ is_cast x.
Proof.
  destruct x as [|c x]; [right; intros (a & w & b & k & r & _ & _ & _ & E); discriminate|].
  destruct (N.eqb_spec c 40) as [->|C]; [|right; intros (a & w & b & k & r & _ & _ & _ & E); injection E as E; congruence].
  set (ok := fun e : string * kind => starts_with (s2l (fst e)) (skip_blank x) && match skip_blank (skipn (List.length (s2l (fst e))) (skip_blank x)) with 41%N :: _ => true | _ => false end).
  destruct (existsb ok cast_words) eqn:X.
  - left. apply cast_at. apply existsb_exists in X. destruct X as ((w, k) & I & X). unfold ok in X. cbn [fst] in X. apply andb_prop in X. destruct X as [X Y]. apply starts_with_iff in X. destruct X as (r & E).
    exists w, k, r. split; [exact I|]. split; [exact E|]. rewrite E, skipn_app, skipn_all, Nat.sub_diag in Y. cbn [app skipn] in Y. destruct (skip_blank r) as [|y z]; [discriminate|]. exists z. f_equal.
    destruct (N.eq_dec y 41) as [|NE]; [assumption|]. exfalso. revert Y. clear -NE. intros Y.
    assert (G : forall y : N, y <> 41%N -> match y with 41%N => true | _ => false end = false) by (intros [|p] H; [reflexivity|]; repeat (destruct p as [p|p|]; try reflexivity); congruence).
    rewrite (G y NE) in Y. discriminate.
  - right. intros Y. apply cast_at in Y. destruct Y as (w & k & r & I & E & z & Z). apply not_true_iff_false in X. apply X. apply existsb_exists. exists (w, k). split; [exact I|].
    unfold ok. cbn [fst]. rewrite E, starts_with_app, skipn_app, skipn_all, Nat.sub_diag. cbn [app skipn andb]. rewrite Z. reflexivity.
Qed.
(** the longest operator *)
Lemma longest_in (l : list (string * kind)) x : (exists op k, In (op, k) l /\ starts_with (s2l op) x = true) ->
  exists op k, In (op, k) l /\ starts_with (s2l op) x = true /\ forall op' k', In (op', k') l -> starts_with (s2l op') x = true -> List.length (s2l op') <= List.length (s2l op).
Proof.
  induction l as [|(a, ka) l IH]; intros (op & k & I & S); [destruct I|].
  destruct (existsb (fun e => starts_with (s2l (fst e)) x) l) eqn:X.
  - apply existsb_exists in X. destruct X as ((b, kb) & IB & SB). destruct (IH ltac:(eauto)) as (c & kc & IC & SC & M).
    destruct (starts_with (s2l a) x) eqn:SA; [destruct (Nat.leb_spec (List.length (s2l a)) (List.length (s2l c))) as [L|L]|].
    + exists c, kc. split; [right; exact IC|]. split; [exact SC|]. intros o' k' [E|I'] S'; [injection E as <- <-; exact L|eauto].
    + exists a, ka. split; [left; reflexivity|]. split; [exact SA|]. intros o' k' [E|I'] S'; [injection E as <- <-; lia|]. specialize (M o' k' I' S'). lia.
    + exists c, kc. split; [right; exact IC|]. split; [exact SC|]. intros o' k' [E|I'] S'; [injection E as <- <-; congruence|eauto].
  - assert (N : forall o k0, In (o, k0) l -> starts_with (s2l o) x = true -> False).
    { intros o k0 I0 S0. apply not_true_iff_false in X. apply X. apply existsb_exists. exists (o, k0). auto. }
    destruct I as [E|I]; [|exfalso; eapply N; eauto]. injection E as -> ->. exists op, k. split; [left; reflexivity|]. split; [exact S|]. intros o' k' [E|I'] S'; [injection E as <- <-; lia|exfalso; eauto].
Qed.
Lemma head_operator c : (exists op k, In (op, k) operators /\ hd_error (s2l op) = Some c) -> exists op k, In (op, k) operators /\ s2l op = [c].
Proof.
  intros (op & k & I & H).
  assert (G : forallb (fun e : string * kind => match s2l (fst e) with x :: _ => existsb (fun e' : string * kind => match s2l (fst e') with [y] => (x =? y)%N | _ => false end) operators | [] => false end) operators = true) by reflexivity.
  rewrite forallb_forall in G. specialize (G _ I). cbn [fst] in G. destruct (s2l op) as [|x w]; [discriminate|]. injection H as ->. apply existsb_exists in G. destruct G as ((o, k') & I' & E).
  exists o, k'. split; [exact I'|]. cbn [fst] in E. destruct (s2l o) as [|y [|]]; try discriminate. apply N.eqb_eq in E. subst. reflexivity.
Qed.
(** ** Inside strings *)
Lemma pieces_trans q b inp us b1 r1 us1 b2 r2 : Pieces q b inp us b1 r1 -> Pieces q b1 r1 us1 b2 r2 -> Pieces q b inp (us ++ us1) b2 r2.
Proof. induction 1 as [|q b inp ts b1 inp1 us b3 r P Q IH]; intros H; [exact H|]. rewrite <- app_assoc. eapply ps_more; [exact P|apply IH, H]. Qed.
Lemma pieces_one q b inp us b1 r1 : Piece q b inp us b1 r1 -> Pieces q b inp us b1 r1.
Proof. intros H. rewrite <- (app_nil_r us). eapply ps_more; [exact H|constructor]. Qed.
Lemma behind_pieces q inp us b r : Behind q inp us b r -> Pieces q [] inp us b r.
Proof. intros [q' i|q' i us' b0 p ts b' r' P C _]; [constructor|]. eapply pieces_trans; [exact P|apply pieces_one, C]. Qed.
Lemma plain_pieces q w r : Forall (plain_char q) w -> forall b, Pieces q b (w ++ r) [] (b ++ encode w) r.
Proof.
  induction 1 as [|c w [V _] _ IH]; intros b; [cbn; rewrite app_nil_r; constructor|]. change (@nil token) with (@nil token ++ []). 
  replace (b ++ encode (c :: w)) with ((b ++ enc1 c) ++ encode w) by (rewrite <- app_assoc; reflexivity).
  eapply ps_more; [apply pc_char, V|apply IH].
Qed.
Definition next_piece (q : quoting) (b : bytes) (inp : str) : Prop := (exists ts b' r, Piece q b inp ts b' r) \/ exists x, Bad q inp x.
Lemma unknown_from top d r from len : Stuck top d r (Reports Unknown from len) -> exists c z, from = c :: z.
Proof.
  intros H. inversion H; subst; eauto.
  - destruct (s2l p) as [|c p0] eqn:E; [|do 2 eexists; reflexivity]. match goal with I : In _ radixes |- _ => cbn in I; destruct I as [I|[I|[]]]; injection I as <- <-; discriminate end.
  - match goal with B : Bad _ _ _ |- _ => inversion B; subst end. match goal with X : _ \/ _ |- _ => destruct X; discriminate end.
Qed.
Lemma last_brace (ts : list token) : List.last ts (Kw KEnd) = Kw KCurlyBracesClose \/ List.last ts (Kw KEnd) <> Kw KCurlyBracesClose.
Proof. destruct (List.last ts (Kw KEnd)) as [| | | | | | | |k]; try (right; discriminate). destruct k; try (right; discriminate). left. reflexivity. Qed.
Lemma code_step q (dollar : bool) b code : splices q -> (dollar = false -> starts_with (s2l "$") code = true) -> total false 0 code -> next_piece q b (s2l (fst (opener dollar)) ++ code).
Proof.
  intros SP D (ts & d & r & T & [->|[(w & -> & N)|[(x & S)|(_ & -> & z & ->)]]]).
  - right. exists Hangs. eapply bad_open_code; eassumption.
  - destruct dollar; [right; exists Panics; eapply bad_dollar_html; eassumption|left]. exists [], b, code. eapply pc_lost_html; eauto.
  - destruct x as [| |c from len]; [right; exists Panics; eapply bad_code; eauto|right; exists Hangs; eapply bad_code; eauto|].
    destruct (last_brace ts) as [L|L].
    + destruct (literal_some_token b) as (l & LI). assert (R : (exists z, resumes c from z) \/ exists c0 z, c = Unknown /\ from = c0 :: z /\ clen c0 <> 1).
      { destruct c as [what|]; [left; exists from; constructor|]. destruct (unknown_from _ _ _ _ _ S) as (c0 & z & ->). destruct (Nat.eq_dec (clen c0) 1) as [E|E]; [left; exists z; constructor; exact E|right; eauto]. }
      destruct R as [(z & R)|(c0 & z & -> & -> & C)].
      * left. exists (l ++ Kw (snd (opener dollar)) :: ts), [], z. eapply pc_cut; eassumption.
      * right. exists Panics. eapply bad_cut; eassumption.
    + destruct dollar; [right; exists Panics; eapply bad_dollar_code; eassumption|left]. exists [], b, code. eapply pc_lost; eauto.
  - destruct (literal_some_token b) as (l & LI). left. exists (l ++ Kw (snd (opener dollar)) :: ts ++ [Kw KCurlyBracesClose]), [], z. eapply pc_code; eassumption.
Qed.
Lemma brace_step q b z : splices q -> total false 0 z -> next_piece q b (123%N :: z).
Proof.
  intros SP T. destruct (starts_with (s2l "$") z) eqn:S.
  - apply (code_step q false b z SP); auto.
  - left. exists [], (b ++ [123%N]), z. apply (pc_brace q b z SP S).
Qed.
Lemma dollar_step q b z : splices q -> (forall y, z = 123%N :: y -> total false 0 y) -> next_piece q b (36%N :: z).
Proof.
  intros SP T. destruct (name_cases z) as [(c & y & -> & N)|N].
  - destruct (name_head c y N) as (v & r & -> & V & E). destruct (starts_with (s2l "[") r) eqn:SB.
    { apply starts_with_iff in SB. destruct SB as (r' & ->). right. exists Panics. apply (bad_index q v r' SP V). }
    destruct (literal_some_token b) as (l & LI).
    assert (G : (exists p r', r = s2l "->" ++ p ++ r' /\ name_ok p = true /\ ends_word r' = true) \/ forall c z, r = s2l "->" ++ c :: z -> name_ok [c] = false).
    { destruct (starts_with (s2l "->") r) eqn:SA; [|right; intros ? ? X; rewrite X, starts_with_app in SA; discriminate]. apply starts_with_iff in SA. destruct SA as (y' & ->).
      destruct (name_cases y') as [(c' & z' & -> & N')|N']; [|right; intros ? ? X; apply app_inv_head in X; eapply N'; exact X].
      destruct (name_head c' z' N') as (p & r' & -> & P & E'). left. exists p, r'. auto. }
    destruct G as [(p & r' & -> & P & E')|G].
    + left. exists (l ++ [TVariable v; Kw KObjectOp; TString p]), [], r'. apply (pc_property q v p b l r'); assumption.
    + left. exists (l ++ [TVariable v]), [], r. apply (pc_variable q v b l r); assumption.
  - destruct (starts_with [123%N] z) eqn:S.
    + apply starts_with_iff in S. destruct S as (y & ->). apply (code_step q true b y SP); [discriminate|]. apply T. reflexivity.
    + left. exists [], (b ++ [36%N]), z. apply (pc_dollar q b z SP). intros c y ->. split; [eapply N; reflexivity|]. intros ->. discriminate.
Qed.
Lemma ld_dec c : letter_or_digit c \/ ~ letter_or_digit c.
Proof. unfold letter_or_digit. lia. Qed.
Lemma hex_dec c : (exists up d, (d < 16)%N /\ c = digit_char up d) \/ forall up v, (v < 16)%N -> c <> digit_char up v.
Proof.
  destruct (is_hex c) eqn:H; [left; apply hex_is, H|right]. intros up v V ->. pose proof (base_digit "0x" 16 up v ltac:(cbn; tauto) V) as B. unfold is_base in B. cbn in B. congruence.
Qed.
Lemma escape_step q b z : escapes q -> next_piece q b (92%N :: z).
Proof.
  intros E. assert (NB : q <> Back) by (destruct q; cbn in E; congruence). destruct z as [|c z]; [right; eexists; apply (bad_last q NB)|].
  destruct (in_dec N.eq_dec c (s2l "eu")) as [I|I]; [right; exists Panics; apply (bad_escape q c z E I)|].
  destruct (in_dec N.eq_dec c (s2l "xX")) as [X|X].
  - destruct z as [|x z]; [left; do 3 eexists; apply (pc_no_byte q c b [] E X); discriminate|].
    destruct (ld_dec x) as [LX|NX]; [|left; do 3 eexists; apply (pc_no_byte q c b (x :: z) E X); intros ? ? Z; injection Z as <- _; exact NX].
    assert (G : (exists y z', z = y :: z' /\ letter_or_digit y) \/ forall d y, z = d :: y -> ~ letter_or_digit d).
    { destruct z as [|y z]; [right; discriminate|]. destruct (ld_dec y) as [LY|NY]; [left; eauto|right]. intros ? ? Z. injection Z as <- _. exact NY. }
    destruct G as [(y & z' & -> & LY)|NY].
    + assert (BY : z' = [] \/ Exists (fun d => forall up v, (v < 16)%N -> d <> digit_char up v) [x; y] -> next_piece q b (92%N :: c :: x :: y :: z')).
      { intros B. right. exists Panics. apply (bad_byte q c [x; y] z' E X); [discriminate|cbn; lia|constructor; [exact LX|constructor; [exact LY|constructor]]|cbn; discriminate|exact B]. }
      destruct z' as [|u z']; [apply BY; auto|]. destruct (hex_dec x) as [(up & d & D & ->)|HX]; [|apply BY; right; left; exact HX].
      destruct (hex_dec y) as [(up' & d' & D' & ->)|HY]; [|apply BY; right; right; left; exact HY].
      left. do 3 eexists. apply (pc_byte q c up up' d d' b (u :: z') E X D D'). discriminate.
    + assert (BY : z = [] \/ Exists (fun d => forall up v, (v < 16)%N -> d <> digit_char up v) [x] -> next_piece q b (92%N :: c :: x :: z)).
      { intros B. right. exists Panics. apply (bad_byte q c [x] z E X); [discriminate|cbn; lia|constructor; [exact LX|constructor]|intros _; exact NY|exact B]. }
      destruct z as [|u z]; [apply BY; auto|]. destruct (hex_dec x) as [(up & d & D & ->)|HX]; [|apply BY; right; left; exact HX].
      left. do 3 eexists. apply (pc_short_byte q c up d b (u :: z) E X D); [discriminate|exact NY].
  - left. do 3 eexists. apply (pc_escape q c b z E). cbn in *. tauto.
Qed.
Lemma raw_step tag b z : next_piece (Now tag) b (92%N :: z).
Proof.
  destruct z as [|c z]; [right; eexists; apply bad_last; discriminate|]. destruct (in_dec N.eq_dec c [39; 92]%N) as [I|I]; left; do 3 eexists; [apply (pc_raw_quote tag c b z I)|apply (pc_raw tag c b z I)].
Qed.
Lemma line_end_dec r : line_end r \/ exists (semicolon : bool) z, r = s2l (if semicolon then ";" else "") ++ z /\ (semicolon = false -> starts_with (s2l ";") z = false) /\ forall c y, z = c :: y -> ~ In c [10; 13]%N.
Proof.
  destruct r as [|c r]; [right; exists false, []; split; [reflexivity|split; [reflexivity|discriminate]]|].
  destruct (N.eqb_spec c 59) as [->|C].
  - destruct r as [|c r]; [right; exists true, []; split; [reflexivity|split; discriminate]|]. destruct (in_dec N.eq_dec c [10; 13]%N) as [I|I]; [left; exists c, r; auto|].
    right. exists true, (c :: r). split; [reflexivity|]. split; [discriminate|]. intros ? ? Z. injection Z as <- _. exact I.
  - destruct (in_dec N.eq_dec c [10; 13]%N) as [I|I]; [left; exists c, r; auto|]. right. exists false, (c :: r). split; [reflexivity|]. split; [|intros ? ? Z; injection Z as <- _; exact I].
    intros _. change (s2l ";") with [59%N]. rewrite starts1. cbn. apply N.eqb_neq. exact C.
Qed.
Lemma now_tokens tag b inp us b' r : Pieces (Now tag) b inp us b' r -> us = [].
Proof.
  intros P. remember (Now tag) as q eqn:Q. induction P as [|q b inp ts b1 inp1 us b2 r PC _ IH]; [reflexivity|]. rewrite (IH Q), app_nil_r. subst q.
  inversion PC; subst; try reflexivity; match goal with H : splices (Now _) |- _ => destruct H end.
Qed.
(** ** One step of a script *)
Lemma step_forall {A} (P : A -> Prop) x r : Forall P (x ++ r) -> Forall P r.
Proof. intros H. apply Forall_app in H. apply H. Qed.
Section Step.
Variable whole : str.
Hypothesis IH : forall r, shorter whole r -> forall top d, total top d r.
Hypothesis SC : Forall scalar whole.
Variables (top : bool) (d : nat).

Lemma step_to w r d1 ts : whole = w ++ r -> w <> [] -> (forall us d2 q, Text d1 r us d2 q -> Text d whole (ts ++ us) d2 q) -> total top d whole.
Proof. intros E N H. eapply total_more; [exact H|]. apply IH. exists w. auto. Qed.

Section Inside.
Variables (q : quoting) (inp : str).
Hypothesis O : Opened q whole inp.
Lemma inside_short r z c : (exists w, inp = w ++ r) -> r = c :: z -> shorter whole z.
Proof.
  intros (w & ->) ->. destruct (opened_part _ _ _ O) as (v & N & E). exists (v ++ w ++ [c]). split; [destruct v; [congruence|discriminate]|]. rewrite E, <- !app_assoc. reflexivity.
Qed.
Lemma inside_total : forall n r us b, List.length r <= n -> Behind q inp us b r -> total top d whole.
Proof.
  induction n as [n IHn] using (well_founded_induction lt_wf). intros r us b L B.
  destruct (proj1 (proj2 (proj2 (proj2 reads))) _ _ _ _ _ B) as (_ & (pre & PRE) & _).
  destruct (split_plain q r) as (w & z & ER & W & Z).
  pose proof (pieces_trans _ _ _ _ _ _ _ _ _ (behind_pieces _ _ _ _ _ B) (eq_ind_r (fun x => Pieces q b x [] (b ++ encode w) z) (plain_pieces q w z W b) ER)) as P. rewrite app_nil_r in P.
  destruct z as [|c z].
  { (* the end of the source *)
    rewrite app_nil_r in ER. destruct q as [| |tag|tag] eqn:Q.
    - destruct (list_eq_dec N.eq_dec w []) as [->|NE]; [subst r; eapply total_stuck, st_end; [left; reflexivity|exact O|exact B]|].
      destruct (exists_last NE) as (w' & c & ->). subst r. eapply total_stuck, st_double; [exact O|exact B|exact W].
    - destruct (list_eq_dec N.eq_dec w []) as [->|NE]; [subst r; eapply total_stuck, st_end; [right; left; reflexivity|exact O|exact B]|].
      destruct (exists_last NE) as (w' & c & ->). subst r. destruct (N.eq_dec c 96) as [->|C]; [|eapply total_stuck, st_back; [exact O|exact B|exact W|exact C]].
      destruct (literal_some_token (b ++ encode w')) as (l & LI). apply Forall_app in W. destruct W as [W _].
      exists (Kw KBackquote :: (us ++ l) ++ [Kw KBackquote]), d, []. split; [|left; reflexivity]. eapply tx_back; [exact O|exact B|exact W|exact LI].
    - eapply total_stuck, (st_doc top d (Doc tag) tag); [left; reflexivity|exact O|exact P].
    - eapply total_stuck, (st_doc top d (Now tag) tag); [right; reflexivity|exact O|exact P]. }
  specialize (Z c z eq_refl).
  assert (NEXT : next_piece q (b ++ encode w) (c :: z) -> total top d whole).
  { intros [(ts & b' & r' & PC)|(x & BAD)]; [|eapply total_stuck, st_inside; [exact O|exact P|exact BAD]].
    destruct (proj1 (proj2 (proj2 reads)) _ _ _ _ _ _ PC) as (_ & (w' & NW & EW) & _).
    apply (IHn (List.length r') ltac:(rewrite ER, app_length, EW, app_length in L; destruct w'; [congruence|cbn in L; lia]) r' (us ++ ts) b' (le_n _)).
    eapply behind_piece; [exact P|exact PC|]. intros c' z' E. injection E as <- _. exact Z. }
  assert (SH : shorter whole z) by (apply (inside_short (c :: z) z c); [exists (pre ++ w); rewrite PRE, ER, app_assoc; reflexivity|reflexivity]).
  assert (CC : special q c = true) by (apply special_plain, Z).
  assert (SPL : splices q -> c = 36%N \/ c = 123%N -> total top d whole).
  { intros SP [-> | ->]; apply NEXT.
    - apply dollar_step; [exact SP|]. intros y ->. apply IH. apply (shorter_app whole [123%N] y). exact SH.
    - apply brace_step; [exact SP|]. apply IH, SH. }
  assert (ESC : escapes q -> c = 92%N -> total top d whole) by (intros E ->; apply NEXT, escape_step, E).
  assert (DOC : forall tag, is_doc q tag -> c = 10%N -> (forall r, line_end r -> z = tag ++ r -> total top d whole) -> total top d whole).
  { intros tag D -> H. destruct (starts_with tag z) eqn:S; [|apply NEXT; left; do 3 eexists; apply (pc_newline q tag _ z D S)].
    apply starts_with_iff in S. destruct S as (r' & EZ). destruct (line_end_dec r') as [LE|(semi & y & ES & S1 & S2)]; [exact (H r' LE EZ)|].
    eapply total_stuck, (st_tag top d q tag whole inp us (b ++ encode w) semi y D O); [rewrite EZ, ES in P; exact P|exact S1|exact S2]. }
  assert (KEEP : forall w' r' ts, c :: z = w' ++ r' -> (forall us d2 q, Text d r' us d2 q -> Text d whole (ts ++ us) d2 q) -> total top d whole).
  { intros w' r' ts E H. destruct (opened_part _ _ _ O) as (v & NV & V). apply (step_to (v ++ pre ++ w ++ w') r' d ts); [|destruct v; [congruence|discriminate]|exact H].
    rewrite V, PRE, ER, E, <- !app_assoc. reflexivity. }
  destruct q as [| |tag|tag] eqn:Q; cbn [special] in CC.
  - destruct (N.eq_dec c 34) as [->|C34].
    { destruct (literal_some_token (b ++ encode w)) as (l & LI). apply (KEEP [34%N] z (Kw KDoubleQuote :: (us ++ l) ++ [Kw KDoubleQuote]) eq_refl). intros us' d2 y T.
      cbn [app]. rewrite <- (app_assoc (us ++ l)). eapply tx_string; [exact O|exact P|exact LI|exact T]. }
    destruct (N.eq_dec c 10) as [->|C10]; [apply NEXT; left; do 3 eexists; apply (pc_char Quotes 10%N); cbn; lia|].
    destruct (N.eq_dec c 92) as [->|C92]; [apply ESC; [exact I|reflexivity]|]. destruct (N.eq_dec c 36) as [->|C36]; [apply SPL; [exact I|auto]|]. destruct (N.eq_dec c 123) as [->|C123]; [apply SPL; [exact I|auto]|].
    exfalso. unfold dq_special in CC. rewrite !(proj2 (N.eqb_neq _ _)) in CC by assumption. discriminate.
  - destruct (in_dec N.eq_dec c [34; 92]%N) as [I|NI]; [eapply total_stuck, st_back_stop; [exact O|exact P|exact I]|].
    destruct (N.eq_dec c 10) as [->|C10]; [apply NEXT; left; do 3 eexists; apply (pc_char Back 10%N); cbn; lia|].
    destruct (N.eq_dec c 36) as [->|C36]; [apply SPL; [exact I|auto]|]. destruct (N.eq_dec c 123) as [->|C123]; [apply SPL; [exact I|auto]|].
    exfalso. unfold dq_special in CC. cbn in NI. rewrite !(proj2 (N.eqb_neq _ _)) in CC by (intros ->; tauto). discriminate.
  - destruct (N.eq_dec c 10) as [->|C10].
    { apply (DOC tag); [left; reflexivity|reflexivity|]. intros r' LE EZ. destruct (literal_some_token (b ++ encode w)) as (l & LI).
      apply (KEEP (10%N :: tag) r' (Kw KHereDocStart :: (us ++ l) ++ [Kw KHereDocEnd])); [rewrite EZ; reflexivity|]. intros us' d2 y T.
      cbn [app]. rewrite <- (app_assoc (us ++ l)). rewrite EZ in P. eapply tx_heredoc; [exact O|exact P|exact LI|exact LE|exact T]. }
    destruct (N.eq_dec c 92) as [->|C92]; [apply ESC; [exact I|reflexivity]|]. destruct (N.eq_dec c 36) as [->|C36]; [apply SPL; [exact I|auto]|]. destruct (N.eq_dec c 123) as [->|C123]; [apply SPL; [exact I|auto]|].
    exfalso. unfold doc_special in CC. rewrite !(proj2 (N.eqb_neq _ _)) in CC by assumption. discriminate.
  - destruct (N.eq_dec c 10) as [->|C10].
    { apply (DOC tag); [right; reflexivity|reflexivity|]. intros r' LE EZ. rewrite EZ in P.
      apply (KEEP (10%N :: tag) r' [frag_token (b ++ encode w)]); [rewrite EZ; reflexivity|]. intros us' d2 y T.
      assert (U : us = []) by (eapply now_tokens; exact (behind_pieces _ _ _ _ _ B)). subst us.
      cbn [app]. eapply tx_nowdoc; [exact O|exact P|apply fragment_token; reflexivity|exact LE|exact T]. }
    destruct (N.eq_dec c 92) as [->|C92]; [apply NEXT, raw_step|]. destruct (in_dec N.eq_dec c [36; 123]%N) as [I|NI]; [eapply total_stuck, st_now_stop; [exact O|exact P|exact I]|].
    exfalso. unfold doc_special in CC. cbn in NI. rewrite !(proj2 (N.eqb_neq _ _)) in CC by (intros ->; tauto). discriminate.
Qed.
Lemma string_total : total top d whole.
Proof. apply (inside_total (List.length inp) inp [] []); constructor. Qed.
End Inside.
Lemma lexeme_total w t r : whole = w ++ r -> w <> [] -> Lexeme w t r -> total top d whole.
Proof. intros E N L. apply (step_to w r d [t] E N). intros us d2 q T. rewrite E. apply tx_lexeme; assumption. Qed.
Lemma stuck_total x : Stuck top d whole x -> total top d whole.
Proof. apply total_stuck. Qed.
Lemma doc_total : opens_doc whole -> total top d whole.
Proof. intros (q & inp & O & _). exact (string_total q inp O). Qed.
Lemma single_total (bin : bool) z : whole = s2l (if bin then "b'" else "'") ++ z -> (bin = false -> z <> []) -> total top d whole.
Proof.
  intros E NE. destruct (sq_split_n (List.length z) z (le_n _)) as [(w & r & -> & W)|[W|(w & -> & W)]].
  - apply (lexeme_total (s2l (if bin then "b'" else "'") ++ w ++ s2l "'") (TCes (sq_decode w)) r).
    + rewrite E, <- !app_assoc. reflexivity.
    + destruct bin; discriminate.
    + apply lx_single; [exact W|]. rewrite E in SC. apply step_forall in SC. apply Forall_app in SC. apply SC.
  - eapply stuck_total. rewrite E. apply (st_single top d bin z W NE).
  - eapply stuck_total. rewrite E. apply (st_single_escape top d bin w W).
Qed.
Lemma ascii_name w : name_ok w = true -> blen w = List.length w -> Spec.identifier w = true.
Proof.
  intros N L.
  assert (A : Forall (fun c => (c < 128)%N) w).
  { clear N. induction w as [|c w IHw]; [constructor|]. cbn [blen List.length] in L. pose proof (clen_pos c). pose proof (blen_ge w). constructor; [|apply IHw; lia].
    destruct (N.ltb_spec c 128) as [|G]; [assumption|]. exfalso. assert (clen c <> 1); [|lia]. unfold clen. destruct (N.ltb_spec c 128); [lia|]. repeat match goal with |- context [if ?b then _ else _] => destruct b end; discriminate. }
  destruct w as [|c w]; [discriminate|]. inversion A as [|? ? C W]; subst. cbn in *. apply andb_prop in N. destruct N as [N1 N2].
  assert (H : forall x, (x < 128)%N -> name_char x = ascii_letter x || ((48 <=? x) && (x <=? 57))%N).
  { intros x X. unfold name_char. destruct (N.leb_spec 128 x); [lia|]. rewrite orb_false_r. reflexivity. }
  apply andb_prop in N1. destruct N1 as [N0 N1]. rewrite (H c C) in N0. apply negb_true_iff in N1. rewrite N1, orb_false_r in N0. rewrite N0. cbn [andb].
  clear -N2 W H. induction W as [|x w X _ IHw]; [reflexivity|]. cbn in *. apply andb_prop in N2. destruct N2 as [A B]. rewrite (H x X) in A. rewrite A. apply IHw, B.
Qed.
Lemma keyword_dec w : (exists x k, In (x, k) keywords /\ s2l x = w) \/ forall x k, In (x, k) keywords -> s2l x <> w.
Proof.
  destruct (existsb (fun e : string * kind => if list_eq_dec N.eq_dec (s2l (fst e)) w then true else false) keywords) eqn:X.
  - apply existsb_exists in X. destruct X as ((x, k) & I & X). cbn [fst] in X. destruct (list_eq_dec N.eq_dec (s2l x) w) as [E|]; [left; eauto|discriminate].
  - right. intros x k I E. apply not_true_iff_false in X. apply X. apply existsb_exists. exists (x, k). split; [exact I|]. cbn [fst]. destruct (list_eq_dec N.eq_dec (s2l x) w); [reflexivity|contradiction].
Qed.
Lemma name_total c z : whole = c :: z -> name_ok [c] = true -> total top d whole.
Proof.
  intros E N. destruct (name_head c z N) as (w & r & EW & W & ER). rewrite EW in E. clear c z EW N.
  assert (NW : w <> []) by (destruct w; [discriminate|discriminate]).
  destruct (Nat.eq_dec (blen w) (List.length w)) as [A|A].
  2: { destruct (split_bytes (List.length w) w) as [(a & b & EW & B)|NB].
    - assert (NB : b <> []) by (intros ->; rewrite app_nil_r in EW; congruence).
      apply (step_to a (b ++ r) d [TString w]); [rewrite E, EW, <- app_assoc; reflexivity|intros ->; cbn in B; destruct w; [congruence|discriminate]|].
      intros us d2 q T. rewrite E, EW, <- app_assoc. apply tx_wide; [rewrite <- EW; exact W|exact NB|exact ER|rewrite <- EW; exact B|exact T].
    - eapply stuck_total. rewrite E. apply st_wide_name; [exact W|exact ER|exact NB]. }
  pose proof (ascii_name w W A) as ID.
  destruct (keyword_dec w) as [(x & k & I & <-)|NK]; [exact (lexeme_total _ _ r E NW (lx_keyword x k r I ER))|].
  destruct (list_eq_dec N.eq_dec w (s2l "yield")) as [->|Y1].
  { destruct (split_white r) as (v & r' & EV & V & RV). rewrite EV in E, ER. destruct (starts_with (s2l "from") r') eqn:S.
    - apply starts_with_iff in S. destruct S as (r2 & ->). apply (step_to (s2l "yield" ++ v ++ s2l "from") r2 d [Kw KYieldFrom]); [rewrite E, <- !app_assoc; reflexivity|discriminate|].
      intros us d2 q T. rewrite E. apply tx_yield_from; [exact V|intros ->; discriminate ER|exact T].
    - apply (step_to (s2l "yield" ++ v) r' d [Kw KYield]); [rewrite E, <- !app_assoc; reflexivity|discriminate|].
      intros us d2 q T. rewrite E. apply tx_yield; assumption. }
  destruct (list_eq_dec N.eq_dec w (s2l "yieldfrom")) as [->|Y2].
  { apply (step_to (s2l "yieldfrom") r d [Kw KYieldFrom] E NW). intros us d2 q T. rewrite E. apply (tx_yield_from [] d r us d2 q eq_refl (fun _ => ER) T). }
  assert (PLAIN : no_prefix w r -> total top d whole) by (intros NP; exact (lexeme_total _ _ r E NW (lx_name w r ID ER NK Y1 Y2 NP))).
  destruct (list_eq_dec N.eq_dec w (s2l "b")) as [->|NB]; [|apply PLAIN; intros X; contradiction].
  destruct (starts_with (s2l "'") r) eqn:S1; [apply starts_with_iff in S1; destruct S1 as (z & ->); apply (single_total true z); [exact E|discriminate]|].
  destruct (starts_with [34%N] r) eqn:S2; [apply starts_with_iff in S2; destruct S2 as (z & ->); apply (string_total Quotes z); rewrite E; apply (opened_quotes true); discriminate|].
  destruct (doc_dec whole) as [DO|ND]; [exact (doc_total DO)|]. apply PLAIN. intros _. split; [|rewrite <- E; exact ND].
  intros q. split; intros ->; [rewrite starts_with_app in S1|rewrite starts_with_app in S2]; discriminate.
Qed.
Lemma radix_total p base z : In (p, base) radixes -> whole = s2l p ++ z -> z <> [] -> total top d whole.
Proof.
  intros I E NZ. destruct (radix_base p base I) as (IB & _ & _). destruct (split_base base z IB) as (w & ds & r & -> & W & R).
  assert (NP : s2l p <> []) by (cbn in I; destruct I as [I|[I|[]]]; injection I as <- <-; discriminate).
  destruct ds as [|dg ds].
  - inversion W; subst w. cbn [app] in *. destruct (again_dec r) as [A|A].
    + apply (step_to (s2l p) r d [] E NP). intros us d2 q T. rewrite E. eapply tx_prefix; eassumption.
    + eapply stuck_total. rewrite E. eapply st_prefix; eassumption.
  - destruct (N.leb_spec (number base (dg :: ds)) i64_max) as [L|L].
    + apply (lexeme_total (s2l p ++ w) (TInt (Z.of_N (number base (dg :: ds)))) r); [rewrite E, app_assoc; reflexivity|destruct (s2l p); [congruence|discriminate]|]. apply lx_radix; try assumption. discriminate.
    + eapply stuck_total. rewrite E. apply st_number. eapply bad_radix; eassumption.
Qed.
Lemma number_total c z : whole = c :: z -> is_digit c = true -> total top d whole.
Proof.
  intros E C.
  assert (RX : (exists p base y, In (p, base) radixes /\ whole = s2l p ++ y /\ y <> []) \/ forall y, y <> [] -> whole <> s2l "0x" ++ y /\ whole <> s2l "0b" ++ y).
  { destruct (starts_with (s2l "0x") whole) eqn:S1; [|destruct (starts_with (s2l "0b") whole) eqn:S2].
    - apply starts_with_iff in S1. destruct S1 as (y & EY). destruct y as [|u y]; [right; intros y Y; split; intros X; rewrite X in EY; [apply app_inv_head in EY; congruence|discriminate]|].
      left. exists "0x"%string, 16%N, (u :: y). split; [cbn; tauto|]. split; [exact EY|discriminate].
    - apply starts_with_iff in S2. destruct S2 as (y & EY). destruct y as [|u y]; [right; intros y Y; split; intros X; rewrite X in EY; [discriminate|apply app_inv_head in EY; congruence]|].
      left. exists "0b"%string, 2%N, (u :: y). split; [cbn; tauto|]. split; [exact EY|discriminate].
    - right. intros y Y. split; intros X; rewrite X in *; [rewrite starts_with_app in S1|rewrite starts_with_app in S2]; discriminate. }
  destruct RX as [(p & base & y & I & EY & NY)|NR]; [exact (radix_total p base y I EY NY)|].
  destruct (split_digits whole) as (w & r & EW & W & R).
  assert (NW : w <> []) by (intros ->; cbn in EW; rewrite <- EW, E in R; cbn in R; congruence).
  destruct (starts_with (s2l ".") r) eqn:SP.
  { apply starts_with_iff in SP. destruct SP as (r1 & ->). destruct (split_digits r1) as (v & r2 & -> & V & R2).
    apply (lexeme_total (w ++ s2l "." ++ v) (TDouble (w ++ s2l "." ++ v)) r2); [rewrite EW, <- !app_assoc; reflexivity|destruct w; [congruence|discriminate]|].
    apply lx_double; [apply is_digits, W|apply is_digits, V|destruct w; [congruence|discriminate]|apply head_no_digit, R2]. }
  assert (NP : no_point r) by (intros q ->; rewrite starts_with_app in SP; discriminate).
  pose proof (head_no_digit r R) as ND. destruct (digits_of w W) as (ds & D & ->).
  assert (ZERO : ds = [0%N] -> forall q, q <> [] -> r <> s2l "x" ++ q /\ r <> s2l "b" ++ q).
  { intros -> q NQ. destruct (NR q NQ) as [N1 N2]. split; intros ->; [apply N1|apply N2]; exact EW. }
  assert (DEC : decimal ds -> total top d whole).
  { intros DC. destruct (N.leb_spec (number 10 ds) i64_max) as [L|L].
    - apply (lexeme_total (map (digit_char false) ds) (TInt (Z.of_N (number 10 ds))) r EW NW). apply lx_decimal; assumption.
    - eapply stuck_total. rewrite EW. apply st_number, bad_decimal; assumption. }
  destruct ds as [|d0 ds]; [cbn in NW; congruence|]. destruct (N.eqb_spec d0 0) as [->|N0].
  2: { apply DEC. split; [discriminate|]. split; [exact D|]. cbn. intros X. contradiction. }
  destruct ds as [|d1 ds]; [apply DEC; split; [discriminate|]; split; [exact D|]; reflexivity|].
  pose proof (Forall_inv_tail D) as DD. change (map (digit_char false) (0%N :: d1 :: ds)) with (s2l "0" ++ map (digit_char false) (d1 :: ds)) in EW. set (l := d1 :: ds) in *.
  assert (G : Forall (fun x => (x < 8)%N) l \/ Exists (fun x => (8 <= x)%N) l).
  { clear. induction l as [|a l [G|G]]; [left; constructor| |right; right; exact G]. destruct (N.ltb_spec a 8); [left; constructor; auto|right; left; assumption]. }
  assert (NL : l <> []) by discriminate.
  destruct G as [G|G]; [destruct (N.leb_spec (number 8 l) i64_max) as [L|L]|].
  - apply (lexeme_total (s2l "0" ++ map (digit_char false) l) (TInt (Z.of_N (number 8 l))) r EW); [discriminate|]. apply lx_octal; assumption.
  - eapply stuck_total. rewrite EW, <- app_assoc. apply st_number, bad_octal; auto.
  - eapply stuck_total. rewrite EW, <- app_assoc. apply st_number, bad_octal; auto.
Qed.
Lemma split_arrows : forall n z, List.length z <= n -> exists x us w r, s2l "->" ++ z = x ++ w ++ r /\ Arrows x us /\ white w = true /\ (forall c y, r = c :: y -> white [c] = false) /\ starts_with (s2l "->") r = false.
Proof.
  induction n as [|n IHn]; intros z L.
  - destruct z; [|cbn in L; lia]. exists (s2l "->"), [Kw KObjectOp], [], []. split; [reflexivity|]. split; [constructor|]. split; [reflexivity|]. split; [discriminate|reflexivity].
  - destruct (split_white z) as (w & r & -> & W & R). destruct (starts_with (s2l "->") r) eqn:S.
    + apply starts_with_iff in S. destruct S as (y & ->). destruct (IHn y) as (x & us & v & r' & E & A & V & R' & S'); [rewrite !app_length in L; cbn in L; lia|].
      exists (s2l "->" ++ w ++ x), (Kw KObjectOp :: us), v, r'. split; [rewrite E, <- !app_assoc; reflexivity|]. split; [constructor; assumption|auto].
    + exists (s2l "->"), [Kw KObjectOp], w, r. split; [reflexivity|]. split; [constructor|]. auto.
Qed.
Lemma arrow_total z : whole = s2l "->" ++ z -> total top d whole.
Proof.
  intros E. destruct (split_arrows (List.length z) z (le_n _)) as (x & us & w & r & EX & A & W & R & S). rewrite EX in E.
  assert (NX : x <> []) by (destruct A; discriminate).
  destruct (name_cases r) as [(c & y & -> & N)|N].
  - destruct (name_head c y N) as (n & r' & EN & NN & ER). rewrite EN in E. apply (step_to (x ++ w ++ n) r' d (us ++ [TString n])); [rewrite E, <- !app_assoc; reflexivity|destruct x; [congruence|discriminate]|].
    intros us' d2 q T. rewrite E, <- app_assoc. apply tx_property; assumption.
  - apply (step_to (x ++ w) r d us); [rewrite E, <- !app_assoc; reflexivity|destruct x; [congruence|discriminate]|].
    intros us' d2 q T. rewrite E. apply tx_arrow; try assumption. intros c y ->. split; [eapply R|eapply N]; reflexivity.
Qed.
Lemma split_tag r : exists p k z, s2l "<?" ++ r = p ++ z /\ Tag p k z.
Proof.
  destruct (starts_with (s2l "php") r) eqn:S1; [|destruct (starts_with (s2l "=") r) eqn:S2].
  - apply starts_with_iff in S1. destruct S1 as (z & ->). exists (s2l "<?php"), KOpenTag, z. split; [reflexivity|constructor].
  - apply starts_with_iff in S2. destruct S2 as (z & ->). exists (s2l "<?="), KOpenTagWithEcho, z. split; [reflexivity|constructor].
  - exists (s2l "<?"), KOpenTag, r. split; [reflexivity|constructor; assumption].
Qed.
Lemma html_total z : whole = s2l "?>" ++ z -> total top d whole.
Proof.
  intros E. destruct (split_at 60 63 z) as [N|(w & r & -> & N)].
  - apply total_ended. right. left. exists z. auto.
  - destruct (split_tag r) as (p & k & y & EP & TG). change [60%N; 63%N] with (s2l "<?") in *. rewrite EP in E.
    apply (step_to (s2l "?>" ++ w ++ p) y d (Kw KCloseTag :: html w ++ [Kw k])); [rewrite E, <- !app_assoc; reflexivity|discriminate|].
    intros us d2 q T. rewrite E. cbn [app]. rewrite <- app_assoc. apply tx_html; assumption.
Qed.
Lemma comment_total z : whole = s2l "/*" ++ z -> total top d whole.
Proof.
  intros E. destruct (starts_with (s2l "*") z) eqn:S.
  - apply starts_with_iff in S. destruct S as (y & ->). assert (E' : whole = s2l "/**" ++ y) by exact E. destruct (split_at 42 47 y) as [N|(w & r & -> & N)].
    + eapply stuck_total. rewrite E'. apply st_doc_comment. exact N.
    + apply (step_to (s2l "/**" ++ w ++ s2l "*/") r d [TComment w]); [rewrite E', <- !app_assoc; reflexivity|discriminate|]. intros us d2 q T. rewrite E'. apply tx_doc; [exact N|exact T].
  - destruct (split_at 42 47 z) as [N|(w & r & -> & N)].
    + eapply stuck_total. rewrite E. apply st_comment; [exact N|exact S].
    + apply (step_to (s2l "/*" ++ w ++ s2l "*/") r d [TComment w]); [rewrite E, <- !app_assoc; reflexivity|discriminate|]. intros us d2 q T. rewrite E.
      assert (w <> []) by (intros ->; discriminate S). apply tx_block; [assumption| |exact N|exact T].
      destruct w as [|a w]; [congruence|]. change (s2l "*") with [42%N] in *. rewrite starts1 in *. exact S.
Qed.
Lemma line_total (hash : bool) z : whole = s2l (if hash then "#" else "//") ++ z -> total top d whole.
Proof.
  intros E. destruct (split_line z) as (w & r & -> & N & R). apply (step_to (s2l (if hash then "#" else "//") ++ w) r d [TComment w]); [rewrite E, <- !app_assoc; reflexivity|destruct hash; discriminate|].
  intros us d2 q T. rewrite E. apply tx_line; assumption.
Qed.
Lemma operator_total c z : whole = c :: z -> white [c] = false -> name_char c = false -> ~ In c [34; 35; 39; 96; 123; 125]%N ->
  starts_with (s2l "//") whole = false -> starts_with (s2l "/*") whole = false -> starts_with (s2l "<<<") whole = false -> starts_with (s2l "->") whole = false -> starts_with (s2l "?>") whole = false ->
  not_operator whole = false -> ~ is_cast whole -> total top d whole.
Proof.
  intros E W N NI S1 S2 S3 S4 S5 NO NC.
  destruct (existsb (fun e : string * kind => match s2l (fst e) with x :: _ => (x =? c)%N | [] => false end) operators) eqn:X.
  - assert (H : exists op k, In (op, k) operators /\ starts_with (s2l op) whole = true).
    { apply existsb_exists in X. destruct X as ((op, k) & I & X). cbn [fst] in X. destruct (s2l op) as [|x w] eqn:EO; [discriminate|]. apply N.eqb_eq in X. subst x.
      destruct (head_operator c) as (o & k' & I' & EO'); [exists op, k; rewrite EO; auto|]. exists o, k'. split; [exact I'|]. rewrite EO', E. apply starts_with_iff. exists z. reflexivity. }
    destruct (longest_in operators whole H) as (op & k & I & S & M). apply starts_with_iff in S. destruct S as (r & ER).
    apply (lexeme_total (s2l op) (Kw k) r ER).
    + intros X0. assert (G : forallb (fun e : string * kind => match s2l (fst e) with [] => false | _ => true end) operators = true) by reflexivity. rewrite forallb_forall in G. specialize (G _ I). cbn [fst] in G. rewrite X0 in G. discriminate.
    + apply lx_operator; [exact I| | | |].
      * intros J. cbn in J. rewrite ER in S4, S5. assert (HD : hd_error whole = Some c) by (rewrite E; reflexivity). rewrite ER in HD.
        destruct J as [<-|[<-|[<-|[<-|[]]]]]; [rewrite starts_with_app in S4; discriminate| | |rewrite starts_with_app in S5; discriminate]; injection HD as <-; apply NI; cbn; tauto.
      * rewrite <- ER. split; [eauto|]. intros op' k' r' I' E'. apply (M op' k' I'). rewrite E'. apply starts_with_app.
      * rewrite <- ER. exact NO.
      * intros a x b k' r2 I' A B E'. apply NC. exists a, x, b, k', r2. rewrite ER. auto.
  - eapply stuck_total. rewrite E. apply st_stray. split; [exact N|]. split; [exact W|]. split; [cbn in *; tauto|]. intros op k I HD. apply not_true_iff_false in X. apply X. apply existsb_exists. exists (op, k). split; [exact I|].
    cbn [fst]. destruct (s2l op) as [|x w]; [discriminate|]. injection HD as ->. apply N.eqb_refl.
Qed.
Lemma step_total c z : whole = c :: z -> total top d whole.
Proof.
  intros E.
  destruct (white [c]) eqn:W; [apply (step_to [c] z d [] E); [discriminate|intros us d2 q T; rewrite E; apply (tx_white [c]); assumption]|].
  destruct (name_ok [c]) eqn:N; [exact (name_total c z E N)|]. destruct (is_digit c) eqn:D; [exact (number_total c z E D)|].
  assert (NC : name_char c = false).
  { cbn in N. rewrite andb_true_r in N. destruct (name_char c); [|reflexivity]. unfold is_digit in D. rewrite D in N. discriminate. }
  destruct (N.eq_dec c 35) as [->|C35]; [exact (line_total true z E)|].
  destruct (in_dec N.eq_dec c [34; 39; 96]%N) as [Q|NQ].
  { destruct z as [|x z]; [eapply stuck_total; rewrite E; apply st_quote, Q|]. destruct Q as [<-|[<-|[<-|[]]]].
    - apply (string_total Quotes (x :: z)). rewrite E. apply (opened_quotes false). discriminate.
    - apply (single_total false (x :: z) E). discriminate.
    - apply (string_total Back (x :: z)). rewrite E. apply opened_back. discriminate. }
  destruct (N.eq_dec c 123) as [->|C123]; [apply (step_to [123%N] z (S d) [Kw KCurlyBracesOpen] E); [discriminate|]; intros us d2 q T; rewrite E; apply (tx_open d z us d2 q T)|].
  destruct (N.eq_dec c 125) as [->|C125].
  { assert (CD : d = 0 \/ exists d0, d = S d0) by (destruct d; eauto). destruct CD as [ED|(d0 & ED)].
    2: { apply (step_to [125%N] z d0 [Kw KCurlyBracesClose] E); [discriminate|]. intros us d2 q T. rewrite E, ED. apply (tx_close d0 z us d2 q T). }
    destruct (Bool.bool_dec top true) as [ET|ET]; [apply stuck_total with (x := Panics); rewrite E, ET, ED; apply (st_brace z)|]. apply not_true_is_false in ET.
    apply total_ended. right. right. right. rewrite ET, ED. split; [reflexivity|]. split; [reflexivity|]. exists z. exact E. }
  destruct (starts_with (s2l "//") whole) eqn:S1; [apply starts_with_iff in S1; destruct S1 as (y & S1); exact (line_total false y S1)|].
  destruct (starts_with (s2l "/*") whole) eqn:S2; [apply starts_with_iff in S2; destruct S2 as (y & S2); exact (comment_total y S2)|].
  destruct (starts_with (s2l "->") whole) eqn:S4; [apply starts_with_iff in S4; destruct S4 as (y & S4); exact (arrow_total y S4)|].
  destruct (starts_with (s2l "?>") whole) eqn:S5; [apply starts_with_iff in S5; destruct S5 as (y & S5); exact (html_total y S5)|].
  destruct (starts_with (s2l "<<<") whole) eqn:S3.
  { destruct (doc_dec whole) as [DO|ND]; [exact (doc_total DO)|]. apply starts_with_iff in S3. destruct S3 as (y & S3).
    apply (lexeme_total (s2l "<<") (Kw KSl) (s2l "<" ++ y) S3); [discriminate|]. apply lx_shift. rewrite <- S3. exact ND. }
  destruct (cast_dec whole) as [(a & w & b & k & r & I & A & B & EC)|CA].
  { apply (lexeme_total (cast_text a w b) (Kw k) r EC); [discriminate|]. apply lx_cast; assumption. }
  destruct (not_operator whole) eqn:NO; [|apply (operator_total c z); try assumption; cbn; cbn in NQ; intuition congruence].
  unfold not_operator in NO. rewrite S1, S2, S3 in NO. cbn [orb] in NO. rewrite E in NO.
  destruct (N.eq_dec c 46) as [->|C46].
  { destruct z as [|x z]; [eapply stuck_total; rewrite E; apply st_number, bad_point|]. destruct (split_digits (x :: z)) as (v & r & EV & V & R).
    assert (v <> []) by (intros ->; cbn in EV; rewrite <- EV in R; cbn in R, NO; unfold is_digit in R; congruence).
    apply (lexeme_total (s2l "." ++ v) (TDouble (s2l "." ++ v)) r); [rewrite E, EV; reflexivity|discriminate|]. apply (lx_double [] v r); [constructor|apply is_digits, V|assumption|apply head_no_digit, R]. }
  destruct (N.eq_dec c 36) as [->|C36].
  { destruct z as [|x z]; [discriminate NO|]. assert (NX : name_ok [x] = true) by (cbn in *; rewrite andb_true_r; exact NO). destruct (name_head x z NX) as (v & r & EV & V & ER).
    apply (lexeme_total (s2l "$" ++ v) (TVariable v) r); [rewrite E, EV; reflexivity|discriminate|]. apply lx_variable; assumption. }
  exfalso. revert NO. clear -C46 C36. intros NO.
  destruct c as [|p]; [discriminate NO|]. repeat (destruct p as [p|p|]; try discriminate NO); congruence.
Qed.
End Step.
Theorem text_total inp : Forall scalar inp -> forall top d, total top d inp.
Proof.
  remember (List.length inp) as n eqn:L. revert inp L. induction n as [n IHn] using (well_founded_induction lt_wf). intros inp L SC top d.
  destruct inp as [|c z]; [apply total_ended; left; reflexivity|]. apply (step_total (c :: z)) with (c := c) (z := z); [|exact SC|reflexivity].
  intros r SH top' d'. apply (IHn (List.length r)); [rewrite L; apply shorter_len, SH|reflexivity|]. destruct SH as (w & _ & E). rewrite E in SC. eapply step_forall, SC.
Qed.
(** every source is read, or its fate is known *)
Theorem source_total src : Forall scalar src -> (exists ts, Source src ts) \/ exists x, Unread src x.
Proof.
  intros SC. destruct (split_at 60 63 src) as [N|(w & r & -> & N)]; [left; eexists; apply (source_text src N)|].
  change [60%N; 63%N] with (s2l "<?") in *. destruct (split_tag r) as (p & k & y & EP & TG). rewrite EP in *.
  assert (SY : Forall scalar y) by (eapply step_forall, step_forall; exact SC).
  destruct (text_total y SY true 0) as (ts & d & q & T & [->|[(v & -> & NV)|[(x & S)|(X & _)]]]); [| | |discriminate].
  - left. eexists. eapply source_script; eassumption.
  - left. eexists. eapply source_html; eassumption.
  - right. exists x. eapply unread; eassumption.
Qed.
