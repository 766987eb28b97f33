(** * Lines: the line table of clean sources (C47) *)
From Verif Require Import Base Tokens Ast Lexer Parser Driver Spec SmallFacts LexBase LexInv LexBehind LexTotal Wp SpecPlace Place SpecLines.
From Coq Require Import String.
Local Open Scope list_scope.

(** where the lines behind the first one begin *)
Fixpoint starts (p : nat) (s : str) : list nat :=
  match s with
  | [] => []
  | c :: r => if (c =? 10)%N then (p + 1) :: starts (p + 1) r else starts (p + clen c) r
  end.
Lemma starts_app x : forall p y, starts p (x ++ y) = starts p x ++ starts (p + blen x) y.
Proof.
  induction x as [|c x IH]; intros p y; cbn [app starts blen]; [rewrite Nat.add_0_r; reflexivity|].
  destruct (N.eqb_spec c 10) as [->|_]; rewrite IH; cbn [app].
  - change (clen 10) with 1. replace (p + 1 + blen x) with (p + (1 + blen x)) by lia. reflexivity.
  - replace (p + clen c + blen x) with (p + (clen c + blen x)) by lia. reflexivity.
Qed.
Definition quiet (w : str) : Prop := Forall (fun c => c <> 10%N) w.
Lemma starts_quiet w : quiet w -> forall p, starts p w = [].
Proof. induction 1 as [|c w H _ IH]; intros p; [reflexivity|]. cbn [starts]. destruct (N.eqb_spec c 10); [contradiction|apply IH]. Qed.
Lemma starts_above s : forall p x, In x (starts p s) -> p < x.
Proof.
  induction s as [|c s IH]; intros p x I; [destruct I|]. cbn [starts] in I. destruct (c =? 10)%N.
  - destruct I as [<-|I]; [lia|]. apply IH in I. lia.
  - apply IH in I. pose proof (clen_pos c). lia.
Qed.
Lemma starts_below s : forall p x, In x (starts p s) -> x <= p + blen s.
Proof.
  induction s as [|c s IH]; intros p x I; [destruct I|]. cbn [starts] in I. cbn [blen]. destruct (N.eqb_spec c 10) as [->|_].
  - change (clen 10) with 1. destruct I as [<-|I]; [lia|]. apply IH in I. lia.
  - apply IH in I. lia.
Qed.
Lemma starts_length s : forall p, List.length (starts p s) = count_occ N.eq_dec s 10%N.
Proof.
  induction s as [|c s IH]; intros p; [reflexivity|]. cbn [starts count_occ]. destruct (N.eqb_spec c 10) as [->|X].
  - destruct (N.eq_dec 10 10); [|congruence]. cbn [List.length]. rewrite IH. reflexivity.
  - destruct (N.eq_dec c 10); [congruence|]. apply IH.
Qed.
Definition upto (q : nat) (l : list nat) : list nat := filter (fun x => x <=? q) l.
Lemma upto_all q l : (forall x, In x l -> x <= q) -> upto q l = l.
Proof.
  induction l as [|a l IH]; intros H; [reflexivity|]. cbn [upto filter]. destruct (Nat.leb_spec a q) as [_|X]; [|specialize (H a (or_introl eq_refl)); lia].
  f_equal. apply IH. intros x I. apply H. right. exact I.
Qed.
Lemma upto_none q l : (forall x, In x l -> q < x) -> upto q l = [].
Proof.
  induction l as [|a l IH]; intros H; [reflexivity|]. cbn [upto filter]. destruct (Nat.leb_spec a q) as [X|_]; [specialize (H a (or_introl eq_refl)); lia|].
  apply IH. intros x I. apply H. right. exact I.
Qed.
Lemma upto_app q a b : upto q (a ++ b) = upto q a ++ upto q b. Proof. apply filter_app. Qed.
Lemma upto_prefix q s : forall p, exists t, starts p s = upto q (starts p s) ++ t /\ forall x, In x t -> q < x.
Proof.
  induction s as [|c s IH]; intros p; [exists []; split; [reflexivity|intros x []]|]. cbn [starts]. destruct (c =? 10)%N; [|apply IH].
  cbn [upto filter]. destruct (Nat.leb_spec (p + 1) q) as [X|X].
  - destruct (IH (p + 1)) as (t & E & A). exists t. split; [|exact A]. cbn [app]. f_equal. exact E.
  - exists ((p + 1) :: starts (p + 1) s). fold (upto q (starts (p + 1) s)). rewrite upto_none by (intros x I; apply starts_above in I; lia). split; [reflexivity|].
    intros x [<-|I]; [exact X|]. apply starts_above in I. lia.
Qed.

Lemma quiet_app a b : quiet (a ++ b) <-> quiet a /\ quiet b. Proof. apply Forall_app. Qed.
Lemma quiet_before f (s : str) e : f 10%N = true -> position f s = Some e -> quiet (firstn e s).
Proof. intros F P. eapply Forall_impl; [|apply position_before, P]. cbv beta. intros c C ->. congruence. Qed.
Lemma quiet_nowhere f (s : str) n : f 10%N = true -> position f s = None -> quiet (firstn n s).
Proof. intros F P. apply firstn_Forall. eapply Forall_impl; [|apply position_nowhere, P]. cbv beta. intros c C ->. congruence. Qed.
Lemma first_newline (w : str) : quiet w \/ exists x y, w = x ++ 10%N :: y /\ quiet x.
Proof.
  induction w as [|c w [IH|(x & y & -> & Q)]]; [left; constructor| |].
  - destruct (N.eq_dec c 10) as [->|X]; [right; exists [], w; split; [reflexivity|constructor]|left; constructor; auto].
  - destruct (N.eq_dec c 10) as [->|X]; [right; exists [], (x ++ 10%N :: y); split; [reflexivity|constructor]|right; exists (c :: x), y; split; [reflexivity|constructor; auto]].
Qed.
Lemma quiet_count w : quiet w -> lines_count w - 1 = 0.
Proof.
  intros H. cut (lines_count w <= 1); [lia|]. induction H as [|c w H HW IH]; [auto|]. cbn [lines_count]. destruct (N.eqb_spec c 10); [contradiction|].
  destruct w as [|d w]; [lia|]. inversion HW; subst. destruct (N.eqb_spec d 10); [contradiction|]. exact IH.
Qed.
Lemma find_first p s n : p <> [] -> find_sub p s = Some n -> exists a b, s = a ++ p ++ b /\ blen a = n /\ forall x y, s = x ++ p ++ y -> blen a <= blen x.
Proof.
  intros NE. revert n. induction s as [|c s IH]; intros n H; cbn [find_sub] in H.
  - destruct p; [congruence|discriminate H].
  - destruct (starts_with p (c :: s)) eqn:W.
    + injection H as <-. apply starts_with_iff in W as (r & W). exists [], r. cbn [app blen]. split; [exact W|]. split; [reflexivity|]. intros. lia.
    + destruct (find_sub p s) as [k|]; [|discriminate]. injection H as <-. destruct (IH _ eq_refl) as (a & b & -> & <- & F). exists (c :: a), b. split; [reflexivity|]. split; [reflexivity|].
      intros [|x0 x] y E; [cbn [app] in E; rewrite (proj2 (starts_with_iff p (c :: a ++ p ++ b))) in W; [discriminate|eauto]|].
      injection E as -> E. apply F in E. cbn [blen]. lia.
Qed.
(** the text before the first [p] has no newline if every newline has a [p] before it *)
Lemma quiet_first p a b : (forall x y, a ++ p ++ b = x ++ p ++ y -> blen a <= blen x) -> (forall m r, a ++ p ++ b = m ++ 10%N :: r -> has p m) -> p <> [] -> quiet a.
Proof.
  intros F H NE. destruct (first_newline a) as [Q|(x & y & -> & Q)]; [exact Q|]. exfalso. destruct (H x (y ++ p ++ b)) as (u & v & ->); [rewrite <- app_assoc; reflexivity|].
  specialize (F u (v ++ 10%N :: y ++ p ++ b)). rewrite <- !app_assoc in F. specialize (F eq_refl). rewrite !blen_app in F. destruct p as [|c p]; [congruence|]. cbn [blen] in F. pose proof (clen_pos c). lia.
Qed.

Lemma firstn_next {A} (l : list A) : forall k x, nth_error l k = Some x -> firstn (S k) l = firstn k l ++ [x].
Proof.
  induction l as [|a l IH]; intros [|k] x H; try discriminate H; cbn in H.
  - injection H as ->. reflexivity.
  - cbn [firstn app]. f_equal. apply (IH k x H).
Qed.

Section Lines.
Variable code : str.
Hypothesis CL : clean code.
Notation L := (blen code).
Notation hx := (LexInv.hx True).
Notation spot := (LexInv.spot code).
Definition to (q : nat) : list nat := upto q (starts 0 code).
Lemma to_near pre w r q : code = pre ++ w ++ r -> quiet w -> blen pre <= q <= blen pre + blen w -> to q = starts 0 pre.
Proof.
  intros E W Q. unfold to. rewrite E, !starts_app, (starts_quiet w W), !upto_app. cbn [app upto filter Nat.add].
  rewrite (upto_all q (starts 0 pre)) by (intros x I; apply starts_below in I; lia).
  change (filter (fun x => x <=? q) (starts (blen pre + blen w) r)) with (upto q (starts (blen pre + blen w) r)).
  rewrite upto_none by (intros x I; apply starts_above in I; lia). apply app_nil_r.
Qed.
Lemma to_move s w r q : spot s (w ++ r) -> quiet w -> src_pos s <= q <= src_pos s + blen w -> to q = to (src_pos s).
Proof.
  intros H W Q. destruct (drop_split _ _ _ H) as (pre & E & B). rewrite (to_near pre w r q E W) by lia. rewrite (to_near pre w r (src_pos s) E W) by lia. reflexivity.
Qed.
Lemma to_line s r : spot s (10%N :: r) -> to (src_pos s + 1) = to (src_pos s) ++ [src_pos s + 1].
Proof.
  intros H. destruct (drop_split _ _ _ H) as (pre & E & B). rewrite (to_near pre [] (10%N :: r) (src_pos s) E) by (try constructor; cbn; lia).
  rewrite (to_near (pre ++ [10%N]) [] r (src_pos s + 1)) by (try constructor; try (rewrite E, <- app_assoc; reflexivity); rewrite blen_app; cbn; lia).
  rewrite starts_app. cbn [starts N.eqb Pos.eqb Nat.add]. rewrite B. reflexivity.
Qed.
Lemma to_end q : L <= q -> to q = starts 0 code.
Proof. intros H. apply upto_all. intros x I. apply starts_below in I. lia. Qed.

(** ** States *)
Definition LI (s : tst) : Prop := lines s = 0 :: to (src_pos s).
Definition ahead (s : tst) : Prop := forall m r, spot s (m ++ 10%N :: r) -> has (s2l "<?") m.
Definition live (s : tst) : Prop := LI s /\ lmode s = LInScripting /\ ~ In LInitial (lstack s).
Definition G (s : tst) : Prop := LI s /\ ~ In LInitial (lstack s) /\ (lmode s = LInitial -> ahead s).
Lemma live_G s : live s -> G s. Proof. intros (A & B & C). split; [exact A|]. split; [exact C|]. rewrite B. discriminate. Qed.
Definition keeps (s s' : tst) : Prop := live s' /\ src_pos s <= src_pos s'.
Definition goes (s s' : tst) : Prop := G s' /\ src_pos s <= src_pos s'.
Lemma keeps_goes s s' : keeps s s' -> goes s s'. Proof. intros (A & B). split; [apply live_G, A|exact B]. Qed.
Lemma keeps_trans a b c : keeps a b -> keeps b c -> keeps a c. Proof. intros (_ & A) (B & C). split; [exact B|lia]. Qed.
Lemma goes_from a b c : src_pos a <= src_pos b -> goes b c -> goes a c. Proof. intros A (B & C). split; [exact B|lia]. Qed.
Lemma keeps_refl a : live a -> keeps a a. Proof. split; auto. Qed.
(** only the position has changed, and no newline was passed *)
Definition calm (s s' : tst) : Prop := exists p, s' = set_pos p s /\ src_pos s <= p /\ to p = to (src_pos s).
Lemma calm_refl s : calm s s. Proof. exists (src_pos s). split; [destruct s; reflexivity|auto]. Qed.
Lemma calm_trans a b c : calm a b -> calm b c -> calm a c.
Proof. intros (p & -> & P & E) (q & -> & Q & F). cbn [src_pos set_pos] in *. exists q. split; [reflexivity|]. split; [lia|congruence]. Qed.
Lemma calm_back a b : calm a b -> set_pos (src_pos a) b = a.
Proof. intros (p & -> & _). destruct a. reflexivity. Qed.
Lemma calm_live a b : calm a b -> live a -> live b.
Proof. intros (p & -> & P & E) (A & B & C). split; [|auto]. unfold LI in *. cbn [lines src_pos set_pos]. rewrite E. exact A. Qed.
Lemma calm_pos a b : calm a b -> src_pos a <= src_pos b. Proof. intros (p & -> & P & _). exact P. Qed.
Lemma calm_keeps a b : live a -> calm a b -> keeps a b. Proof. intros V C. split; [eapply calm_live; eauto|apply calm_pos, C]. Qed.
Lemma calm_adv s w r : spot s (w ++ r) -> quiet w -> calm s (set_pos (src_pos s + blen w) s).
Proof. intros H W. eexists. split; [reflexivity|]. split; [lia|]. apply (to_move s w r); auto. lia. Qed.
Lemma line_live s r : live s -> spot s (10%N :: r) -> keeps s (next_line_st (set_pos (src_pos s + 1) s)).
Proof.
  intros (A & B & C) H. split; [|cbn; lia]. split; [|auto]. unfold LI in *. cbn [lines src_pos set_pos next_line_st]. rewrite (to_line s r H), A. reflexivity.
Qed.
Lemma live_restore b s : live b -> live (restore b s). Proof. intros (A & B & C). split; [exact A|]. auto. Qed.

(** what is known of errors: where they are is known of the table *)
Definition errs (e : syntax_error) (s' : tst) : Prop := match err_span e with Some sp => sp_start sp <= sp_end sp /\ to (sp_start sp) = to (src_pos s') | None => True end.
Definition fails (s : tst) (e : syntax_error) (s' : tst) : Prop := e <> SENone /\ keeps s s' /\ errs e s'.
Definition bad (s : tst) (e : syntax_error) (s' : tst) : Prop := (e = SENone -> calm s s') /\ (e <> SENone -> keeps s s' /\ errs e s').
Lemma fails_bad s e s' : fails s e s' -> bad s e s'. Proof. intros (A & B). split; [contradiction|auto]. Qed.
Lemma bad_none s s' : calm s s' -> bad s SENone s'. Proof. intros H. split; [auto|congruence]. Qed.
Lemma bad_from a b e c : calm a b -> bad b e c -> bad a e c.
Proof. intros C (A & B). split; [intros H; eapply calm_trans; [exact C|apply A, H]|]. intros H. destruct (B H) as ((X & Y) & Z). pose proof (calm_pos _ _ C). split; [split; [exact X|lia]|exact Z]. Qed.

(** ** Scanning *)
Lemma a_advc n inp s (Q : str -> tst -> Prop) E : spot s inp -> quiet (firstn n inp) ->
  (forall w r, inp = w ++ r -> w = firstn n inp -> spot s (w ++ r) -> calm s (set_pos (src_pos s + blen w) s) -> spot (set_pos (src_pos s + blen w) s) r -> Q w (set_pos (src_pos s + blen w) s)) -> hx (advance_chars code n) s Q E.
Proof.
  intros H W K. apply hx_advc. intros w r H' F H2. pose proof (spot_fun _ _ _ _ H H') as X. rewrite <- X in F. apply (K w r); auto. apply (calm_adv s w r H'). rewrite F. exact W.
Qed.
Lemma a_adv p r s (Q : str -> tst -> Prop) E : spot s (p ++ r) -> quiet p ->
  (calm s (set_pos (src_pos s + blen p) s) -> spot (set_pos (src_pos s + blen p) s) r -> Q p (set_pos (src_pos s + blen p) s)) -> hx (advance_bytes code (blen p)) s Q E.
Proof. intros H W K. apply (p_adv code p r); [exact H|]. intros H2. apply K; [apply (calm_adv s p r H W)|exact H2]. Qed.
Definition is_ws (c : N) : bool := ((c =? 32) || (c =? 9) || (c =? 13) || (c =? 10))%N.
Lemma a_ws inp : forall s, spot s inp -> let s' := whitespace_loop inp s in
  lmode s' = lmode s /\ lstack s' = lstack s /\ (LI s -> LI s') /\ src_pos s <= src_pos s' /\ (s' = s \/ exists c r, inp = c :: r /\ is_ws c = true) /\ (forall r, ~ spot s' (10%N :: r)).
Proof.
  induction inp as [|c inp IH]; intros s H; cbn [whitespace_loop]; cbv zeta.
  { repeat split; auto. intros r X. discriminate (spot_fun _ _ _ _ H X). }
  destruct ((c =? 32) || (c =? 9) || (c =? 13))%N eqn:C1; [|destruct (N.eqb_spec c 10) as [->|C2]].
  - assert (Z : blen [c] = 1 /\ quiet [c]).
    { rewrite !orb_true_iff, !N.eqb_eq in C1. destruct C1 as [[-> | ->]| ->]; (split; [reflexivity|constructor; [discriminate|constructor]]). }
    destruct Z as [Z QZ]. pose proof (calm_adv s [c] inp H QZ) as C. rewrite Z in C. pose proof (spot_next _ s [c] inp H) as W. rewrite Z in W.
    destruct (IH (set_pos (src_pos s + 1) s) W) as (A & B & D & P & _ & N). split; [exact A|]. split; [exact B|]. split.
    { intros X. apply D. destruct C as (p & E & _ & F). unfold LI in *. cbn [lines src_pos set_pos]. assert (p = src_pos s + 1) by (injection E; auto). subst p. rewrite F. exact X. }
    split; [cbn [src_pos set_pos] in P; lia|]. split; [|exact N]. right. exists c, inp. split; [reflexivity|]. unfold is_ws. rewrite C1. reflexivity.
  - destruct (IH (next_line_st (set_pos (src_pos s + 1) s)) (spot_next _ s [10%N] inp H)) as (A & B & D & P & _ & N). split; [exact A|]. split; [exact B|]. split.
    { intros X. apply D. unfold LI in *. cbn [lines src_pos set_pos next_line_st]. rewrite (to_line s inp H), X. reflexivity. }
    split; [cbn [src_pos set_pos next_line_st] in P; lia|]. split; [|exact N]. right. exists 10%N, inp. auto.
  - repeat split; auto. intros r X. injection (spot_fun _ _ _ _ H X) as E _. contradiction.
Qed.
Lemma a_wso inp : forall s, spot s inp -> calm s (whitespace_only_loop inp s).
Proof.
  induction inp as [|c inp IH]; intros s H; cbn [whitespace_only_loop]; [apply calm_refl|]. destruct ((c =? 32) || (c =? 9))%N eqn:C1; [|apply calm_refl].
  assert (Z : blen [c] = 1 /\ quiet [c]) by (rewrite !orb_true_iff, !N.eqb_eq in C1; destruct C1 as [-> | ->]; (split; [reflexivity|constructor; [discriminate|constructor]])).
  destruct Z as [Z QZ]. pose proof (calm_adv s [c] inp H QZ) as C. rewrite Z in C. pose proof (spot_next _ s [c] inp H) as W. rewrite Z in W. eapply calm_trans; [exact C|apply IH, W].
Qed.
Lemma a_ws_only s : hx (whitespace_only code) s (fun _ s' => calm s s') (fun _ _ => False).
Proof. unfold whitespace_only. apply hx_bind, hx_input. intros inp H. apply a_wso, H. Qed.
Lemma a_whitespace s : live s -> hx (whitespace code) s (fun _ s' => keeps s s' /\ forall r, ~ spot s' (10%N :: r)) (fun _ _ => False).
Proof.
  intros (A & B & C). unfold whitespace. apply hx_bind, hx_input. intros inp H. destruct (a_ws inp s H) as (X & Y & Z & P & _ & N). unfold LexInv.hx. split; [|exact N]. split; [|exact P]. split; [auto|]. rewrite X, Y. auto.
Qed.
Lemma label_quiet w : Forall (fun c => is_label_char c = true) w -> quiet w.
Proof. apply Forall_impl. intros c C ->. discriminate C. Qed.
Lemma a_label s : hx (label code) s
  (fun o s' => match o with
    | None => s' = s
    | Some (w, sp) => calm s s' /\ exists r, spot s (w ++ r) /\ Forall (fun c => is_label_char c = true) w /\ w <> [] /\ s' = set_pos (src_pos s + blen w) s /\ sp = mk_span (src_pos s) (src_pos s + List.length w)
    end) (fun _ _ => False).
Proof.
  unfold label. apply hx_bind, hx_input. intros [|c r0] H; [reflexivity|]. destruct (is_digit c); [reflexivity|].
  set (inp := c :: r0) in *. set (o := position (fun x => negb (is_label_char x)) inp).
  assert (K : forall e, e <> 0 -> e <= List.length inp -> Forall (fun c => negb (is_label_char c) = false) (firstn e inp) -> hx (old_pos <- input_pos ;; r <- advance_chars code e ;; tret (Some (r, mk_span old_pos (old_pos + e)))) s
   (fun o s' => match o with
    | None => s' = s
    | Some (w, sp) => calm s s' /\ exists r, spot s (w ++ r) /\ Forall (fun c => is_label_char c = true) w /\ w <> [] /\ s' = set_pos (src_pos s + blen w) s /\ sp = mk_span (src_pos s) (src_pos s + List.length w)
    end) (fun _ _ => False)).
  { intros e E1 E2 F. assert (F' : Forall (fun c => is_label_char c = true) (firstn e inp)) by (eapply Forall_impl; [|exact F]; cbv beta; intros x X; apply negb_false_iff, X).
    apply hx_bind, hx_pos, hx_bind, (a_advc e inp); [exact H|apply label_quiet, F'|]. intros w r X W H' C _. apply hx_ret.
    assert (WL : List.length w = e) by (rewrite W, firstn_length; lia).
    split; [exact C|]. exists r. split; [exact H'|]. split; [rewrite W; exact F'|]. split; [intros ->; cbn in WL; lia|]. rewrite WL. auto. }
  assert (LN : List.length inp <> 0) by (unfold inp; discriminate).
  destruct o as [[|e]|] eqn:O; [reflexivity|apply K; [lia|apply (pos_bound _ _ _ O)|apply (position_before _ _ _ O)]|apply K; [exact LN|lia|apply firstn_Forall, position_nowhere, O]].
Qed.

(** ** Numbers and variables *)
Definition simply (m : T tokspan) (s : tst) : Prop := hx m s (fun _ s' => calm s s') (fun e s' => e = SENone /\ calm s s').
Lemma calm_put a b : calm a b -> calm a (set_pos (src_pos a) b). Proof. intros C. rewrite (calm_back _ _ C). apply calm_refl. Qed.
Lemma quiet1 c : c <> 10%N -> quiet [c]. Proof. repeat constructor; auto. Qed.
Lemma a_onum s : simply (onum_dnum_lnum code) s.
Proof.
  unfold simply, onum_dnum_lnum. apply hx_bind, hx_input. intros [|c0 r0] H; [apply hx_ret, calm_refl|].
  set (inp := c0 :: r0) in *. cbv beta iota zeta. set (e := match position not_digit inp with Some e => e | None => blen inp end).
  apply hx_bind, hx_pos, hx_bind, (a_advc e inp); [exact H|subst e; destruct (position not_digit inp) eqn:P; [apply (quiet_before not_digit)|apply (quiet_nowhere not_digit)]; auto|]. intros w r X W H' C1 H2. set (s1 := set_pos (src_pos s + blen w) s) in *.
  apply hx_bind, hx_input. intros inp2 H3. pose proof (spot_fun _ _ _ _ H2 H3) as <-.
  destruct (negb (starts_with_c 46 r)) eqn:D1.
  - destruct (negb (e =? 0)).
    + apply hx_bind, hx_pos, hx_bind, hx_unwrap. intros z _. apply hx_ret. exact C1.
    + apply hx_bind, hx_putpos, hx_err. split; [reflexivity|apply calm_put, C1].
  - apply negb_false_iff in D1. destruct (sw1_split _ _ D1) as (r1 & ->).
    apply hx_bind, (a_advc 1 (46%N :: r1)); [exact H3|apply quiet1; discriminate|]. intros d r2 Y D H4 C2 H5. cbn [firstn] in D. subst d. injection Y as <-. set (s2 := set_pos (src_pos s1 + blen [46%N]) s1) in *. pose proof (calm_trans _ _ _ C1 C2) as C3.
    apply hx_bind, hx_input. intros inp3 H6. pose proof (spot_fun _ _ _ _ H5 H6) as <-.
    assert (K : forall n, quiet (firstn n r1) -> hx (p <- input_pos;; r0 <- advance_chars code n;; d <- unwrap (f64_from_str ((w ++ [46%N]) ++ r0));; tret (TDouble d, mk_span p e)) s2 (fun _ s' => calm s s') (fun e s' => e = SENone /\ calm s s')).
    { intros n Q. apply hx_bind, hx_pos, hx_bind, (a_advc n r1); [exact H6|exact Q|]. intros x y _ _ _ C4 _. apply hx_bind, hx_unwrap. intros z _. apply hx_ret. eapply calm_trans; eauto. }
    destruct (position not_digit r1) as [[|k]|] eqn:P; [|apply K, (quiet_before not_digit); auto|apply K, (quiet_nowhere not_digit); auto].
    destruct (blen (w ++ [46%N]) =? 1).
    + apply hx_bind, hx_putpos, hx_err. split; [reflexivity|apply calm_put, C3].
    + apply hx_bind, hx_pos, hx_bind, hx_unwrap. intros z _. apply hx_ret. exact C3.
Qed.
Lemma a_prefixed p ok radix s : In p ["0x"; "0b"]%string -> ok 10%N = false -> simply (prefixed_num code (s2l p) ok radix) s.
Proof.
  intros IP OK. unfold simply, prefixed_num. apply hx_bind, hx_input. intros inp H. destruct ((blen inp <? 3) || negb (starts_with (s2l p) inp))%bool eqn:B0; [apply hx_err; split; [reflexivity|apply calm_refl]|].
  apply orb_false_iff in B0 as [_ B0]. apply negb_false_iff in B0. destruct (sw_split _ _ B0) as (r0 & ->).
  assert (BP : blen (s2l p) = 2 /\ quiet (s2l p)) by (destruct IP as [<-|[<-|[]]]; (split; [reflexivity|repeat constructor; discriminate])). destruct BP as [BP QP].
  apply hx_bind. rewrite <- BP at 1. apply (a_adv _ r0); [exact H|exact QP|]. intros C1 H2. set (s1 := set_pos (src_pos s + blen (s2l p)) s) in *.
  apply hx_bind, hx_input. intros inp2 H3. pose proof (spot_fun _ _ _ _ H2 H3) as <-.
  assert (K : forall n, quiet (firstn n r0) -> hx (p <- input_pos;; q <- tsub p 2;; r0 <- advance_chars code n;; z <- unwrap (i64_from_str_radix radix r0);; tret (TInt z, mk_span q n)) s1 (fun _ s' => calm s s') (fun e s' => e = SENone /\ calm s s')).
  { intros n Q. apply hx_bind, hx_pos, hx_bind, hx_sub. intros _. apply hx_bind, (a_advc n r0); [exact H3|exact Q|]. intros x y _ _ _ C4 _. apply hx_bind, hx_unwrap. intros z _. apply hx_ret. eapply calm_trans; eauto. }
  assert (F : negb (ok 10%N) = true) by (rewrite OK; reflexivity).
  destruct (position (fun c => negb (ok c)) r0) as [[|k]|] eqn:P.
  - apply hx_err. auto.
  - apply K. apply (quiet_before (fun c => negb (ok c))); auto.
  - apply K. apply (quiet_nowhere (fun c => negb (ok c))); auto.
Qed.
Lemma a_variable s : simply (match_variable code) s.
Proof.
  unfold simply, match_variable. apply hx_bind, hx_input. intros inp H. destruct ((blen inp <? 2) || negb (starts_with_c 36 inp))%bool eqn:B0; [apply hx_err; split; [reflexivity|apply calm_refl]|].
  apply orb_false_iff in B0 as [_ B0]. apply negb_false_iff in B0. destruct (sw1_split _ _ B0) as (r0 & ->).
  apply hx_bind, hx_pos. change 1 with (blen [36%N]). apply hx_bind, (a_adv [36%N] r0); [exact H|apply quiet1; discriminate|]. intros C1 H2.
  eapply hx_use; [apply a_label| |intros ? ? []]. intros [[name sp]|] s2.
  - intros (C2 & _). apply hx_ret. eapply calm_trans; eauto.
  - intros ->. apply hx_bind, hx_putpos, hx_err. split; [reflexivity|apply calm_put, C1].
Qed.

(** ** Strings *)
Lemma no_escaped s r : ~ spot s (92%N :: 10%N :: r).
Proof. intros H. destruct (drop_split _ _ _ H) as (pre & E & _). exact (cl_escape _ CL pre r E). Qed.
Lemma a_escape bs sq r s : live s -> spot s (92%N :: r) -> hx (str_escape code bs sq) s (fun _ s' => calm s s') (fun e s' => e <> SENone /\ s' = s /\ errs e s').
Proof.
  intros V H0. unfold str_escape. apply hx_bind, hx_input. intros inp H. pose proof (spot_fun _ _ _ _ H0 H) as <-. destruct (nth_error (92%N :: r) 1) as [c|] eqn:N.
  2:{ apply hx_bind, hx_pos, hx_err. split; [discriminate|]. split; [reflexivity|]. unfold errs. cbn [err_span mk_span sp_start sp_end]. split; [lia|reflexivity]. }
  destruct r as [|c1 r]; [discriminate|]. cbn [nth_error] in N. injection N as ->. assert (CN : c <> 10%N) by (intros ->; exact (no_escaped s r H0)). set (i0 := 92%N :: c :: r) in *.
  assert (K : forall n (x : bytes), quiet (firstn n i0) -> hx (advance_chars code n ;;; tret x) s (fun _ s' => calm s s') (fun e s' => e <> SENone /\ s' = s /\ errs e s')).
  { intros n x Q. apply hx_bind, (a_advc n i0); [exact H|exact Q|]. intros w r' _ _ _ C _. apply hx_ret. exact C. }
  assert (Q2 : quiet (firstn 2 i0)) by (repeat constructor; [discriminate|exact CN]).
  assert (AL : forall k, match nth_error i0 k with Some x => is_alnum x | None => false end = true -> quiet (firstn k i0) -> quiet (firstn (S k) i0)).
  { intros k A Q. destruct (nth_error i0 k) as [x|] eqn:NK; [|discriminate]. rewrite (firstn_next _ _ _ NK). apply quiet_app. split; [exact Q|]. apply quiet1. intros ->. discriminate A. }
  cbv zeta.
  repeat match goal with
    | |- hx (if negb (?a) && _ then _ else _) _ _ _ => destruct (negb a && _)%bool
    | |- hx (if ?a && _ then _ else _) _ _ _ => destruct (a && _)%bool
    | |- hx (if (c =? 92)%N then _ else _) _ _ _ => destruct (c =? 92)%N
    | |- hx (tpanic _) _ _ _ => exact Logic.I
    | |- hx (advance_chars code 2 ;;; tret _) _ _ _ => apply K, Q2
    end.
  destruct (match nth_error i0 2 with Some x => is_alnum x | None => false end) eqn:A2; [|apply K, Q2]. pose proof (AL 2 A2 Q2) as Q3.
  destruct (match nth_error i0 3 with Some x => is_alnum x | None => false end) eqn:A3; cbn [Nat.eqb Nat.add]; match goal with |- context [nth_error i0 ?k] => destruct (nth_error i0 k) end; try exact Logic.I; apply hx_bind, hx_unwrap; intros b _; apply K; [exact (AL 3 A3 Q3)|exact Q3].
Qed.
Lemma a_unterminated {A} g bak s msg (Q : A -> tst -> Prop) : live bak -> src_pos bak <= g (src_pos s) ->
  hx (old_pos <- input_pos ;; trestore bak ;;; p <- input_pos ;; terr (SEUnterminated msg (mk_span p (g old_pos)))) s Q (fails bak).
Proof.
  intros VB P. apply hx_bind, hx_pos, hx_bind, hx_restore, hx_bind, hx_pos, hx_err. split; [discriminate|]. split; [split; [apply live_restore, VB|auto]|]. unfold errs. cbn [err_span mk_span sp_start sp_end]. auto.
Qed.
Definition sq_special (x : N) : bool := ((x =? 92) || (x =? 39) || (x =? 10))%N.
Lemma a_stop f (inp : str) e : f 10%N = true -> e = match position f inp with Some e => e | None => List.length inp end -> quiet (firstn e inp).
Proof. intros F ->. destruct (position f inp) eqn:P; [apply (quiet_before f)|apply (quiet_nowhere f)]; auto. Qed.
Lemma a_sq n bak : live bak -> forall bs s, keeps bak s -> hx (sq_loop code n bak bs) s (fun _ s' => keeps bak s') (fails bak).
Proof.
  intros VB. induction n as [|n IH]; intros bs s K; cbn [sq_loop]; [exact Logic.I|].
  apply hx_bind, hx_input. intros inp H. cbv zeta. apply hx_bind, (a_advc _ inp); [exact H|apply (a_stop sq_special); reflexivity|]. intros w r _ _ _ C1 H2. pose proof (keeps_trans _ _ _ K (calm_keeps _ _ (proj1 K) C1)) as K1. set (s1 := set_pos (src_pos s + blen w) s) in *. pose proof (proj2 K1) as P1.
  apply hx_bind, hx_input. intros inp2 H3. destruct inp2 as [|c r2]; [apply (a_unterminated (fun x => x + 1)); [exact VB|lia]|].
  destruct (N.eqb_spec c 10) as [->|C10]. { change 1 with (blen [10%N]). apply hx_bind, (p_adv code [10%N] r2); [exact H3|]. intros _. apply hx_bind, hx_line. apply IH. eapply keeps_trans; [exact K1|]. apply (line_live s1 r2); [apply K1|exact H3]. }
  destruct (N.eqb_spec c 92) as [->|_]. { eapply hx_use; [eapply a_escape; [apply K1|exact H3]| |intros e s' (X & -> & Y); split; [exact X|split; [exact K1|exact Y]]]. intros bs' s2 C. apply IH. eapply keeps_trans; [exact K1|apply calm_keeps; [apply K1|exact C]]. }
  destruct (N.eqb_spec c 39) as [->|_]; [|apply (a_unterminated (fun x => x + 1)); [exact VB|lia]].
  change 1 with (blen [39%N]). apply hx_bind, (a_adv [39%N] r2); [exact H3|apply quiet1; discriminate|]. intros C _. apply hx_ret. eapply keeps_trans; [exact K1|apply calm_keeps; [apply K1|exact C]].
Qed.
Lemma a_open o1 c2 inp s : spot s inp -> quiet o1 -> c2 <> 10%N ->
  hx (if starts_with o1 inp then advance_bytes code (blen o1) ;;; tret true else if starts_with_c c2 inp then advance_bytes code 1 ;;; tret true else tret false) s
     (fun b s' => if (b : bool) then calm s s' else s' = s) (fun _ _ => False).
Proof.
  intros H Q C2. destruct (starts_with o1 inp) eqn:E1; [|destruct (starts_with_c c2 inp) eqn:E2; [|apply hx_ret; reflexivity]].
  - destruct (sw_split _ _ E1) as (r & ->). apply hx_bind, (a_adv o1 r); [exact H|exact Q|]. intros C _. apply hx_ret. exact C.
  - destruct (sw1_split _ _ E2) as (r & ->). apply hx_bind. apply hx_advb. intros w q H' B _. apply hx_ret. pose proof (spot_fun _ _ _ _ H H') as X. destruct w as [|x w]; [discriminate B|]. injection X as <- X.
    cbn [blen] in B. pose proof (clen_pos c2). destruct w as [|y w]; [|cbn [blen] in B; pose proof (clen_pos y); lia]. apply (calm_adv s [c2] q H'), quiet1, C2.
Qed.
Lemma bad_refl s : bad s SENone s. Proof. apply bad_none, calm_refl. Qed.
Lemma calm_goes s s' : live s -> calm s s' -> goes s s'. Proof. intros V C. apply keeps_goes, calm_keeps; auto. Qed.
Lemma a_sq_string lf s : live s -> hx (match_sq_string code lf) s (fun _ => goes s) (bad s).
Proof.
  intros V. unfold match_sq_string. apply hx_bind, hx_input. intros inp H. destruct (blen inp <? 2); [apply bad_refl|].
  apply hx_bind, hx_get. eapply hx_use; [apply (a_open (s2l "b'") 39%N); [exact H|repeat constructor; discriminate|discriminate]| |intros ? ? []]. intros [|] s1; [|intros ->; apply bad_refl]. intros C1.
  eapply hx_use; [apply a_sq; [exact V|apply calm_keeps; [exact V|exact C1]]| |intros e s' X; apply fails_bad, X]. intros bs s2 K2. apply hx_bind, hx_pos, hx_ret. apply keeps_goes, K2.
Qed.

Lemma a_comments s : live s -> hx (match_comments code) s (fun _ => goes s) (bad s).
Proof.
  intros V. unfold match_comments. apply hx_bind, hx_input. intros inp H. apply hx_bind, hx_pos. cbv zeta.
  assert (FIN : forall s1 w doc, quiet w -> calm s s1 ->
    hx ((fun s => TOk tt (next_lines (lines_count w - 1) s)) ;;; p <- input_pos ;; (let sp := mk_span (src_pos s) p in tret (TComment w, if (doc : bool) then set_doc (Some []) sp else sp))) s1 (fun _ => goes s) (bad s)).
  { intros s1 w doc Q C1. apply hx_bind. unfold LexInv.hx at 1. rewrite (quiet_count w Q). cbn [next_lines]. apply hx_bind, hx_pos. cbv zeta. apply hx_ret. apply calm_goes; auto. }
  assert (ONE : forall o r0, inp = s2l o ++ r0 -> quiet (s2l o) ->
    hx (advance_bytes code (blen (s2l o)) ;;; inp2 <- input code ;; (r <- advance_chars code (match position (fun x => x =? 10)%N inp2 with Some e => e | None => blen inp2 end) ;;
      (fun s => TOk tt (next_lines (lines_count r - 1) s)) ;;; p <- input_pos ;; (let sp := mk_span (src_pos s) p in tret (TComment r, sp)))) s (fun _ => goes s) (bad s)).
  { intros o r0 -> QO. apply hx_bind, (a_adv _ r0); [exact H|exact QO|]. intros C1 H2. apply hx_bind, hx_input. intros inp2 H3.
    assert (QI : quiet (firstn (match position (fun x => x =? 10)%N inp2 with Some e => e | None => blen inp2 end) inp2)).
    { destruct (position (fun x => x =? 10)%N inp2) eqn:P; [apply (quiet_before (fun x => x =? 10)%N)|apply (quiet_nowhere (fun x => x =? 10)%N)]; auto. }
    apply hx_bind, (a_advc _ inp2); [exact H3|exact QI|]. intros w r _ W _ C2 _. apply (FIN _ w false); [rewrite W; exact QI|eapply calm_trans; eauto]. }
  assert (TWO : forall o r0 doc, inp = s2l o ++ r0 -> In o ["/*"; "/**"]%string ->
    hx (advance_bytes code (blen (s2l o)) ;;; inp2 <- input code ;; match find_sub (s2l "*/") inp2 with None => p <- input_pos ;; terr (SEUnterminated (s2l "comment") (mk_span p p)) | Some e => r <- advance_bytes code e ;; advance_bytes code 2 ;;; (fun s => TOk tt (next_lines (lines_count r - 1) s)) ;;; p <- input_pos ;; (let sp := mk_span (src_pos s) p in tret (TComment r, if (doc : bool) then set_doc (Some []) sp else sp)) end) s (fun _ => goes s) (bad s)).
  { intros o r0 doc -> I. assert (QO : quiet (s2l o)) by (destruct I as [<-|[<-|[]]]; repeat constructor; discriminate).
    apply hx_bind, (a_adv _ r0); [exact H|exact QO|]. intros C1 H2. apply hx_bind, hx_input. intros inp2 H3. pose proof (spot_fun _ _ _ _ H2 H3) as <-. destruct (find_sub (s2l "*/") r0) as [e|] eqn:E.
    - destruct (find_first _ _ _ (ltac:(discriminate) : s2l "*/" <> []) E) as (w & r & -> & <- & F).
      assert (QW : quiet w).
      { apply (quiet_first (s2l "*/") w r F); [|discriminate]. intros m q X. destruct (drop_split _ _ _ H) as (pre & EC & _). apply (cl_comment _ CL o pre m q I). rewrite EC. rewrite X. reflexivity. }
      apply hx_bind, (a_adv _ (s2l "*/" ++ r)); [exact H2|exact QW|]. intros C2 H4. change 2 with (blen (s2l "*/")). apply hx_bind, (a_adv _ r); [exact H4|repeat constructor; discriminate|]. intros C3 H5.
      apply (FIN _ w doc QW). eapply calm_trans; [exact C1|eapply calm_trans; eauto].
    - apply hx_bind, hx_pos, hx_err. apply fails_bad. split; [discriminate|]. split; [apply calm_keeps; auto|]. unfold errs. cbn [err_span mk_span sp_start sp_end]. auto. }
  destruct (starts_with_c 35 inp) eqn:E1; [|destruct (starts_with (s2l "//") inp) eqn:E2].
  - destruct (sw1_split _ _ E1) as (r0 & ->). apply (ONE "#"%string r0); [reflexivity|repeat constructor; discriminate].
  - destruct (sw_split _ _ E2) as (r0 & ->). apply (ONE "//"%string r0); [reflexivity|repeat constructor; discriminate].
  - cbn [Nat.ltb Nat.leb]. destruct (starts_with (s2l "/**") inp) eqn:E3.
    + destruct (sw_split _ _ E3) as (r0 & ->). apply (TWO "/**"%string r0 true); [reflexivity|cbn; auto].
    + destruct (starts_with (s2l "/*") inp) eqn:E4; cbn [Nat.ltb Nat.leb]; [|apply bad_refl].
      destruct (sw_split _ _ E4) as (r0 & ->). apply (TWO "/*"%string r0 false); [reflexivity|cbn; auto].
Qed.

(** ** Keywords, operators and tags *)
Definition word_ok (w : str) : bool := forallb (fun c => negb (c =? 10)%N) (to_lower w) && (blen (to_lower w) =? blen w).
Lemma a_alias alias k a s : word_ok alias = true ->
  hx (match_token_alias code alias k a) s
     (fun t s' => exists s1 r, spot s (to_lower alias ++ r) /\ calm s s1 /\ src_pos s1 = src_pos s + blen alias /\ spot s1 r /\ do_act a s1 = TOk tt s' /\ t = (Kw k, mk_span (src_pos s) (src_pos s1)))
     (fun e s' => e = SENone /\ s' = s /\ forall inp, spot s inp -> starts_with_ci inp alias = false).
Proof.
  intros O. apply andb_true_iff in O as [O1 O2]. apply Nat.eqb_eq in O2.
  assert (Q : quiet (to_lower alias)) by (apply Forall_forall; intros c I ->; rewrite forallb_forall in O1; discriminate (O1 _ I)).
  unfold match_token_alias. apply hx_bind, hx_input. intros inp H. destruct (starts_with_ci inp alias) eqn:SW.
  2:{ split; [reflexivity|]. split; [reflexivity|]. intros inp' H'. rewrite <- (spot_fun _ _ _ _ H H'). exact SW. }
  unfold starts_with_ci in SW. apply str_eqb_eq in SW. assert (SP : spot s (to_lower alias ++ skipn (blen alias) inp)) by (rewrite <- SW, firstn_skipn; exact H).
  apply hx_bind, hx_pos, hx_bind. rewrite <- O2. apply (a_adv _ (skipn (blen alias) inp)); [exact SP|exact Q|]. intros C H2. apply hx_bind, hx_pos, hx_bind. rewrite O2 in *. set (s1 := set_pos (src_pos s + blen alias) s) in *. unfold LexInv.hx. destruct (do_act a s1) as [u s'|e s'|p|] eqn:D; [|destruct a; try discriminate D|exact Logic.I|].
  - destruct u. exists s1, (skipn (blen alias) inp). auto 10.
  - unfold do_act, pop_state in D. destruct (lstack _); discriminate.
  - destruct a; try discriminate D. unfold do_act, pop_state in D. destruct (lstack _); discriminate.
Qed.
(** "yield" and white space *)
Definition yields (s : tst) : Prop := exists w c r, spot s (w ++ c :: r) /\ List.length w = 5 /\ is_label_char c = false.
Definition oth (s : tst) (t : tokspan) (s' : tst) : Prop :=
  sp_end (snd t) = src_pos s' /\ src_pos s <= src_pos s' /\ ~ In LInitial (lstack s') /\
  (lmode s' = LInitial -> exists r, spot s (63%N :: 62%N :: r) /\ spot s' r) /\
  ((lines s' = lines s /\ to (src_pos s') = to (src_pos s)) \/ yields s /\ LI s' /\ src_pos s + 5 <= src_pos s').
Lemma oth_calm s t s' : live s -> calm s s' -> sp_end (snd t) = src_pos s' -> oth s t s'.
Proof.
  intros V C E. pose proof (calm_live _ _ C V) as (_ & M & N). split; [exact E|]. split; [apply calm_pos, C|]. split; [exact N|]. split; [rewrite M; discriminate|]. left. destruct C as (p & -> & _ & F). auto.
Qed.
Definition entry_ok (e : entry) : bool := word_ok (s2l (fst (fst e))) && match snd e with ASet LInitial => str_eqb (to_lower (s2l (fst (fst e)))) (s2l "?>") | APush LInitial => false | _ => true end.
Lemma a_entry r k a s : entry_ok (r, k, a) = true -> live s -> hx (match_token_alias code (s2l r) k a) s (oth s) (fun e s' => e = SENone /\ s' = s).
Proof.
  intros O V. unfold entry_ok in O. cbn [fst snd] in O. apply andb_true_iff in O as [O1 O2]. eapply hx_mono; [apply a_alias, O1| |intros e s' (X & Y & _); auto].
  intros t s' (s1 & q & SP & C & P & SQ & D & ->). pose proof (calm_live _ _ C V) as (_ & M1 & N1). pose proof (calm_pos _ _ C) as P1.
  assert (E : lines s1 = lines s /\ to (src_pos s1) = to (src_pos s)) by (destruct C as (p & -> & _ & F); auto). unfold oth. cbn [snd mk_span sp_end].
  destruct a as [|m|m|]; cbn [do_act] in D.
  - injection D as <-. rewrite M1. refine (conj eq_refl (conj P1 (conj N1 (conj _ (or_introl E))))). discriminate.
  - injection D as <-. cbn [src_pos set_mode lstack lmode lines]. refine (conj eq_refl (conj P1 (conj N1 (conj _ (or_introl E))))). intros ->. apply str_eqb_eq in O2. rewrite O2 in SP. exists q. split; [exact SP|exact SQ].
  - injection D as <-. cbn [src_pos set_mode set_stack lstack lmode lines]. rewrite M1. refine (conj eq_refl (conj P1 (conj _ (conj _ (or_introl E))))); [intros [X|X]; [discriminate|auto]|]. intros ->. discriminate O2.
  - unfold pop_state in D. destruct (lstack s1) as [|m st]; [discriminate|]. injection D as <-. cbn [src_pos set_mode set_stack lstack lmode lines]. refine (conj eq_refl (conj P1 (conj _ (conj _ (or_introl E))))); [intros X; apply N1; right; exact X|]. intros ->. destruct N1. left. reflexivity.
Qed.
Definition finals (s : tst) (m : T tokspan) : Prop := hx m s (oth s) (fun e s' => e = SEUnknownCharacter (mk_span (src_pos s) (src_pos s + 1)) /\ s' = s).
Definition tries (s : tst) (m : T tokspan) : Prop := hx m s (oth s) (fun e s' => e = SENone /\ s' = s).
Lemma t_chain s m k : tries s m -> finals s k -> finals s (ret_token m k).
Proof. intros M K. apply hx_none; [exact M|exact K]. Qed.
Lemma t_entries l k s : forallb entry_ok l = true -> live s -> finals s k -> finals s (try_entries code l k).
Proof.
  intros O V K. induction l as [|[[r kd] a] l IH]; [exact K|]. cbn [forallb] in O. apply andb_true_iff in O as [O1 O2]. cbn [try_entries]. apply t_chain; [apply a_entry; auto|apply IH, O2].
Qed.
Lemma t_yield s : live s -> tries s (match_yield code).
Proof.
  intros V. unfold tries, match_yield. apply hx_bind, hx_input. intros inp H. destruct (starts_with_ci inp (s2l "yield")) eqn:SW; [|split; reflexivity].
  unfold starts_with_ci in SW. apply str_eqb_eq in SW. change (to_lower (s2l "yield")) with (s2l "yield") in SW. change (blen (s2l "yield")) with 5 in SW. assert (SP : spot s (s2l "yield" ++ skipn 5 inp)) by (rewrite <- SW, firstn_skipn; exact H).
  apply hx_bind, hx_pos. change 5 with (blen (s2l "yield")) at 1. apply hx_bind, (a_adv _ (skipn 5 inp)); [exact SP|repeat constructor; discriminate|]. intros C1 H2. pose proof (calm_live _ _ C1 V) as V1. change (blen (s2l "yield")) with 5 in *. set (s1 := set_pos (src_pos s + 5) s) in *. assert (P1 : src_pos s1 = src_pos s + 5) by reflexivity.
  unfold whitespace. apply hx_bind, hx_bind, hx_input. intros inp1 H3. pose proof (spot_fun _ _ _ _ H2 H3) as <-. unfold LexInv.hx at 1. destruct (a_ws _ s1 H2) as (X & Y & Z & P & WS & _). set (s2 := whitespace_loop (skipn 5 inp) s1) in *.
  assert (K : forall k s3, calm s2 s3 -> oth s (Kw k, mk_span (src_pos s) (src_pos s3)) s3).
  { intros k s3 C3. destruct WS as [WS|(c & r & WS & WC)].
    - apply oth_calm; [exact V| |reflexivity]. rewrite WS in C3. eapply calm_trans; eauto.
    - assert (V2 : live s2) by (destruct V1 as (A & B & C); split; [apply Z, A|]; rewrite X, Y; auto). pose proof (calm_live _ _ C3 V2) as (A3 & M3 & N3). pose proof (calm_pos _ _ C3).
      split; [reflexivity|]. split; [lia|]. split; [exact N3|]. split; [rewrite M3; discriminate|]. right. split; [|split; [exact A3|lia]].
      exists (s2l "yield"), c, r. rewrite <- WS. split; [exact SP|]. split; [reflexivity|]. unfold is_ws in WC. rewrite !orb_true_iff, !N.eqb_eq in WC. destruct WC as [[[-> | ->]| ->]| ->]; reflexivity. }
  apply hx_bind, hx_input. intros inp2 H4. destruct (starts_with_ci inp2 (s2l "from")) eqn:SF.
  - unfold starts_with_ci in SF. apply str_eqb_eq in SF. change (to_lower (s2l "from")) with (s2l "from") in SF. change (blen (s2l "from")) with 4 in SF. assert (SP4 : spot s2 (s2l "from" ++ skipn 4 inp2)) by (rewrite <- SF, firstn_skipn; exact H4).
    change 4 with (blen (s2l "from")) at 1. apply hx_bind, (a_adv _ (skipn 4 inp2)); [exact SP4|repeat constructor; discriminate|]. intros C4 _. apply hx_bind, hx_pos, hx_ret. apply K, C4.
  - apply hx_bind, hx_pos, hx_ret. apply K, calm_refl.
Qed.
Lemma a_casts l s : forallb (fun e => match snd e with ANone => word_ok (s2l (fst (fst e))) | _ => false end) l = true ->
  hx (try_entries code l (terr SENone)) s (fun t s' => calm s s') (fun e s' => s' = s).
Proof.
  induction l as [|[[r kd] a] l IH]; intros O; [reflexivity|]. cbn [forallb fst snd] in O. apply andb_true_iff in O as [O1 O2]. cbn [try_entries]. destruct a; try discriminate O1. apply hx_none; [|apply IH, O2].
  eapply hx_mono; [apply a_alias, O1| |].
  - intros t s' (s1 & q & _ & C & _ & _ & D & _). injection D as <-. exact C.
  - intros e s' (-> & -> & _). auto.
Qed.
Lemma t_cast s : live s -> tries s (match_cast code).
Proof.
  intros V. unfold tries, match_cast. apply hx_bind, hx_input. intros inp H. destruct (starts_with_c 40 inp) eqn:SW; [|split; reflexivity]. destruct (sw1_split _ _ SW) as (r1 & ->).
  apply hx_bind, hx_pos. change 1 with (blen [40%N]) at 1. apply hx_bind, (a_adv [40%N] r1); [exact H|apply quiet1; discriminate|]. intros C1 _. eapply hx_use; [apply a_ws_only| |intros ? ? []]. intros [] s2 C2. pose proof (calm_trans _ _ _ C1 C2) as C3.
  unfold LexInv.hx. pose proof (a_casts cast_table s2 eq_refl) as K. unfold LexInv.hx in K. destruct (try_entries code cast_table (terr SENone) s2) as [t s3|e s3|pp|]; auto.
  - pose proof (calm_trans _ _ _ C3 K) as C4. change (hx (whitespace_only code;;; inp0 <- input code;; (if starts_with_c 41 inp0 then advance_bytes code 1;;; p0 <- input_pos;; tret (fst t, mk_span (src_pos s) p0) else put_pos (src_pos s);;; terr SENone)) s3 (oth s) (fun e s' => e = SENone /\ s' = s)).
    eapply hx_use; [apply a_ws_only| |intros ? ? []]. intros [] s4 C5. apply hx_bind, hx_input. intros inp2 H2. pose proof (calm_trans _ _ _ C4 C5) as C6. destruct (starts_with_c 41 inp2) eqn:SW2.
    + destruct (sw1_split _ _ SW2) as (r2 & ->). change 1 with (blen [41%N]). apply hx_bind, (a_adv [41%N] r2); [exact H2|apply quiet1; discriminate|]. intros C7 _. apply hx_bind, hx_pos, hx_ret. apply oth_calm; [exact V|eapply calm_trans; eauto|reflexivity].
    + apply hx_bind, hx_putpos, hx_err. split; [reflexivity|]. apply calm_back, C6.
  - subst s3. apply hx_bind, hx_putpos, hx_err. split; [reflexivity|]. apply calm_back, C3.
Qed.
Lemma f_other s : live s -> finals s (in_scripting_other_token code).
Proof.
  intros V. unfold in_scripting_other_token. apply t_entries; [vm_compute; reflexivity|exact V|]. apply t_chain; [apply t_yield, V|]. apply t_entries; [vm_compute; reflexivity|exact V|]. apply t_chain; [apply t_cast, V|]. apply t_entries; [vm_compute; reflexivity|exact V|].
  apply t_chain.
  { unfold tries, match_close_brace. apply hx_bind. eapply hx_mono; [apply (a_entry "}" KCurlyBracesClose APop s eq_refl V)| |auto]. intros t s' T. apply hx_ret. exact T. }
  apply t_entries; [vm_compute; reflexivity|exact V|]. apply t_chain.
  - unfold tries, m_token. apply hx_bind, hx_input. intros [|c r] H; [apply hx_ret, oth_calm; [exact V|apply calm_refl|]; apply spot_len in H; cbn in *; lia|]. destruct (simple_token c) as [k|] eqn:S; [|split; reflexivity].
    assert (CN : c <> 10%N) by (intros ->; discriminate S). apply hx_bind, (a_advc 1 (c :: r)); [exact H|apply quiet1, CN|]. intros w q _ W _ C _. apply hx_bind, hx_pos, hx_bind, hx_sub. intros _. apply hx_ret. apply oth_calm; [exact V|exact C|reflexivity].
  - unfold finals, unknown_character. apply hx_bind, hx_pos, hx_err. auto.
Qed.
Lemma oth_G s t s' : live s -> oth s t s' -> goes s s'.
Proof.
  intros (A & B & C) (E & P & N & M & D). split; [|exact P]. split; [|split; [exact N|]].
  - destruct D as [(D1 & D2)|(_ & D & _)]; [|exact D]. unfold LI in *. rewrite D1, D2. exact A.
  - intros X. destruct (M X) as (r & S1 & S2). intros m q H. pose proof (spot_fun _ _ _ _ S2 H) as ->. destruct (drop_split _ _ _ S1) as (pre & EC & _). exact (cl_close _ CL pre m q EC).
Qed.
Lemma a_label_or_other s c r0 : live s -> spot s (c :: r0) -> c <> 10%N -> hx (label_or_other code (src_pos s)) s (fun _ => goes s) (bad s).
Proof.
  intros V H CN. unfold label_or_other. eapply hx_use; [apply a_label| |intros ? ? []]. intros l s1 HL. apply hx_bind, hx_putpos.
  assert (E1 : set_pos (src_pos s) s1 = s) by (destruct l as [[w sp]|]; [apply calm_back, HL|subst s1; destruct s; reflexivity]). rewrite E1.
  pose proof (f_other s V) as O. unfold finals in O. unfold LexInv.hx in *. destruct (in_scripting_other_token code s) as [t s'|e s'|p|]; auto.
  - pose proof (oth_G _ _ _ V O) as K. pose proof O as (E & P & N & M & D). assert (KK : goes s (set_pos (sp_end (snd t)) s')) by (rewrite E; replace (set_pos (src_pos s') s') with s' by (destruct s'; reflexivity); exact K).
    destruct l as [[name sp]|]; [|exact KK]. destruct (Nat.leb_spec (sp_end sp) (sp_end (snd t))) as [X|X]; [exact KK|]. destruct HL as (_ & r & SP & LC & NE & _ & ->). cbn [mk_span sp_end] in *. pose proof (len_le name) as LN.
    split; [|cbn [src_pos set_pos]; lia]. split; [|split; [exact N|]].
    + destruct V as (A & _ & _). unfold LI in *. cbn [lines src_pos set_pos]. rewrite (to_move s name r (src_pos s + List.length name) SP (label_quiet _ LC)) by lia.
      destruct D as [(D1 & D2)|((w & c1 & r1 & S1 & W5 & C1) & _ & D)]; [rewrite D1; exact A|]. exfalso. pose proof (spot_fun _ _ _ _ SP S1) as EQ.
      assert (List.length name <= 5).
      { destruct (Nat.le_gt_cases (List.length name) 5) as [Z|Z]; [exact Z|exfalso]. assert (NX : nth_error name 5 = Some c1).
        { rewrite <- (nth_error_app1 name r Z), EQ, nth_error_app2 by lia. rewrite W5. reflexivity. }
        apply nth_error_In in NX. rewrite Forall_forall in LC. rewrite (LC _ NX) in C1. discriminate. }
      lia.
    + cbn [lmode set_pos]. intros MI. exfalso. destruct (M MI) as (r1 & S1 & _). pose proof (spot_fun _ _ _ _ SP S1) as EQ. destruct name as [|n0 name]; [congruence|]. injection EQ as -> _. inversion LC; subst. discriminate.
  - destruct O as (-> & ->). destruct l as [[name sp]|].
    + destruct HL as (_ & r & SP & LC & NE & _ & ->). cbn [mk_span sp_end]. pose proof (len_le name) as LN. apply calm_goes; [exact V|]. eexists. split; [reflexivity|]. split; [lia|]. apply (to_move s name r _ SP (label_quiet _ LC)). lia.
    + cbn [err_span mk_span sp_end]. apply fails_bad. split; [discriminate|]. pose proof (clen_pos c). assert (T1 : to (src_pos s + 1) = to (src_pos s)) by (apply (to_move s [c] r0 _ H (quiet1 _ CN)); cbn [blen]; lia). split.
      * apply calm_keeps; [exact V|]. eexists. split; [reflexivity|]. split; [lia|exact T1].
      * unfold errs. cbn [err_span mk_span sp_start sp_end src_pos set_pos]. split; [lia|]. rewrite T1. reflexivity.
Qed.

(** ** Strings with variables *)
Section Interp.
Variable nt : T tokspan.
Variable lf : nat.
Definition out (s : tst) (e : syntax_error) (s' : tst) : Prop := goes s s' /\ errs e s'.
Definition nt_ok : Prop := forall s, G s -> hx nt s (fun _ => goes s) (out s).
Hypothesis NT : nt_ok.
Lemma a_block n : forall toks s, G s -> hx (block_loop nt n toks) s (fun _ s' => goes s s') (fun _ _ => False).
Proof.
  induction n as [|n IH]; intros toks s H; cbn [block_loop]; [exact Logic.I|]. unfold LexInv.hx. pose proof (NT s H) as K. unfold LexInv.hx in K. destruct (nt s) as [t s'|e s'|p|]; auto.
  - destruct K as (K & P). specialize (IH (toks ++ [t]) s' K). unfold LexInv.hx in IH. destruct (block_loop nt n (toks ++ [t]) s'); auto. eapply goes_from; [exact P|exact IH].
  - apply K.
Qed.
Lemma a_flush bs parts start s : hx (flush bs parts start) s (fun _ s' => s' = s) (fun _ _ => False).
Proof. unfold flush. destruct bs; [apply hx_ret; reflexivity|]. apply hx_bind, hx_sub. intros _. apply hx_ret. reflexivity. Qed.
Lemma a_str_block bs parts rd r s : live s -> spot s (123%N :: r) -> hx (str_block code nt lf bs parts rd) s (fun _ s' => keeps s s') (fun _ _ => False).
Proof.
  intros V H. unfold str_block. change 1 with (blen [123%N]) at 1. apply hx_bind, (a_adv [123%N] r); [exact H|apply quiet1; discriminate|]. intros C1 H2. set (s1 := set_pos (src_pos s + blen [123%N]) s) in *. pose proof (calm_live _ _ C1 V) as V1. pose proof (calm_pos _ _ C1) as P1.
  apply hx_bind, hx_input. intros inp H3. destruct (starts_with_c 36 inp || negb rd)%bool; [|apply hx_ret, calm_keeps; auto].
  apply hx_bind, hx_get, hx_bind, hx_put, hx_bind, hx_pos, hx_bind, hx_sub. intros _.
  eapply hx_use; [apply a_block| |intros ? ? []].
  { destruct V1 as (A & B & D). split; [exact A|]. split; [cbn; intuition discriminate|]. cbn. discriminate. }
  intros toks s2 ((L2 & _) & P2). cbn [src_pos set_stack set_mode] in P2.
  assert (BAD : hx (trestore s1 ;;; tret (bs, parts)) s2 (fun _ s' => keeps s s') (fun _ _ => False)).
  { apply hx_bind, hx_restore, hx_ret. split; [apply live_restore, V1|exact P1]. }
  destruct (last _ _) as [[k| | | | | | | |] sp0]; try exact BAD. destruct k; try exact BAD.
  apply hx_bind, hx_sub. intros _. eapply hx_use; [apply a_flush| |intros ? ? []]. intros parts' s3 ->. apply hx_bind, hx_get, hx_bind, hx_put, hx_ret. destruct V1 as (A & B & D). split; [|cbn [src_pos set_stack set_mode]; lia]. split; [exact L2|]. auto.
Qed.
Lemma a_str_variable bs parts r s : live s -> spot s (36%N :: r) -> hx (str_variable code nt lf bs parts) s (fun r s' => keeps s s') (fun _ _ => False).
Proof.
  intros V H. unfold str_variable. change 1 with (blen [36%N]) at 1. apply hx_bind, (a_adv [36%N] r); [exact H|apply quiet1; discriminate|]. intros C1 H2. set (s1 := set_pos (src_pos s + blen [36%N]) s) in *. pose proof (calm_live _ _ C1 V) as V1. pose proof (calm_pos _ _ C1) as P1.
  apply hx_bind, hx_input. intros inp H3. pose proof (spot_fun _ _ _ _ H2 H3) as <-. destruct (starts_with_c 123 r) eqn:C.
  - destruct (sw1_split _ _ C) as (r0 & ->). apply hx_bind, hx_pos, hx_bind, hx_sub. intros _. eapply hx_use; [apply a_flush| |intros ? ? []]. intros parts1 s2 ->. cbv zeta.
    eapply hx_use; [apply (a_str_block [] parts1 false r0 s1 V1 H2)| |intros ? ? []]. intros [bs2 parts2] s3 K3. pose proof (keeps_trans _ _ _ (calm_keeps _ _ V C1) K3) as K. destruct (nth_error parts2 _) as [[[k| | | | | | | |] sp]|]; try exact Logic.I. destruct k; try exact Logic.I.
    apply hx_bind, hx_sub. intros _. apply hx_ret. exact K.
  - eapply hx_use; [apply a_label| |intros ? ? []]. intros [[name sp]|] s2; [|intros ->; apply hx_ret, calm_keeps; auto].
    intros (C2 & _). pose proof (calm_trans _ _ _ C1 C2) as C3. apply hx_bind, hx_input. intros inp2 H4. destruct (starts_with_c 91 inp2); [exact Logic.I|].
    assert (K : forall tmp s3, calm s2 s3 -> hx (start <- tsub (sp_start sp) 1 ;; parts0 <- flush bs parts start ;; tret ([], parts0 ++ [(TVariable name, mk_span start (sp_end sp))] ++ tmp)) s3 (fun (_ : bytes * list tokspan) s' => keeps s s') (fun _ _ => False)).
    { intros tmp s3 C4. apply hx_bind, hx_sub. intros _. eapply hx_use; [apply a_flush| |intros ? ? []]. intros parts1 s4 ->. apply hx_ret. apply calm_keeps; [exact V|eapply calm_trans; eauto]. }
    destruct (starts_with (s2l "->") inp2) eqn:AR; [|apply hx_bind, hx_ret, K, calm_refl].
    destruct (sw_split _ _ AR) as (r2 & ->). apply hx_bind. apply hx_bind, hx_pos. change 2 with (blen (s2l "->")) at 1. apply hx_bind, (a_adv (s2l "->") r2); [exact H4|repeat constructor; discriminate|]. intros C4 _.
    eapply hx_use; [apply a_label| |intros ? ? []]. intros [[prop sp2]|] s4.
    + intros (C5 & _). apply hx_ret, K. eapply calm_trans; eauto.
    + intros ->. apply hx_bind, hx_putpos, hx_ret, K. apply calm_put, C4.
Qed.
Lemma a_dq_end inp s : hx (dq_end_pos inp) s (fun e s' => s' = s /\ quiet (firstn e inp)) (fun _ _ => False).
Proof.
  unfold dq_end_pos. destruct (position dq_special inp) eqn:P; [apply hx_ret; split; [reflexivity|apply (quiet_before dq_special); auto]|]. apply hx_sub. intros _. split; [reflexivity|apply (quiet_nowhere dq_special); auto].
Qed.
Lemma a_dq bak n : live bak -> forall bs parts s, keeps bak s -> hx (dq_loop code nt lf n bak bs parts) s (fun _ s' => keeps bak s') (fails bak).
Proof.
  intros VB. induction n as [|n IH]; intros bs parts s K; cbn [dq_loop]; [exact Logic.I|].
  apply hx_bind, hx_input. intros inp H. eapply hx_use; [apply a_dq_end| |intros ? ? []]. intros e s' (-> & QE). cbv zeta. apply hx_bind, (a_advc _ inp); [exact H|exact QE|]. intros w r _ _ _ C1 H2. pose proof (keeps_trans _ _ _ K (calm_keeps _ _ (proj1 K) C1)) as K1. set (s1 := set_pos (src_pos s + blen w) s) in *. pose proof (proj2 K1) as P1. pose proof (proj1 K1) as V1.
  apply hx_bind, hx_input. intros inp2 H3. pose proof (spot_fun _ _ _ _ H2 H3) as <-. destruct r as [|c r]; [apply (a_unterminated (fun x => x)); auto|].
  destruct (N.eqb_spec c 10) as [->|_]. { change 1 with (blen [10%N]). apply hx_bind, (p_adv code [10%N] r); [exact H3|]. intros _. apply hx_bind, hx_line. apply IH. eapply keeps_trans; [exact K1|]. apply (line_live s1 r); [exact V1|exact H3]. }
  destruct (N.eqb_spec c 92) as [->|_]. { eapply hx_use; [eapply a_escape; [exact V1|exact H3]| |intros e' s' (X & -> & Y); split; [exact X|split; [exact K1|exact Y]]]. intros bs' s2 C. apply IH. eapply keeps_trans; [exact K1|apply calm_keeps; [exact V1|exact C]]. }
  destruct (N.eqb_spec c 34) as [->|_]. { change 1 with (blen [34%N]). apply hx_bind, (a_adv [34%N] r); [exact H3|apply quiet1; discriminate|]. intros C _. apply hx_ret. eapply keeps_trans; [exact K1|apply calm_keeps; [exact V1|exact C]]. }
  destruct (N.eqb_spec c 36) as [->|_]. { eapply hx_use; [eapply (a_str_variable _ _ r); [exact V1|exact H3]| |intros ? ? []]. intros r0 s2 K2. apply IH. eapply keeps_trans; eauto. }
  destruct (N.eqb_spec c 123) as [->|_]; [|apply (a_unterminated (fun x => x)); auto].
  eapply hx_use; [eapply (a_str_block _ _ true r); [exact V1|exact H3]| |intros ? ? []]. intros r0 s2 K2. apply IH. eapply keeps_trans; eauto.
Qed.
Lemma a_bq bak n : live bak -> forall bs parts s, keeps bak s -> hx (bq_loop code nt lf n bak bs parts) s (fun _ s' => keeps bak s') (fails bak).
Proof.
  intros VB. induction n as [|n IH]; intros bs parts s K; cbn [bq_loop]; [exact Logic.I|].
  apply hx_bind, hx_input. intros inp H. eapply hx_use; [apply a_dq_end| |intros ? ? []]. intros e s' (-> & QE). cbv zeta. apply hx_bind, (a_advc _ inp); [exact H|exact QE|]. intros w r _ _ _ C1 H2. pose proof (keeps_trans _ _ _ K (calm_keeps _ _ (proj1 K) C1)) as K1. set (s1 := set_pos (src_pos s + blen w) s) in *. pose proof (proj2 K1) as P1. pose proof (proj1 K1) as V1.
  apply hx_bind, hx_input. intros inp2 H3. pose proof (spot_fun _ _ _ _ H2 H3) as <-. destruct r as [|c r]; [apply (a_unterminated (fun x => x)); auto|].
  destruct (N.eqb_spec c 10) as [->|_]. { change 1 with (blen [10%N]). apply hx_bind, (p_adv code [10%N] r); [exact H3|]. intros _. apply hx_bind, hx_line. apply IH. eapply keeps_trans; [exact K1|]. apply (line_live s1 r); [exact V1|exact H3]. }
  destruct (N.eqb_spec c 96) as [->|_]. { change 1 with (blen [96%N]). apply hx_bind, (a_adv [96%N] r); [exact H3|apply quiet1; discriminate|]. intros C _. apply hx_ret. eapply keeps_trans; [exact K1|apply calm_keeps; [exact V1|exact C]]. }
  destruct (N.eqb_spec c 36) as [->|_]. { eapply hx_use; [eapply (a_str_variable _ _ r); [exact V1|exact H3]| |intros ? ? []]. intros r0 s2 K2. apply IH. eapply keeps_trans; eauto. }
  destruct (N.eqb_spec c 123) as [->|_]; [|apply (a_unterminated (fun x => x)); auto].
  eapply hx_use; [eapply (a_str_block _ _ true r); [exact V1|exact H3]| |intros ? ? []]. intros r0 s2 K2. apply IH. eapply keeps_trans; eauto.
Qed.
Lemma a_return b t t' bs parts s : keeps b s -> hx (return_tokens_from_parts t t' bs parts) s (fun _ => goes b) (fun _ _ => False).
Proof.
  intros ((A & B & D) & P). apply hx_bind, hx_get. cbv zeta. apply hx_bind, hx_put, hx_bind, hx_push, hx_ret. split; [|exact P]. split; [exact A|]. cbn [lstack lmode set_mode set_stack set_queue]. split; [rewrite B; intros [X|X]; [discriminate|auto]|discriminate].
Qed.
Lemma a_dq_string s : live s -> hx (match_dq_string code nt lf) s (fun _ => goes s) (bad s).
Proof.
  intros V. unfold match_dq_string. apply hx_bind, hx_input. intros inp H. destruct (blen inp <? 2); [apply bad_refl|].
  apply hx_bind, hx_get. eapply hx_use; [apply (a_open (s2l "b""") 34%N); [exact H|repeat constructor; discriminate|discriminate]| |intros ? ? []]. intros [|] s1; [|intros ->; apply bad_refl]. intros C1.
  eapply hx_use; [apply a_dq; [exact V|apply calm_keeps; [exact V|exact C1]]| |intros e s' X; apply fails_bad, X]. intros r s2 K2. apply hx_bind, hx_pos, hx_bind, hx_sub. intros _.
  eapply hx_mono; [apply a_return, K2|auto|intros ? ? []].
Qed.
Lemma a_backquote s : live s -> hx (match_backquote code nt lf) s (fun _ => goes s) (bad s).
Proof.
  intros V. unfold match_backquote. apply hx_bind, hx_input. intros inp H. destruct (blen inp <? 2); [apply bad_refl|]. destruct (starts_with_c 96 inp) eqn:E; [|apply bad_refl].
  destruct (sw1_split _ _ E) as (r0 & ->). apply hx_bind, hx_get. change 1 with (blen [96%N]) at 1. apply hx_bind, (a_adv [96%N] r0); [exact H|apply quiet1; discriminate|]. intros C1 _.
  eapply hx_use; [apply a_bq; [exact V|apply calm_keeps; [exact V|exact C1]]| |intros e s' X; apply fails_bad, X]. intros r s2 K2. apply hx_bind, hx_pos, hx_bind, hx_sub. intros _.
  eapply hx_mono; [apply a_return, K2|auto|intros ? ? []].
Qed.
Lemma a_heredoc s : hx (match_here_now_doc code nt lf) s (fun _ _ => False) (fun e s' => e = SENone /\ s' = s).
Proof.
  unfold match_here_now_doc. apply hx_bind, hx_input. intros inp H. destruct (blen inp <? 8); [split; reflexivity|]. apply hx_bind, hx_get. destruct (drop_split _ _ _ H) as (pre & EC & _).
  destruct (starts_with (s2l "b<<<") inp) eqn:E1. { destruct (sw_split _ _ E1) as (r & ->). destruct (cl_doc _ CL (pre ++ s2l "b") r). rewrite EC, <- app_assoc. reflexivity. }
  destruct (starts_with (s2l "<<<") inp) eqn:E2. { destruct (sw_split _ _ E2) as (r & ->). destruct (cl_doc _ CL pre r). exact EC. }
  apply hx_bind, hx_ret. split; reflexivity.
Qed.

(** ** One call of [next_token] *)
Lemma s_chain s0 (m k : T tokspan) s : live s0 -> calm s0 s -> hx m s (fun _ => goes s) (bad s) -> (forall s', calm s0 s' -> hx k s' (fun _ => goes s0) (bad s0)) -> hx (ret_token m k) s (fun _ => goes s0) (bad s0).
Proof.
  intros V C H K. apply hx_ret_token. eapply hx_mono; [exact H| |].
  - intros t s' X. eapply goes_from; [apply calm_pos, C|exact X].
  - intros e s' X. pose proof (bad_from _ _ _ _ C X) as Y. split; [intros E; apply K, Y, E|intros _; exact Y].
Qed.
Lemma simply_hx (m : T tokspan) s : live s -> simply m s -> hx m s (fun _ => goes s) (bad s).
Proof. intros V H. eapply hx_mono; [exact H|intros t s' C; apply calm_goes; auto|]. intros e s' (-> & C). apply bad_none, C. Qed.
Lemma a_scripting s : live s -> hx (in_scripting_token code nt lf) s (fun _ => goes s) (fun e s' => out s e s').
Proof.
  intros V. unfold in_scripting_token. eapply hx_use; [apply a_whitespace, V| |intros ? ? []]. intros [] s0 (K0 & NL). pose proof (proj1 K0) as V0. pose proof (proj2 K0) as P0.
  eapply hx_mono with (Q := fun _ => goes s0) (E := bad s0); [|intros t s' X; eapply goes_from; eauto|].
  2:{ intros e s' (X & Y). destruct e.
    - split; [|exact Logic.I]. eapply goes_from; [exact P0|]. apply calm_goes; [exact V0|apply X; reflexivity].
    - destruct Y as (Y & Z); [discriminate|]. split; [|exact Z]. eapply goes_from; [exact P0|]. apply keeps_goes, Y.
    - destruct Y as (Y & Z); [discriminate|]. split; [|exact Z]. eapply goes_from; [exact P0|]. apply keeps_goes, Y. }
  apply hx_bind, hx_input. intros [|c r] H; [apply hx_ret; split; [apply live_G, V0|auto]|]. apply hx_bind, hx_pos.
  assert (CN : c <> 10%N) by (intros ->; exact (NL r H)). pose proof (fun s' => calm_live s0 s') as LV.
  apply s_chain; [exact V0|apply calm_refl|eapply hx_mono; [apply a_heredoc|intros ? ? []|intros e s' (-> & ->); apply bad_refl]|]. intros s1 C1.
  apply s_chain; [exact V0|exact C1|apply simply_hx; [apply LV; auto|]; apply (a_prefixed "0b"%string); [cbn; auto|reflexivity]|]. intros s2 C2.
  apply s_chain; [exact V0|exact C2|apply simply_hx; [apply LV; auto|]; apply (a_prefixed "0x"%string); [cbn; auto|reflexivity]|]. intros s3 C3.
  apply s_chain; [exact V0|exact C3|apply simply_hx; [apply LV; auto|]; apply a_onum|]. intros s4 C4.
  apply s_chain; [exact V0|exact C4|apply a_dq_string, LV; auto|]. intros s5 C5.
  apply s_chain; [exact V0|exact C5|apply simply_hx; [apply LV; auto|]; apply a_variable|]. intros s6 C6.
  apply s_chain; [exact V0|exact C6|apply a_sq_string, LV; auto|]. intros s7 C7.
  apply s_chain; [exact V0|exact C7|apply a_comments, LV; auto|]. intros s8 C8.
  apply s_chain; [exact V0|exact C8|apply a_backquote, LV; auto|]. intros s9 C9.
  apply hx_bind, hx_putpos. rewrite (calm_back _ _ C9). apply (a_label_or_other s0 c r V0 H CN).
Qed.
Lemma pop_G s m st : LI s -> ~ In LInitial (lstack s) -> lstack s = m :: st -> G (set_mode m (set_stack st s)).
Proof. intros A N E. rewrite E in N. split; [exact A|]. cbn. split; [intros X; apply N; right; exact X|]. intros ->. destruct N. left. reflexivity. Qed.
Lemma a_property s : G s -> lmode s = LLookingForProperty -> hx (looking_for_property_token code) s (fun _ => goes s) (out s).
Proof.
  intros (A & N & _) M. unfold looking_for_property_token, whitespace. apply hx_bind, hx_bind, hx_input. intros inp H. unfold LexInv.hx at 1. destruct (a_ws inp s H) as (X & Y & Z & P & _ & _). set (s0 := whitespace_loop inp s) in *.
  assert (A0 : LI s0) by auto. assert (N0 : ~ In LInitial (lstack s0)) by (rewrite Y; exact N). assert (M0 : lmode s0 = LLookingForProperty) by congruence.
  assert (C0 : forall s', calm s0 s' -> LI s' /\ lstack s' = lstack s0 /\ lmode s' = lmode s0 /\ src_pos s <= src_pos s').
  { intros s' (p & -> & PP & F). unfold LI in *. cbn [lines src_pos set_pos lstack lmode]. rewrite F. repeat split; auto. lia. }
  apply hx_none.
  { eapply hx_mono; [apply (a_alias (s2l "->")); reflexivity| |intros e s' (U & W & _); auto]. intros t s' (s1 & q & _ & C & _ & _ & D & _). injection D as <-. destruct (C0 _ C) as (U1 & U2 & U3 & U4). split; [|exact U4]. split; [exact U1|]. rewrite U2, U3, M0. split; [exact N0|discriminate]. }
  eapply hx_use; [apply a_label| |intros ? ? []]. intros [[x sp]|] s1.
  - intros (C & _). destruct (C0 _ C) as (U1 & U2 & U3 & U4). apply hx_bind, hx_pop. intros m st E. apply hx_ret. split; [|exact U4]. apply pop_G; auto. rewrite U2. exact N0.
  - intros ->. apply hx_bind, hx_pop. intros m st E. unfold LexInv.hx. split; [|exact Logic.I]. split; [|exact P]. exact (pop_G s0 m st A0 N0 E).
Qed.
Lemma a_initial s : G s -> lmode s = LInitial -> hx (initial_token code) s (fun _ => goes s) (out s).
Proof.
  intros (A & N & AH) M. specialize (AH M). unfold initial_token. apply hx_bind, hx_input. intros [|c r] H.
  { unfold LexInv.hx. split; [|auto]. split; [exact A|]. split; [exact N|discriminate]. }
  set (inp := c :: r) in *.
  assert (AL : forall a k kk, word_ok a = true -> hx kk s (fun _ => goes s) (out s) -> hx (ret_token (match_token_alias code a k (ASet LInScripting)) kk) s (fun _ => goes s) (out s)).
  { intros a k kk O KK. apply hx_none; [|exact KK]. eapply hx_mono; [apply a_alias, O| |intros e s' (X & Y & _); auto].
    intros t s' (s1 & q & _ & (p & -> & P & F) & _ & _ & D & _). injection D as <-. split; [|exact P]. unfold G, LI in *. cbn [lines src_pos set_pos set_mode lstack lmode]. rewrite F. repeat split; auto. discriminate. }
  apply AL; [reflexivity|]. apply AL; [reflexivity|]. apply AL; [reflexivity|]. cbv zeta.
  set (e := match find_sub (s2l "<?") inp with None => blen inp | Some x => x end). destruct (negb (e =? 0)).
  2:{ apply hx_ret. split; [|auto]. repeat split; auto. }
  assert (W : exists w q, inp = w ++ q /\ blen w = e /\ quiet w /\ forall m t, q = m ++ 10%N :: t -> has (s2l "<?") m).
  { subst e. destruct (find_sub (s2l "<?") inp) as [x|] eqn:F.
    - destruct (find_first _ _ _ (ltac:(discriminate) : s2l "<?" <> []) F) as (w & b & E & <- & FF). exists w, (s2l "<?" ++ b). split; [exact E|]. split; [reflexivity|]. split.
      + apply (quiet_first (s2l "<?") w b); [rewrite <- E; exact FF| |discriminate]. rewrite <- E. intros m t X. apply (AH m t). rewrite <- X. exact H.
      + intros m t X. destruct m as [|m0 [|m1 m]]; try discriminate X. injection X as <- <- X. exists [], m. reflexivity.
    - exists inp, []. rewrite app_nil_r. split; [reflexivity|]. split; [reflexivity|]. split; [|intros [|] ? X; discriminate X].
      destruct (first_newline inp) as [Q|(x & y & E & _)]; [exact Q|exfalso]. rewrite E in H. destruct (AH _ _ H) as (u & v & ->). apply (find_sub_none _ _ F u (v ++ 10%N :: y)). rewrite E, <- !app_assoc. reflexivity. }
  destruct W as (w & q & E & B & QW & AW). apply hx_bind, hx_pos. rewrite <- B at 1. apply hx_bind, (a_adv w q); [rewrite <- E; exact H|exact QW|]. intros (p & EP & PP & F) H2. apply hx_ret. assert (p = src_pos s + blen w) by (injection EP; auto). subst p.
  split; [|cbn [src_pos set_pos]; lia]. unfold G, LI in *. cbn [lines src_pos set_pos lstack lmode]. rewrite F. split; [exact A|]. split; [exact N|]. intros _ m t X. apply (AW m t). exact (spot_fun _ _ _ _ H2 X).
Qed.
Lemma a_scan s : G s -> lmode s <> LEmitQueue -> hx (scan code nt lf) s (fun _ => goes s) (out s).
Proof.
  intros H NE. assert (ST : out s SENone s) by (split; [split; auto|exact Logic.I]). unfold LexInv.hx, scan. destruct (lmode s) eqn:M; try exact ST.
  - exact (a_initial s H M).
  - assert (V : live s) by (destruct H as (A & B & D); split; auto). exact (a_scripting s V).
  - exact (a_property s H M).
Qed.
Lemma out_from a b e c : src_pos a <= src_pos b -> out b e c -> out a e c. Proof. intros P (X & Y). split; [eapply goes_from; eauto|exact Y]. Qed.
Lemma a_nt_loop n : forall s, G s -> hx (nt_loop code nt lf n) s (fun _ => goes s) (out s).
Proof.
  induction n as [|n IH]; intros s H; [exact Logic.I|]. cbn [nt_loop]. unfold LexInv.hx.
  assert (S : lmode s <> LEmitQueue -> match match scan code nt lf s with TErr SENone s' => if restart s' then nt_loop code nt lf n (set_restart false s') else TErr SENone s' | r => r end with
    TOk t s' => goes s s' | TErr e s' => out s e s' | TPanic _ => True | TFuel => True end).
  { intros M. pose proof (a_scan s H M) as K. unfold LexInv.hx in K. destruct (scan code nt lf s) as [t s'|e s'|p|]; auto. destruct e; auto. destruct (restart s'); [|exact K]. destruct K as ((K & P) & _).
    assert (K' : G (set_restart false s')) by exact K. specialize (IH _ K'). unfold LexInv.hx in IH. destruct (nt_loop code nt lf n (set_restart false s')); auto; [eapply goes_from; eauto|eapply out_from; eauto]. }
  destruct (lmode s) eqn:M; try (apply S; discriminate). destruct (queue s) as [|x q] eqn:Q.
  - unfold pop_state. destruct (lstack s) as [|m st] eqn:ST; [exact Logic.I|]. destruct H as (A & N & _).
    assert (K' : G (set_restart true (set_mode m (set_stack st s)))) by exact (pop_G s m st A N ST). specialize (IH _ K'). unfold LexInv.hx in IH. exact IH.
  - split; [|auto]. destruct H as (A & N & B). split; [exact A|]. split; [exact N|]. cbn [lmode set_queue]. rewrite M. discriminate.
Qed.
End Interp.

Lemma a_next_token f : nt_ok (next_token code f).
Proof. induction f as [|f IH]; [intros s _; exact Logic.I|]. intros s H. cbn [next_token]. apply a_nt_loop; auto. Qed.
Lemma G_init : G tst_init.
Proof.
  split; [|split; [intros []|]].
  - unfold LI. cbn [lines src_pos tst_init]. rewrite (to_near [] [] code 0); [reflexivity|reflexivity|constructor|cbn; lia].
  - intros _ m r H. destruct (drop_split _ _ _ H) as (pre & EC & B). cbn [src_pos tst_init] in B. destruct pre as [|c pre]; [|cbn [blen] in B; pose proof (clen_pos c); lia]. exact (cl_html _ CL m r EC).
Qed.
Lemma a_tokenize_loop n f : forall acc s, G s -> tidy s ->
  match tokenize_loop code n f acc s with
  | DOk (_, s') => lines s' = 0 :: starts 0 code
  | DErr (e, s') => LI s' /\ errs e s'
  | _ => True
  end.
Proof.
  induction n as [|n IH]; intros acc s H TD; cbn [tokenize_loop]; [exact Logic.I|]. destruct f as [|f]; [exact Logic.I|]. cbn [next_token].
  pose proof (a_nt_loop _ f (a_next_token f) f s H) as K. pose proof (p_nt_loop code (next_token code f) f (proj1 (p_next_token code f)) (proj2 (p_next_token code f)) f s TD) as K2. unfold LexInv.hx in K, K2.
  destruct (nt_loop code (next_token code f) f f s) as [[t sp] s1|e s1|p|]; try exact Logic.I.
  2:{ destruct K as (((A & _) & _) & B). auto. }
  destruct K as (K & _).
  assert (GO : noend (t, sp) -> match tokenize_loop code n (S f) (acc ++ [(t, sp)]) s1 with DOk (_, s') => lines s' = 0 :: starts 0 code | DErr (e, s') => LI s' /\ errs e s' | _ => True end).
  { intros NN. apply IH; [exact K|]. destruct K2 as [((E & _) & _)|(T1 & _)]; [destruct (NN E)|exact T1]. }
  destruct t as [k| | | | | | | |]; try (apply GO; discriminate). destruct k; try (apply GO; discriminate).
  destruct K2 as [((_ & _ & P & _) & _)|(_ & NN & _)]; [|destruct NN; reflexivity]. destruct K as (A & _). unfold LI in A. rewrite A, to_end by lia. reflexivity.
Qed.
End Lines.
