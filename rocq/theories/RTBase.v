(** * RTBase: from printed pieces to tokens (C20) *)
From Verif Require Import Base Tokens Ast AstMap Lexer Parser Printer Driver Spec SpecProg SpecRT SmallFacts ParserRel ParserFacts LexBase LexSteps LexTok LexWords LexNum LexFacts LexRun ParseRun ParseTac ParseExpr ParseStmt ParseDecl Emit ProgNames.
From Coq Require Import String Ascii.

(** ** The text of printed pieces *)
Definition out_str (o : out) : str := flat_map (fun p => match p with Txt s => s | Boom => [] end) o.
Definition newl : str := [10%N].
Lemma out_app a b : out_str (a ++ b) = out_str a ++ out_str b.
Proof. apply flat_map_app. Qed.
Lemma out_t s : out_str (t s) = s2l s.
Proof. unfold out_str, t. cbn. apply app_nil_r. Qed.
Lemma out_w s : out_str (w s) = s.
Proof. unfold out_str, w. cbn. apply app_nil_r. Qed.
Lemma out_nl : out_str nl = newl.
Proof. reflexivity. Qed.
Lemma out_nil : out_str [] = [].
Proof. reflexivity. Qed.
Lemma out_flat {A} (f : A -> out) l : out_str (flat_map f l) = flat_map (fun a => out_str (f a)) l.
Proof. induction l as [|a l IH]; auto. cbn [flat_map]. rewrite out_app, IH. reflexivity. Qed.
Lemma render_out o x : render o = Some x -> out_str o = x.
Proof.
  revert x. induction o as [|[s|] o IH]; cbn; intros x H; [congruence| |discriminate].
  destruct (render o) as [y|]; [|discriminate]. injection H as <-. f_equal. apply IH. reflexivity.
Qed.
Ltac outs := rewrite ?out_app, ?out_t, ?out_w, ?out_nl, ?out_nil, <- ?app_assoc; cbn [app].

(** ** Literals *)
Fixpoint span_s (f : ascii -> bool) (s : string) : string * string :=
  match s with
  | EmptyString => (EmptyString, EmptyString)
  | String c r => if f c then let (a, b) := span_s f r in (String c a, b) else (EmptyString, s)
  end.
Definition ach (f : N -> bool) (c : ascii) : bool := f (N_of_ascii c).
Definition best_op (s : string) : nat :=
  fold_left (fun n (p : string * kind) => if String.prefix (fst p) s then Nat.max n (String.length (fst p)) else n) operators 0.
Inductive lexeme := LxBlank | LxWord | LxOp.
Definition cut1 (s : string) : lexeme * (string * string) :=
  match s with
  | EmptyString => (LxBlank, (EmptyString, EmptyString))
  | String c _ =>
    if ach is_ws c then (LxBlank, span_s (ach is_ws) s)
    else if ach is_label_char c then (LxWord, span_s (ach is_label_char) s)
    else let n := best_op s in (LxOp, (String.substring 0 n s, String.substring n (String.length s) s))
  end.
Lemma seen_nl st r vs : seen LInScripting st r vs -> seen LInScripting st (newl ++ r) vs.
Proof. apply (seen_ws st newl). reflexivity. Qed.
Ltac lx_do st l a :=
  lazymatch l with
  | LxBlank => apply (seen_ws st (s2l a)); [reflexivity|]
  | LxWord => eapply (seen_kw st a); [reflexivity|try reflexivity| |reflexivity]
  | LxOp =>
    lazymatch a with
    | "("%string => apply seen_paren
    | "{"%string => apply seen_curly
    | "}"%string => apply seen_curly_close
    | "?>"%string => apply seen_close_tag
    | _ => eapply (seen_op st a); [reflexivity|try reflexivity|]
    end
  end.
Ltac lx1 :=
  lazymatch goal with
  | |- seen LInScripting ?st (newl ++ ?r) ?vs => apply seen_nl
  | |- seen LInScripting ?st (s2l ?s ++ ?r) ?vs =>
    let c := eval vm_compute in (cut1 s) in
    lazymatch c with
    | (?l, (?a, EmptyString)) => lx_do st l a
    | (?l, (?a, ?b)) => change (s2l s ++ r) with (s2l a ++ (s2l b ++ r)); lx_do st l a
    end
  | |- seen LInScripting ?st (s2l ?s) ?vs =>
    let x := constr:(s2l s ++ []) in
    change (s2l s) with x
  end.
Lemma indent_blank n : blank (out_str (indent n)) = true.
Proof. induction n as [|n IH]; auto. Qed.
Lemma seen_indent st n r vs : seen LInScripting st r vs -> seen LInScripting st (out_str (indent n) ++ r) vs.
Proof. apply seen_ws, indent_blank. Qed.

(** ** Texts of expressions *)
Definition hword (c : N) : bool := (is_label_char c && negb (is_digit c)) || existsb (N.eqb c) [36; 39; 91; 40; 92]%N.
Definition hsoft (c : N) : bool := hword c || is_digit c.
Definition hfull (c : N) : bool := hsoft c || existsb (N.eqb c) [43; 45; 33; 126; 64]%N.
(** what may follow *)
Definition aft (r : str) : bool := follows r && negb (starts_with_c 46 r).
Definition text (h : N -> bool) (a : str -> bool) (x : str) (ts : list token) : Prop :=
  (exists c y, x = c :: y /\ h c = true) /\
  (forall r, a r = true -> cast_tail (x ++ r) = None) /\
  (forall st r vs, a r = true -> seen LInScripting st r vs -> seen LInScripting st (x ++ r) (ts ++ vs)).
Lemma text_weak (h h' : N -> bool) (a a' : str -> bool) x ts : (forall c, h c = true -> h' c = true) -> (forall r, a' r = true -> a r = true) ->
  text h a x ts -> text h' a' x ts.
Proof. intros H A ((c & y & E & C) & X & Y). split; [eauto 6|]. split; auto. Qed.
Lemma soft_word c : hword c = true -> hsoft c = true.
Proof. unfold hsoft. intros ->. reflexivity. Qed.
Lemma full_soft c : hsoft c = true -> hfull c = true.
Proof. unfold hfull. intros ->. reflexivity. Qed.
Lemma aft_follows r : aft r = true -> follows r = true.
Proof. unfold aft. intros H. apply andb_prop in H. tauto. Qed.
Lemma text_cast h a x ts r : text h a x ts -> a r = true -> cast_tail (x ++ r) = None.
Proof. intros (_ & X & _). apply X. Qed.
Lemma text_seen h a x ts st r vs : text h a x ts -> a r = true -> seen LInScripting st r vs -> seen LInScripting st (x ++ r) (ts ++ vs).
Proof. intros (_ & _ & X). apply X. Qed.
Lemma text_stops h a x ts op r : text h a x ts -> forallb (fun c => negb (h c)) (bad op) = true -> stops op (x ++ r) = true.
Proof. intros ((c & y & -> & C) & _) B. cbn [app]. apply (stops_class h); auto. Qed.
Lemma text_full_word x ts : text hword follows x ts -> text hfull aft x ts.
Proof. apply text_weak; auto using soft_word, full_soft, aft_follows. Qed.
Lemma text_full_soft x ts : text hsoft aft x ts -> text hfull aft x ts.
Proof. apply text_weak; auto using full_soft. Qed.

(** ** Casts *)
Lemma cast_letters e : In e cast_table -> forallb is_lower (spelling e) = true /\ spelling e <> [].
Proof.
  assert (B : forallb (fun e => forallb is_lower (spelling e) && match spelling e with [] => false | _ => true end) cast_table = true) by (vm_compute; reflexivity).
  intros I. rewrite forallb_forall in B. specialize (B e I). apply andb_prop in B. destruct B as [B C]. split; auto. intros X. rewrite X in C. discriminate.
Qed.
Lemma cast_other c r : is_lower c = false -> ((c =? 32) || (c =? 9))%N = false -> cast_tail (c :: r) = None.
Proof.
  intros L B. unfold cast_tail. cbn [skip_blank]. rewrite B. destruct (find_entry cast_table (c :: r)) as [e|] eqn:F; auto. exfalso.
  apply find_some in F. destruct F as [F1 F2]. destruct (cast_letters e F1) as [G1 G2]. destruct (spelling e) as [|x z]; [congruence|].
  cbn in F2. apply andb_prop in F2. destruct F2 as [F2 _]. apply N.eqb_eq in F2. subst x. cbn in G1. rewrite L in G1. discriminate.
Qed.
Lemma lower_label c : is_lower c = true -> is_label_char c = true.
Proof. unfold is_label_char. intros ->. reflexivity. Qed.
Lemma label_noblank c : is_label_char c = true -> ((c =? 32) || (c =? 9))%N = false /\ (c =? 41)%N = false.
Proof.
  intros H. split; [apply orb_false_intro|]; apply N.eqb_neq; intros ->; discriminate.
Qed.
Lemma cast_label w r : w <> [] -> forallb is_label_char w = true -> head_is is_label_char r = false ->
  cast_word w = false \/ head_is (N.eqb 41) (skip_blank r) = false -> cast_tail (w ++ r) = None.
Proof.
  intros NE W E C. unfold cast_tail.
  assert (SB : skip_blank (w ++ r) = w ++ r).
  { destruct w as [|c w]; [congruence|]. cbn in W. apply andb_prop in W. destruct W as [W _]. cbn. destruct (label_noblank c W) as [-> _]. reflexivity. }
  rewrite SB. destruct (find_entry cast_table (w ++ r)) as [e|] eqn:F; auto.
  apply find_some in F. destruct F as [F1 F2]. destruct (cast_letters e F1) as [G1 G2]. destruct (cast_word_entry e F1) as [K1 K2].
  assert (P : starts_with (spelling e) w = true).
  { eapply prefix_word; eauto. apply forallb_forall. intros x I. rewrite forallb_forall in G1. auto using lower_label. }
  apply starts_with_iff in P. destruct P as (z & ->). rewrite <- app_assoc, skipn_app, skipn_all, Nat.sub_diag. cbn [skipn app].
  destruct z as [|c z].
  - cbn [app]. destruct C as [C|C].
    + exfalso. rewrite app_nil_r in C. unfold cast_word in C. rewrite K2 in C. apply not_true_iff_false in C. apply C. apply existsb_exists. eexists. split; [exact K1|].
      apply str_eqb_eq. reflexivity.
    + destruct (skip_blank r) as [|c y]; auto. cbn [head_is] in C. rewrite N.eqb_sym in C. rewrite C. reflexivity.
  - rewrite forallb_app in W. apply andb_prop in W. destruct W as [_ W]. cbn in W. apply andb_prop in W. destruct W as [W _].
    destruct (label_noblank c W) as [B1 B2]. cbn [app skip_blank]. rewrite B1, B2. reflexivity.
Qed.

(** ** Strings *)
Fixpoint sq_print (s : str) : str :=
  match s with
  | [] => []
  | c :: r =>
    if (c =? 39)%N then 92%N :: 39%N :: sq_print r
    else if (c =? 92)%N then
      match r with
      | [] => [92; 92]%N
      | d :: r' => if (d =? 39)%N then 92%N :: 92%N :: 92%N :: 39%N :: sq_print r' else 92%N :: sq_print r
      end
    else c :: sq_print r
  end.
Lemma ends_cons c o : o <> [] -> ends_with_bs (c :: o) = ends_with_bs o.
Proof.
  intros NE. unfold ends_with_bs. cbn [rev]. destruct (rev o) as [|x y] eqn:E; [|reflexivity].
  exfalso. apply NE. rewrite <- (rev_involutive o), E. reflexivity.
Qed.
Definition closed (o : str) : str := o ++ (if ends_with_bs o then s2l "\" else []).
Lemma closed_cons c o : o <> [] -> closed (c :: o) = c :: closed o.
Proof. intros NE. unfold closed. rewrite ends_cons; auto. Qed.
Lemma closed_nil : closed [] = [].
Proof. reflexivity. Qed.
Lemma closed_one c : (c =? 92)%N = false -> closed [c] = [c].
Proof. unfold closed, ends_with_bs. cbn. intros ->. reflexivity. Qed.
Lemma bs_quote_cons c r : (c =? 92)%N = false -> escape_bs_quote (c :: r) = c :: escape_bs_quote r.
Proof. intros H. apply N.eqb_neq in H. destruct c as [|p]; auto. repeat (destruct p as [p|p|]; auto; try congruence). Qed.
Lemma bs_quote_92 d r : (d =? 39)%N = false -> escape_bs_quote (92%N :: d :: r) = 92%N :: escape_bs_quote (d :: r).
Proof. intros H. apply N.eqb_neq in H. destruct d as [|p]; auto. repeat (destruct p as [p|p|]; auto; try congruence). Qed.
Lemma sq_print_ne c r : sq_print (c :: r) <> [].
Proof. cbn. destruct (c =? 39)%N; [discriminate|]. destruct (c =? 92)%N; [|discriminate]. destruct r as [|d r]; [discriminate|]. destruct (d =? 39)%N; discriminate. Qed.
Lemma pr_sq : forall n s, List.length s <= n -> closed (escape_quote (escape_bs_quote s)) = sq_print s.
Proof.
  induction n as [|n IH]; intros s L; [destruct s; [reflexivity|cbn in L; lia]|].
  destruct s as [|c r]; [reflexivity|]. cbn [List.length] in L.
  assert (CC : forall c r, List.length r <= n -> (c =? 92)%N = false -> closed (c :: escape_quote (escape_bs_quote r)) = c :: sq_print r).
  { intros c0 r0 L0 C0. destruct (escape_quote (escape_bs_quote r0)) as [|x y] eqn:E.
    - rewrite closed_one by auto. rewrite <- (IH r0) by lia. rewrite E. reflexivity.
    - rewrite closed_cons by discriminate. rewrite <- E, IH by lia. reflexivity. }
  cbn [sq_print]. destruct (c =? 39)%N eqn:Q.
  - apply N.eqb_eq in Q. subst c. rewrite bs_quote_cons by reflexivity. cbn [escape_quote N.eqb Pos.eqb].
    rewrite closed_cons by discriminate. f_equal. apply CC; [lia|reflexivity].
  - destruct (c =? 92)%N eqn:B.
    + apply N.eqb_eq in B. subst c. destruct r as [|d r]; [reflexivity|]. destruct (d =? 39)%N eqn:D.
      * apply N.eqb_eq in D. subst d. cbn [escape_bs_quote escape_quote N.eqb Pos.eqb].
        rewrite !(closed_cons 92%N) by discriminate. do 3 f_equal. apply CC; [cbn in L; lia|reflexivity].
      * rewrite bs_quote_92 by auto. cbn [escape_quote]. rewrite Q. rewrite <- (IH (d :: r)) by (cbn in *; lia).
        destruct (escape_quote (escape_bs_quote (d :: r))) as [|x y] eqn:E; [|rewrite closed_cons by discriminate; reflexivity].
        exfalso. apply (sq_print_ne d r). rewrite <- (IH (d :: r)) by (cbn in *; lia). rewrite E. reflexivity.
    + rewrite bs_quote_cons by auto. cbn [escape_quote]. rewrite Q. apply CC; [lia|auto].
Qed.
Lemma out_string s : out_str (pr_string s) = s2l "'" ++ sq_print s ++ s2l "'".
Proof.
  unfold pr_string. rewrite <- (pr_sq (List.length s) s (le_n _)). unfold closed. outs. destruct (ends_with_bs _); outs; reflexivity.
Qed.
Lemma sq_print_ok : forall n s, List.length s <= n -> two_backslashes s = false -> sq_content (sq_print s) = true /\ sq_decode (sq_print s) = s.
Proof.
  induction n as [|n IH]; intros s L T; [destruct s; [split; reflexivity|cbn in L; lia]|].
  destruct s as [|c r]; [split; reflexivity|]. cbn [List.length] in L.
  assert (Tr : two_backslashes r = false).
  { cbn [two_backslashes] in T. destruct r as [|d r]; [reflexivity|]. apply orb_false_elim in T. tauto. }
  destruct (IH r ltac:(lia) Tr) as [I1 I2]. cbn [sq_print]. destruct (c =? 39)%N eqn:Q.
  - apply N.eqb_eq in Q. subst c. cbn. rewrite I1, I2. auto.
  - destruct (c =? 92)%N eqn:B.
    + apply N.eqb_eq in B. subst c. destruct r as [|d r]; [split; reflexivity|]. cbn [List.length] in L. destruct (d =? 39)%N eqn:D.
      * apply N.eqb_eq in D. subst d. destruct (IH r ltac:(lia)) as [J1 J2].
        { cbn [two_backslashes] in Tr. destruct r as [|e r]; [reflexivity|]. apply orb_false_elim in Tr. tauto. }
        cbn. rewrite J1, J2. auto.
      * cbn [two_backslashes] in T. apply orb_false_elim in T. destruct T as [T _]. cbn [N.eqb Pos.eqb andb] in T.
        assert (E : sq_print (d :: r) = d :: sq_print r) by (cbn [sq_print]; rewrite D, T; reflexivity). rewrite E in I1, I2 |- *.
        cbn [sq_content N.eqb Pos.eqb] in *. cbn [sq_content] in I1. rewrite D, T in I1. split; [exact I1|].
        change (sq_decode (92%N :: d :: sq_print r)) with (if (92 =? 92)%N && ((d =? 92) || (d =? 39))%N then d :: sq_decode (sq_print r) else 92%N :: sq_decode (d :: sq_print r)).
        rewrite T, D. cbn [orb andb]. rewrite I2. reflexivity.
    + cbn [sq_content]. rewrite Q, B. split; [exact I1|]. cbn [sq_decode]. destruct (sq_print r) as [|x y] eqn:E.
      * destruct r as [|d r]; [reflexivity|]. exfalso. exact (sq_print_ne d r E).
      * rewrite B. cbn [andb]. rewrite I2. reflexivity.
Qed.
Lemma scalar_b_ok s : forallb scalar_b s = true -> Forall scalar s.
Proof.
  rewrite forallb_forall. intros H. apply Forall_forall. intros c I. specialize (H c I). unfold scalar_b in H. unfold scalar.
  apply orb_prop in H. destruct H as [H|H]; [apply N.ltb_lt in H; auto|]. apply andb_prop in H. destruct H as [A B]. apply N.leb_le in A. apply N.ltb_lt in B. auto.
Qed.
Lemma string_text s : string_ok s = true -> text hword follows (out_str (pr_string s)) [TCes s].
Proof.
  intros H. unfold string_ok in H. apply andb_prop in H. destruct H as [H1 H2]. apply negb_true_iff in H1.
  destruct (sq_print_ok _ s (le_n _) H1) as [C D]. rewrite out_string. split; [|split].
  - exists 39%N. eexists. split; [reflexivity|reflexivity].
  - intros r _. apply cast_other; reflexivity.
  - intros st r vs F R. rewrite <- !app_assoc. rewrite <- D at 2. cbn [app]. apply seen_sq; auto. rewrite D. apply scalar_b_ok, H2.
Qed.

(** ** Numbers *)
Lemma digit_lower c : is_digit c = true -> is_lower c = false.
Proof. unfold is_digit, is_lower. intros H. apply andb_prop in H. destruct H as [A B]. apply N.leb_le in A, B. apply andb_false_iff. left. apply N.leb_gt. lia. Qed.
Lemma digit_blank c : is_digit c = true -> ((c =? 32) || (c =? 9))%N = false.
Proof. unfold is_digit. intros H. apply andb_prop in H. destruct H as [A B]. apply N.leb_le in A, B. apply orb_false_intro; apply N.eqb_neq; lia. Qed.
Lemma cast_digit c r : is_digit c = true -> cast_tail (c :: r) = None.
Proof. intros D. apply cast_other; auto using digit_lower, digit_blank. Qed.
Lemma dot_false r : negb (starts_with_c 46 r) = true -> head_is (fun c => (c =? 46)%N) r = false.
Proof. destruct r as [|c r]; auto. cbn. apply negb_true_iff. Qed.
Lemma uint_digits d : forallb is_digit (uint_str d) = true.
Proof. induction d; auto. Qed.
Lemma show_N_head n : exists c y, show_N n = c :: y /\ is_digit c = true.
Proof.
  pose proof (uint_digits (N.to_uint n)) as D. unfold show_N. destruct (uint_str (N.to_uint n)) as [|c y] eqn:E.
  - exfalso. destruct n as [|p]; [discriminate|]. change (N.to_uint (N.pos p)) with (Pos.to_uint p) in E.
    pose proof (DecimalPos.Unsigned.to_uint_nonnil p). destruct (Pos.to_uint p); try discriminate. congruence.
  - cbn in D. apply andb_prop in D. destruct D as [D _]. eauto.
Qed.
Lemma int_text z : int_ok z = true -> text hsoft aft (show_Z z) [TInt z].
Proof.
  unfold int_ok. intros H. apply andb_prop in H. destruct H as [A B]. apply Z.leb_le in A, B.
  assert (E : exists n, z = Z.of_N n /\ show_Z z = show_N n) by (destruct z; [exists 0%N; auto|eexists (Npos _); split; reflexivity|lia]).
  destruct E as (n & -> & ->). destruct (show_N_head n) as (c & y & E & D). split; [|split].
  - exists c, y. split; [exact E|]. unfold hsoft. rewrite D. apply orb_true_r.
  - intros r _. rewrite E. apply cast_digit, D.
  - intros st r vs F R. unfold aft in F. apply andb_prop in F. destruct F as [F1 F2]. cbn [app]. apply seen_int; auto using dot_false, follows_word. lia.
Qed.
Lemma fraction_split d : fraction d = true -> exists w v, d = w ++ 46%N :: v /\ Forall (fun c => is_digit c = true) w /\ Forall (fun c => is_digit c = true) v.
Proof.
  induction d as [|c r IH]; [discriminate|]. cbn. destruct (c =? 46)%N eqn:E.
  - intros H. apply N.eqb_eq in E. subst c. exists [], r. split; [reflexivity|]. split; [constructor|]. apply Forall_forall. rewrite forallb_forall in H. exact H.
  - intros H. apply andb_prop in H. destruct H as [H1 H2]. destruct (IH H2) as (w & v & -> & W & V). exists (c :: w), v. split; [reflexivity|]. split; auto.
Qed.
Lemma ends_digit r : ends_word r = true -> head_is is_digit r = false.
Proof.
  destruct r as [|c r]; auto. unfold ends_word, head_is, is_digit. intros H. apply negb_true_iff in H. apply orb_false_elim in H. destruct H as [H _]. apply orb_false_elim in H. tauto.
Qed.
Lemma double_text sf d : double_ok sf d = true -> text hsoft aft (sf d) [TDouble d].
Proof.
  unfold double_ok. intros H. apply andb_prop in H. destruct H as [H H3]. apply andb_prop in H. destruct H as [H1 H2].
  apply str_eqb_eq in H1. rewrite H1. destruct (fraction_split d H2) as (w & v & -> & W & V). destruct w as [|c w]; [discriminate|]. cbn [app] in H3.
  split; [|split].
  - exists c. eexists. split; [reflexivity|]. unfold hsoft. replace (is_digit c) with true by (symmetry; exact H3). apply orb_true_r.
  - intros r _. cbn [app]. apply cast_digit. exact H3.
  - intros st r vs F R. unfold aft in F. apply andb_prop in F. destruct F as [F1 F2]. apply seen_dbl; auto; [discriminate|auto using ends_digit, follows_word].
Qed.

(** ** Variables *)
Lemma var_text v : name_ok v = true -> text hword follows (s2l "$" ++ v) [TVariable v].
Proof.
  intros V. split; [|split].
  - exists 36%N. eexists. split; reflexivity.
  - intros r _. apply cast_other; reflexivity.
  - intros st r vs F R. rewrite <- app_assoc. cbn [app]. apply seen_var; auto using follows_word.
Qed.

(** ** Names *)
Lemma joined_split s : joined (split_ns s) = s.
Proof.
  induction s as [|c r IH]; [reflexivity|]. cbn [split_ns]. assert (NE : split_ns r <> []).
  { destruct r as [|d r]; [discriminate|]. cbn. destruct (d =? 92)%N; [discriminate|]. destruct (split_ns r); discriminate. }
  destruct (split_ns r) as [|a l]; [congruence|]. destruct (N.eqb_spec c 92) as [->|].
  - change (joined ([] :: a :: l)) with (s2l "\" ++ joined (a :: l)). rewrite IH. reflexivity.
  - destruct l as [|b l]; [cbn in *; congruence|].
    change (joined (a :: b :: l)) with (a ++ s2l "\" ++ joined (b :: l)) in IH.
    change (joined ((c :: a) :: b :: l)) with (c :: a ++ s2l "\" ++ joined (b :: l)). congruence.
Qed.
Definition path_text (p : path) : str := name_text (is_absolute p) (frags p).
Definition path_tokens (p : path) : list token := path_toks (is_absolute p) (frags p).
Lemma frags_ne p : frags p <> [].
Proof. unfold frags. intros H. apply app_eq_nil in H. destruct H. discriminate. Qed.
Lemma split_ne s : split_ns s <> [].
Proof. destruct s as [|c r]; [discriminate|]. cbn. destruct (c =? 92)%N; [discriminate|]. destruct (split_ns r); discriminate. Qed.
Lemma out_path p : out_str (pr_path p) = path_text p.
Proof.
  unfold pr_path, path_text, name_text, frags. rewrite out_app. f_equal; [destruct (is_absolute p); reflexivity|].
  destruct (namespace p) as [ns|]; outs; [|reflexivity].
  rewrite joined_snoc, joined_split; [reflexivity|apply split_ne].
Qed.
Lemma path_frags p : path_of (is_absolute p) (frags p) = p.
Proof.
  destruct p as [abs ns i]. unfold frags. cbn [is_absolute namespace Ast.identifier]. rewrite name_path_of. unfold name_path.
  destruct ns as [ns|]; [|reflexivity]. pose proof (split_ne ns) as NE. pose proof (joined_split ns) as J. destruct (split_ns ns); [congruence|]. rewrite J. reflexivity.
Qed.
Lemma path_cls p : Cls (path_tokens p) p.
Proof. left. exists (is_absolute p), (frags p). split; [apply frags_ne|]. split; [reflexivity|]. symmetry. apply path_frags. Qed.
Lemma path_path p : Path (path_tokens p) p.
Proof. exists (is_absolute p), (frags p). split; [apply frags_ne|]. split; [reflexivity|]. symmetry. apply path_frags. Qed.
Lemma seen_path st p r vs : path_ok p = true -> follows r = true -> seen LInScripting st r vs -> seen LInScripting st (path_text p ++ r) (path_tokens p ++ vs).
Proof. intros P F R. apply seen_name; auto. apply frags_ne. Qed.
Lemma ident_label w : Spec.identifier w = true -> w <> [] /\ forallb is_label_char w = true /\ exists c y, w = c :: y /\ hword c = true.
Proof.
  unfold Spec.identifier. destruct w as [|c w]; [discriminate|]. intros H. apply andb_prop in H. destruct H as [H1 H2]. split; [discriminate|].
  assert (L : forall c, ascii_letter c = true -> is_label_char c = true /\ is_digit c = false).
  { clear. unfold ascii_letter, is_label_char, is_lower, is_upper, is_digit. intros c H.
    apply orb_prop in H. destruct H as [H|H]; [apply orb_prop in H; destruct H as [H|H]; apply andb_prop in H; destruct H as [A B]; apply N.leb_le in A, B|apply N.eqb_eq in H].
    - split; [|apply andb_false_iff; right; apply N.leb_gt; lia]. replace (97 <=? c)%N with true by (symmetry; apply N.leb_le; lia). replace (c <=? 122)%N with true by (symmetry; apply N.leb_le; lia). reflexivity.
    - split; [|apply andb_false_iff; right; apply N.leb_gt; lia]. replace (65 <=? c)%N with true by (symmetry; apply N.leb_le; lia). replace (c <=? 90)%N with true by (symmetry; apply N.leb_le; lia). rewrite !orb_true_r. reflexivity.
    - subst. split; reflexivity. }
  destruct (L c H1) as [A B]. split.
  - cbn. rewrite A. cbn. apply forallb_forall. rewrite forallb_forall in H2. intros x I. specialize (H2 x I). apply orb_prop in H2. destruct H2 as [H2|H2]; [apply L, H2|].
    unfold is_label_char, is_digit. rewrite H2, !orb_true_r. reflexivity.
  - exists c, w. split; [reflexivity|]. unfold hword. rewrite A, B. reflexivity.
Qed.
Lemma follows_label r : follows r = true -> head_is is_label_char r = false.
Proof.
  intros F. apply follows_word in F. destruct r as [|c r]; auto. unfold ends_word in F. apply negb_true_iff in F. cbn [head_is].
  unfold is_label_char, is_lower, is_upper, is_digit. unfold ascii_letter in F.
  repeat (apply orb_false_elim in F; destruct F as [F ?]). repeat match goal with H : _ = false |- _ => rewrite H; clear H end. reflexivity.
Qed.
Lemma cast_path p r : path_ok p = true -> head_is is_label_char r = false ->
  (is_absolute p = false -> namespace p = None -> cast_word (Ast.identifier p) = true -> head_is (N.eqb 41) (skip_blank r) = false) ->
  cast_tail (path_text p ++ r) = None.
Proof.
  intros P L C. unfold path_text, name_text. destruct (is_absolute p) eqn:A.
  - rewrite <- app_assoc. apply cast_other; reflexivity.
  - cbn [app]. unfold path_ok in P. unfold frags in *. destruct (namespace p) as [ns|].
    + destruct (split_ns ns) as [|a l] eqn:S; [exfalso; exact (split_ne ns S)|]. cbn [app forallb] in P. apply andb_prop in P. destruct P as [P _].
      destruct (plain_word_facts a P) as (I & _). destruct (ident_label a I) as (N1 & N2 & _).
      assert (E : exists z, joined ((a :: l) ++ [Ast.identifier p]) ++ r = a ++ s2l "\" ++ z) by (destruct l; cbn [app]; eexists; cbn [joined]; rewrite <- !app_assoc; reflexivity).
      destruct E as (z & E). setoid_rewrite E. apply cast_label; auto.
    + cbn [app forallb] in *. apply andb_prop in P. destruct P as [P _]. destruct (plain_word_facts _ P) as (I & _). destruct (ident_label _ I) as (N1 & N2 & _).
      apply cast_label; auto. destruct (cast_word (Ast.identifier p)) eqn:CW; [right|left]; auto.
Qed.
Lemma path_head_text p : path_ok p = true -> exists c y, path_text p = c :: y /\ hword c = true.
Proof.
  intros P. unfold path_text, name_text. destruct (is_absolute p); [eexists; eexists; split; reflexivity|].
  unfold path_ok in P. destruct (frags p) as [|a l] eqn:F; [exfalso; exact (frags_ne p F)|]. cbn in P. apply andb_prop in P. destruct P as [P _].
  destruct (plain_word_facts _ P) as (I & _). destruct (ident_label _ I) as (_ & _ & c & y & -> & H). destruct l; cbn [app joined]; eauto.
Qed.
Lemma name_text_ok p : name_expr_ok p = true -> text hword follows (path_text p) (path_tokens p).
Proof.
  intros H. unfold name_expr_ok in H. apply andb_prop in H. destruct H as [P C]. split; [apply path_head_text; auto|]. split.
  - intros r F. apply cast_path; auto using follows_label. intros A N W. rewrite N, A in C. cbn [orb] in C. apply andb_prop in C. destruct C as [_ C]. rewrite W in C. discriminate.
  - intros st r vs F R. apply seen_path; auto.
Qed.
Lemma name_expr_post p : name_expr_ok p = true -> Post oplike (path_tokens p) (Ex (EPath p) span_new).
Proof.
  intros H. pose proof (post_name _ _ (path_cls p)) as X.
  assert (E : resolve_constant (Ex (EPath p) span_new) = Ex (EPath p) span_new); [|rewrite E in X; exact X].
  unfold name_expr_ok in H. apply andb_prop in H. destruct H as [_ C]. rewrite <- (path_frags p). unfold frags. rewrite name_path_of.
  apply no_const. destruct (namespace p) as [ns|]; [left; apply split_ne|right]. apply andb_prop in C. destruct C as [C _]. destruct (const_name _); [discriminate|reflexivity].
Qed.
