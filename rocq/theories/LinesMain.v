(** * LinesMain: lines of the source and of error messages (C47) *)
From Verif Require Import Base Tokens Ast Lexer Parser Driver Spec SmallFacts LexBase LexInv LexTotal Place SpecLines Lines.
From Coq Require Import String.
Local Open Scope list_scope.

Lemma count_app (x y : str) : count_occ N.eq_dec (x ++ y) 10%N = count_occ N.eq_dec x 10%N + count_occ N.eq_dec y 10%N.
Proof. induction x as [|c x IH]; [reflexivity|]. cbn [app count_occ]. destruct (N.eq_dec c 10); rewrite IH; reflexivity. Qed.
Lemma quiet_iff w : quiet w <-> ~ In 10%N w.
Proof. unfold quiet. rewrite Forall_forall. split; [intros H I; exact (H _ I eq_refl)|intros H c I ->; auto]. Qed.
Lemma starts_at x z p : nth_error (starts p (x ++ [10]%N ++ z)) (count_occ N.eq_dec x 10%N) = Some (p + blen x + 1).
Proof. rewrite starts_app, <- (starts_length x p), nth_error_app2, Nat.sub_diag by lia. cbn [app starts]. rewrite N.eqb_refl. reflexivity. Qed.
Lemma starts_nth s : forall p n a, nth_error (starts p s) n = Some a -> exists x z, s = x ++ [10]%N ++ z /\ p + blen x + 1 = a /\ count_occ N.eq_dec x 10%N = n.
Proof.
  induction s as [|c s IH]; intros p n a H; [destruct n; discriminate H|]. cbn [starts] in H. destruct (N.eqb_spec c 10) as [->|NE].
  - destruct n as [|n]; cbn [nth_error] in H.
    + injection H as <-. exists [], s. split; [reflexivity|]. split; [cbn; lia|reflexivity].
    + apply IH in H as (x & z & -> & <- & <-). exists (10%N :: x), z. split; [reflexivity|]. split; [cbn [blen]; change (clen 10) with 1; lia|]. cbn [count_occ]. destruct (N.eq_dec 10 10); congruence.
  - apply IH in H as (x & z & -> & <- & <-). exists (c :: x), z. split; [reflexivity|]. split; [cbn [blen]; lia|]. cbn [count_occ]. destruct (N.eq_dec c 10); congruence.
Qed.
Lemma starts_mono s : forall p i j a b, i < j -> nth_error (starts p s) i = Some a -> nth_error (starts p s) j = Some b -> a < b.
Proof.
  induction s as [|c s IH]; intros p i j a b L A B; [destruct i; discriminate A|]. cbn [starts] in A, B. destruct (c =? 10)%N; [|eapply IH; eauto].
  destruct j as [|j]; [lia|]. cbn [nth_error] in B. destruct i as [|i]; cbn [nth_error] in A.
  - injection A as <-. apply nth_error_In, starts_above in B. lia.
  - apply (IH (p + 1) i j); auto. lia.
Qed.
Lemma starts_table s : nondecreasing (0 :: starts 0 s).
Proof.
  intros i j a b L A B. destruct i as [|i], j as [|j]; cbn [nth_error] in A, B.
  - injection A as <-. lia.
  - injection A as <-. lia.
  - lia.
  - destruct (Nat.eq_dec i j) as [->|]; [rewrite A in B; injection B; lia|]. pose proof (starts_mono s 0 i j a b ltac:(lia) A B). lia.
Qed.
Lemma line_nth s n a b : line_at s n a b -> nth_error (0 :: starts 0 s) n = Some a /\ b = match nth_error (starts 0 s) n with Some d => d | None => blen s end.
Proof.
  intros (x & y & z & -> & <- & <- & <- & X & Y). split.
  - destruct X as [->|(x' & ->)]; [reflexivity|]. rewrite count_app, Nat.add_comm. cbn [count_occ]. destruct (N.eq_dec 10 10); [|congruence]. cbn [Nat.add nth_error]. rewrite <- app_assoc, starts_at, blen_app. cbn [blen]. change (clen 10) with 1. f_equal.
  - destruct Y as [(w & -> & Q)|(-> & Q)].
    + apply quiet_iff in Q. replace (x ++ (w ++ [10]%N) ++ z) with ((x ++ w) ++ [10]%N ++ z) by (rewrite <- !app_assoc; reflexivity).
      replace (count_occ N.eq_dec x 10%N) with (count_occ N.eq_dec (x ++ w) 10%N) by (rewrite count_app; rewrite <- (starts_length w 0), (starts_quiet w Q); cbn; lia).
      rewrite starts_at, app_assoc, (blen_app (x ++ w)). cbn [blen]. change (clen 10) with 1. lia.
    + apply quiet_iff in Q. rewrite app_nil_r. destruct (nth_error (starts 0 (x ++ y)) _) as [d|] eqn:E; [|reflexivity]. exfalso. assert (count_occ N.eq_dec x 10%N < List.length (starts 0 (x ++ y))) by (apply nth_error_Some; congruence).
      rewrite starts_app, app_length, starts_length, (starts_quiet y Q) in H. cbn [List.length] in H. lia.
Qed.
Lemma nth_line s n a : nth_error (0 :: starts 0 s) n = Some a -> line_at s n a (match nth_error (starts 0 s) n with Some d => d | None => blen s end).
Proof.
  intros H. cut (exists b, line_at s n a b); [intros (b & LB); pose proof (line_nth _ _ _ _ LB) as (_ & <-); exact LB|].
  assert (X : exists x z, s = x ++ z /\ blen x = a /\ count_occ N.eq_dec x 10%N = n /\ (x = [] \/ exists x', x = x' ++ [10]%N)).
  { destruct n as [|n]; cbn [nth_error] in H.
    - injection H as <-. exists [], s. auto.
    - apply starts_nth in H as (x & z & -> & <- & <-). exists (x ++ [10]%N), z. rewrite <- app_assoc. split; [reflexivity|]. rewrite blen_app, count_app. split; [reflexivity|]. split; [cbn [count_occ]; destruct (N.eq_dec 10 10); [lia|congruence]|right; eauto]. }
  destruct X as (x & z & -> & A & C & X). destruct (first_newline z) as [Q|(w & r & -> & Q)].
  - exists (blen (x ++ z)), x, z, []. rewrite app_nil_r. repeat split; auto. right. split; [reflexivity|apply quiet_iff, Q].
  - exists (blen (x ++ w ++ [10]%N)), x, (w ++ [10]%N), r. rewrite <- app_assoc. repeat split; auto. left. exists w. split; [reflexivity|apply quiet_iff, Q].
Qed.
Lemma tidy_init : tidy tst_init. Proof. split; [intros []|]. split; [auto|constructor]. Qed.
Lemma clean_table f src toks s : clean src -> tokenize f src = DOk (toks, s) -> lines s = 0 :: starts 0 src.
Proof.
  intros CL H. unfold tokenize in H. pose proof (a_tokenize_loop src CL f f [] tst_init (G_init src CL) tidy_init) as K. rewrite H in K. exact K.
Qed.
Lemma lines_table f src toks s : clean src -> tokenize f src = DOk (toks, s) ->
  List.length (lines s) = S (count_occ N.eq_dec src 10%N) /\ forall n a, nth_error (lines s) n = Some a <-> exists b, line_at src n a b.
Proof.
  intros CL H. rewrite (clean_table _ _ _ _ CL H). split; [cbn [List.length]; rewrite starts_length; reflexivity|]. intros n a. split; [intros N; eexists; apply nth_line, N|intros (b & LB); apply (line_nth _ _ _ _ LB)].
Qed.
Lemma serror_line src st en pe sx e : mk_serror (0 :: starts 0 src) (blen src) st en pe sx = DErr e ->
  se_start e = st /\ se_end e = en /\ se_syntax e = sx /\ line_at src (se_line e) (se_line_start e) (se_line_end e) /\ se_line_start e <= en /\ (forall n a b, line_at src n a b -> a <= en -> n <= se_line e).
Proof.
  unfold mk_serror. destruct (line_lookup (0 :: starts 0 src) en (starts_table src) eq_refl) as (l & d & -> & D & LE & AF). unfold line_range. rewrite D. intros H. injection H as <-. cbn [se_start se_end se_syntax se_line se_line_start se_line_end].
  split; [reflexivity|]. split; [reflexivity|]. split; [reflexivity|]. rewrite Nat.add_1_r. cbn [nth_error]. split; [apply nth_line, D|]. split; [exact LE|]. intros n a b LA LN. destruct (Nat.le_gt_cases n l) as [Z|Z]; [exact Z|]. pose proof (AF n a Z (proj1 (line_nth _ _ _ _ LA))). lia.
Qed.
Lemma parse_error_line f src e : clean src -> parse_str f src = DErr e -> se_syntax e = None ->
  line_at src (se_line e) (se_line_start e) (se_line_end e) /\ se_line_start e <= se_end e /\ (forall n a b, line_at src n a b -> a <= se_end e -> n <= se_line e).
Proof.
  intros CL H SX. unfold parse_str in H. destruct (tokenize f src) as [[toks s]|[x s]| |] eqn:T; try discriminate H.
  - rewrite (clean_table _ _ _ _ CL T) in H. unfold parse_tokens in H. cbv zeta in H. destruct (parse_top _); try discriminate H. destruct (nth_error _ (err_pos _)).
    + apply serror_line in H as (_ & -> & _ & X). exact X.
    + destruct (List.length _); [discriminate|]. destruct (nth_error _ _); [|discriminate]. apply serror_line in H as (_ & -> & _ & X). exact X.
  - destruct (err_span x); [|discriminate]. unfold mk_serror in H. destruct (line_from_position _ _); [|discriminate]. destruct (line_range _ _ _) as [[? ?]|]; [|discriminate]. injection H as <-. discriminate SX.
Qed.
Lemma syntax_error_line f src e : clean src -> parse_str f src = DErr e -> se_syntax e <> None ->
  (exists b, line_at src (se_line e) (se_line_start e) b) /\ se_line_start e <= se_start e /\ (forall n a b, line_at src n a b -> a <= se_start e -> n <= se_line e) /\ se_line_end e = blen src.
Proof.
  intros CL H SX. unfold parse_str in H. destruct (tokenize f src) as [[toks s]|[x s]| |] eqn:T; try discriminate H.
  - exfalso. apply SX. rewrite (clean_table _ _ _ _ CL T) in H. unfold parse_tokens in H. cbv zeta in H. destruct (parse_top _); try discriminate H. destruct (nth_error _ (err_pos _)).
    + apply serror_line in H as (_ & _ & X & _). exact X.
    + destruct (List.length _); [discriminate|]. destruct (nth_error _ _); [|discriminate]. apply serror_line in H as (_ & _ & X & _). exact X.
  - unfold tokenize in T. pose proof (a_tokenize_loop src CL f f [] tst_init (G_init src CL) tidy_init) as K. rewrite T in K. destruct K as (LN & ER). unfold errs in ER. destruct (err_span x) as [sp|]; [|discriminate]. destruct ER as (SE & ER). unfold LI in LN. rewrite LN, <- ER in H.
    destruct (upto_prefix (sp_start sp) src 0) as (t & EQ & AF). unfold to in H. set (u := upto (sp_start sp) (starts 0 src)) in *.
    assert (UP : forall d, In d u -> d <= sp_start sp) by (intros d I; unfold u, upto in I; apply filter_In in I as (_ & I); apply Nat.leb_le, I).
    assert (NP : forall k d, nth_error (0 :: u) k = Some d -> nth_error (0 :: starts 0 src) k = Some d) by (intros k d N; rewrite EQ; change (0 :: u ++ t) with ((0 :: u) ++ t); rewrite nth_error_app1; [exact N|apply nth_error_Some; congruence]).
    assert (ND : nondecreasing (0 :: u)) by (intros i j a b L A B; apply (starts_table src i j a b L); apply NP; auto).
    unfold mk_serror in H. destruct (line_lookup (0 :: u) (sp_end sp) ND eq_refl) as (l & d & E & D & LE & BE). rewrite E in H. unfold line_range in H. rewrite D in H. injection H as <-. cbn [se_start se_end se_syntax se_line se_line_start se_line_end].
    assert (LAST : nth_error u l = None).
    { destruct (nth_error u l) as [d'|] eqn:N; [exfalso|reflexivity]. pose proof (BE (S l) d' ltac:(lia) N). apply nth_error_In, UP in N. lia. }
    rewrite Nat.add_1_r. cbn [nth_error]. rewrite LAST. split; [eexists; apply nth_line, NP, D|]. split; [|split; [|reflexivity]].
    + destruct l as [|l]; cbn [nth_error] in D; [injection D as <-; lia|]. apply nth_error_In, UP in D. exact D.
    + intros n a b LA LA0. destruct (Nat.le_gt_cases n l) as [Z|Z]; [exact Z|exfalso]. destruct n as [|n]; [lia|]. apply line_nth in LA as (LA & _). cbn [nth_error] in LA. apply nth_error_None in LAST. rewrite EQ, nth_error_app2 in LA by lia. apply nth_error_In, AF in LA. lia.
Qed.

(** ** A test for [clean], for the examples *)
Definition newlines_after (p s : str) : bool :=
  match position (fun c => c =? 10)%N s with None => true | Some e => match find_sub p (firstn e s) with Some _ => true | None => false end end.
Fixpoint everywhere (o p s : str) : bool := (if starts_with o s then newlines_after p (skipn (List.length o) s) else true) && match s with [] => true | _ :: r => everywhere o p r end.
Definition absent (p s : str) : bool := match find_sub p s with None => true | Some _ => false end.
Definition cleanb (s : str) : bool :=
  newlines_after (s2l "<?") s && everywhere (s2l "?>") (s2l "<?") s && everywhere (s2l "/*") (s2l "*/") s && everywhere (s2l "/**") (s2l "*/") s &&
  absent (s2l "\" ++ [10]%N) s && absent (s2l "<<<") s.
Lemma find_sub_some p s : forall e, find_sub p s = Some e -> has p s.
Proof.
  induction s as [|c s IH]; intros e H; cbn [find_sub] in H; destruct (starts_with p _) eqn:W; try discriminate.
  - apply starts_with_iff in W as (r & W). exists [], r. exact W.
  - apply starts_with_iff in W as (r & W). exists [], r. exact W.
  - destruct (find_sub p s); [|discriminate]. destruct (IH _ eq_refl) as (x & y & ->). exists (c :: x), y. reflexivity.
Qed.
Lemma newlines_after_ok p s : newlines_after p s = true -> forall m b, s = m ++ [10]%N ++ b -> has p m.
Proof.
  unfold newlines_after. intros H m b ->. destruct (position _ _) as [e|] eqn:P.
  - destruct (find_sub p _) eqn:F; [|discriminate]. apply find_sub_some in F. pose proof (position_before _ _ _ P) as B.
    assert (e <= List.length m). { destruct (Nat.le_gt_cases e (List.length m)) as [Z|Z]; [exact Z|exfalso]. rewrite Forall_forall in B. specialize (B 10%N). cbv beta in B. rewrite N.eqb_refl in B. discriminate B. rewrite firstn_app. apply in_or_app. right. destruct (e - List.length m) eqn:Q; [lia|left; reflexivity]. }
    rewrite firstn_app in F. replace (e - List.length m) with 0 in F by lia. rewrite firstn_O, app_nil_r in F. destruct F as (x & y & F). exists x, (y ++ skipn e m). rewrite <- (firstn_skipn e m), F at 1. rewrite <- !app_assoc. reflexivity.
  - apply position_nowhere in P. rewrite Forall_forall in P. specialize (P 10%N ltac:(apply in_or_app; right; left; reflexivity)). discriminate P.
Qed.
Lemma everywhere_ok o p s : everywhere o p s = true -> forall a m b, s = a ++ o ++ m ++ [10]%N ++ b -> has p m.
Proof.
  induction s as [|c s IH]; intros H a m b E; cbn [everywhere] in H; apply andb_true_iff in H as [H1 H2].
  - destruct a, o, m; discriminate E.
  - destruct a as [|a0 a].
    + rewrite (proj2 (starts_with_iff o (c :: s))) in H1 by eauto. rewrite E in H1. cbn [app] in H1. rewrite skipn_app, skipn_all, Nat.sub_diag in H1. cbn [app skipn] in H1. eapply newlines_after_ok; [exact H1|reflexivity].
    + injection E as -> E. exact (IH H2 a m b E).
Qed.
Lemma absent_ok p s : absent p s = true -> forall a b, s <> a ++ p ++ b.
Proof. unfold absent. destruct (find_sub p s) eqn:F; [discriminate|]. intros _. apply find_sub_none, F. Qed.
Lemma cleanb_ok s : cleanb s = true -> clean s.
Proof.
  unfold cleanb. rewrite !andb_true_iff. intros [[[[[A B] C] D] E] F]. split.
  - apply newlines_after_ok, A.
  - apply everywhere_ok, B.
  - intros o a m b [<-|[<-|[]]]; [apply everywhere_ok, C|apply everywhere_ok, D].
  - intros a b. apply (absent_ok _ _ E a b).
  - apply absent_ok, F.
Qed.

(** ** Sources that are not clean *)
Local Open Scope string_scope.
Local Notation newline := (String (Ascii.ascii_of_nat 10) "").
Lemma wrong_table src f l : match tokenize f (s2l src) with DOk (_, s) => lines s = l | _ => False end -> l <> (0 :: starts 0 (s2l src))%list ->
  exists f toks s, tokenize f (s2l src) = DOk (toks, s) /\ ~ (forall n a, nth_error (lines s) n = Some a <-> exists b, line_at (s2l src) n a b).
Proof.
  intros H NE. destruct (tokenize f (s2l src)) as [[toks s]| | |] eqn:T; try contradiction. exists f, toks, s. split; [exact T|]. intros X. apply NE. subst l.
  assert (EQ : forall n, nth_error (lines s) n = nth_error (0 :: starts 0 (s2l src)) n).
  { intros n. destruct (nth_error (lines s) n) as [a|] eqn:A.
    - apply X in A as (b & A). apply line_nth in A as (A & _). congruence.
    - destruct (nth_error (0 :: starts 0 (s2l src)) n) as [a|] eqn:B; [|reflexivity]. apply nth_line in B. rewrite (proj2 (X n a)) in A by eauto. discriminate. }
  revert EQ. generalize (0 :: starts 0 (s2l src)). generalize (lines s). clear. induction l as [|x l IH]; intros [|y m] EQ; auto; try (specialize (EQ 0); discriminate EQ).
  f_equal; [specialize (EQ 0); injection EQ; auto|]. apply IH. intros n. exact (EQ (S n)).
Qed.
Lemma table_wrong : Forall (fun src => exists f toks s, tokenize f (s2l src) = DOk (toks, s) /\
    ~ (forall n a, nth_error (lines s) n = Some a <-> exists b, line_at (s2l src) n a b))
  ["a" ++ newline ++ "b<?php $a;";
   "<?php $a; ?>b" ++ newline ++ newline ++ "<?php $b;";
   "<?php /* a" ++ newline ++ "b */ $a;";
   "<?php $a = 'b\" ++ newline ++ "c';";
   "<?php $a = <<<A" ++ newline ++ "c" ++ newline ++ "A;" ++ newline ++ "f();"].
Proof. repeat apply Forall_cons; [..|apply Forall_nil]; (eapply (wrong_table _ 60); [vm_compute; reflexivity|vm_compute; discriminate]). Qed.
Lemma error_line_wrong : exists f src e, parse_str f src = DErr e /\ se_syntax e = None /\ ~ line_at src (se_line e) (se_line_start e) (se_line_end e).
Proof.
  set (src := s2l ("<?php /* a" ++ newline ++ "b */ $a )" ++ newline ++ ";")). assert (N : match parse_str 60 src with DErr e => se_syntax e = None /\ nth_error (0 :: starts 0 src)%list (se_line e) <> Some (se_line_start e) | _ => False end) by (vm_compute; split; [reflexivity|discriminate]).
  destruct (parse_str 60 src) as [|e| |] eqn:P; try contradiction. destruct N as (A & B). exists 60, src, e. split; [exact P|]. split; [exact A|]. intros X. apply line_nth in X as (X & _). contradiction.
Qed.
