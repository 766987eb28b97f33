(** * LexWords: identifiers, keywords and operators *)
From Verif Require Import Base Tokens Lexer Spec SmallFacts LexBase LexSteps.
From Coq Require Import String.

(** ** The tables as one list: the first entry that fits is the longest *)
Definition all_entries : list entry :=
  (table1 ++ table2 ++ table3 ++ [("}"%string, KCurlyBracesClose, APop)] ++ table4)%list.
Definition spelling (e : entry) : str := to_lower (s2l (fst (fst e))).
Lemma find_app l l' inp : find_entry (l ++ l') inp =
  match find_entry l inp with Some e => Some e | None => find_entry l' inp end.
Proof. induction l as [|[[r k] a] l IH]; cbn; auto. destruct (starts_with (to_lower (s2l r)) inp); auto. Qed.
Lemma other_all inp : other_entry inp = find_entry all_entries inp.
Proof.
  unfold other_entry, all_entries. rewrite !find_app.
  destruct (find_entry table1 inp); auto. destruct (find_entry table2 inp); auto. destruct (find_entry table3 inp); auto.
  cbn [find_entry]. change (to_lower (s2l "}")) with [125%N].
  replace (starts_with [125%N] inp) with (starts_with_c 125 inp); [destruct (starts_with_c 125 inp); reflexivity|].
  destruct inp as [|c r]; cbn; rewrite ?andb_true_r, 1?N.eqb_sym; reflexivity.
Qed.
Definition not_pow (e : entry) : bool := negb (str_eqb (spelling e) (s2l "**=")).
Fixpoint ordered (l : list entry) : bool :=
  match l with
  | [] => true
  | e :: l' => forallb (fun e' => negb (not_pow e') || negb (starts_with (spelling e) (spelling e'))) l' && ordered l'
  end.
Lemma all_ordered : ordered all_entries = true. Proof. vm_compute. reflexivity. Qed.
Lemma prefixes_cmp (a b : str) inp : starts_with a inp = true -> starts_with b inp = true -> List.length a <= List.length b -> starts_with a b = true.
Proof.
  revert b inp. induction a as [|x a IH]; intros b inp A B L; [reflexivity|].
  destruct inp as [|c inp]; [discriminate|]. destruct b as [|y b]; [cbn in L; lia|].
  cbn in *. apply andb_prop in A, B. destruct A as [A1 A2], B as [B1 B2].
  apply N.eqb_eq in A1, B1. subst. rewrite N.eqb_refl. apply (IH b inp); auto. lia.
Qed.
Lemma find_some l inp e : find_entry l inp = Some e -> In e l /\ starts_with (spelling e) inp = true.
Proof.
  induction l as [|[[r k] a] l IH]; cbn [find_entry]; [discriminate|].
  destruct (starts_with (to_lower (s2l r)) inp) eqn:E; intros H.
  - injection H as <-. split; [left; reflexivity|exact E].
  - destruct (IH H). split; [right|]; auto.
Qed.
Lemma find_longest l inp e : ordered l = true -> find_entry l inp = Some e ->
  forall e', In e' l -> starts_with (spelling e') inp = true -> not_pow e' = true -> List.length (spelling e') <= List.length (spelling e).
Proof.
  induction l as [|[[r k] a] l IH]; intros O F e' I S P; [contradiction|].
  cbn [find_entry] in F. cbn [ordered] in O. apply andb_prop in O. destruct O as [O1 O2].
  destruct (starts_with (to_lower (s2l r)) inp) eqn:E.
  - injection F as <-. destruct I as [<-|I]; auto.
    rewrite forallb_forall in O1. specialize (O1 e' I). rewrite P in O1. cbn [negb orb] in O1. apply negb_true_iff in O1.
    destruct (Nat.le_gt_cases (List.length (spelling e')) (List.length (spelling (r, k, a)))); auto.
    rewrite (prefixes_cmp (spelling (r, k, a)) (spelling e') inp) in O1; auto; try discriminate. lia.
  - destruct I as [<-|I]; [change (starts_with (to_lower (s2l r)) inp = true) in S; congruence|]. apply IH; auto.
Qed.
Lemma find_exists l inp e : In e l -> starts_with (spelling e) inp = true -> find_entry l inp <> None.
Proof.
  induction l as [|[[r k] a] l IH]; intros I S; [contradiction|]. cbn [find_entry].
  destruct (starts_with (to_lower (s2l r)) inp) eqn:E; [discriminate|].
  destruct I as [<-|I]; [change (starts_with (to_lower (s2l r)) inp = true) in S; congruence|auto].
Qed.
(** spellings determine entries *)
Fixpoint distinct (l : list entry) : bool :=
  match l with [] => true | e :: l' => forallb (fun e' => negb (str_eqb (spelling e) (spelling e'))) l' && distinct l' end.
Lemma all_distinct : distinct all_entries = true. Proof. vm_compute. reflexivity. Qed.
Lemma str_eqb_eq a b : str_eqb a b = true <-> a = b.
Proof.
  revert b. induction a as [|x a IH]; intros [|y b]; cbn; split; try discriminate; auto.
  - intros H. apply andb_prop in H. destruct H as [H H']. apply N.eqb_eq in H. apply IH in H'. congruence.
  - intros H. injection H as -> ->. rewrite N.eqb_refl. apply IH. reflexivity.
Qed.
Lemma distinct_eq l e e' : distinct l = true -> In e l -> In e' l -> spelling e = spelling e' -> e = e'.
Proof.
  induction l as [|x l IH]; intros D I I' S; [contradiction|]. cbn in D. apply andb_prop in D. destruct D as [D1 D2].
  rewrite forallb_forall in D1.
  assert (X : forall y, In y l -> spelling x = spelling y -> False).
  { intros y Y Z. specialize (D1 y Y). rewrite (proj2 (str_eqb_eq _ _) Z) in D1. discriminate. }
  destruct I as [<-|I], I' as [<-|I']; auto; exfalso; [apply (X e')|apply (X e)]; auto.
Qed.
Lemma prefix_same_len a b inp : starts_with a inp = true -> starts_with b inp = true -> List.length a = List.length b -> a = b.
Proof.
  intros A B L. assert (P : starts_with a b = true) by (apply prefixes_cmp with inp; auto; lia).
  apply starts_with_iff in P. destruct P as (r & ->). rewrite app_length in L.
  destruct r; [rewrite app_nil_r; auto|cbn in L; lia].
Qed.
(** the entry found is the longest that fits *)
Lemma find_is inp e : In e all_entries -> not_pow e = true -> starts_with (spelling e) inp = true ->
  (forall e', In e' all_entries -> not_pow e' = true -> starts_with (spelling e') inp = true -> List.length (spelling e') <= List.length (spelling e)) ->
  find_entry all_entries inp = Some e.
Proof.
  intros I P S M. destruct (find_entry all_entries inp) as [x|] eqn:F.
  - f_equal. destruct (find_some _ _ _ F) as [X1 X2].
    pose proof (find_longest _ _ _ all_ordered F e I S P) as L1.
    assert (Q : not_pow x = true).
    { destruct (not_pow x) eqn:Q; auto. exfalso. unfold not_pow in Q. apply negb_false_iff in Q. apply str_eqb_eq in Q.
      rewrite Q in *.
      assert (W : In ("**"%string, KPow, ANone) all_entries) by (repeat ((left; reflexivity) || right)).
        assert (Z : find_entry (firstn 84 all_entries) inp <> None).
        { apply find_exists with ("**"%string, KPow, ANone); [repeat ((left; reflexivity) || right)|].
          apply starts_with_iff in X2. destruct X2 as (r & ->). reflexivity. }
        rewrite <- (firstn_skipn 84 all_entries), find_app in F.
        destruct (find_entry (firstn 84 all_entries) inp) as [y|] eqn:E; [|congruence].
        injection F as ->. apply find_some in E. destruct E as [E _].
        assert (B : forallb not_pow (firstn 84 all_entries) = true) by (vm_compute; reflexivity).
        rewrite forallb_forall in B. specialize (B _ E). unfold not_pow in B. rewrite Q in B. discriminate. }
    pose proof (M x X1 Q X2) as L2.
    apply (distinct_eq all_entries); auto using all_distinct.
    apply prefix_same_len with inp; auto. lia.
  - exfalso. apply (find_exists _ _ _ I S). exact F.
Qed.

(** ** Words *)
Lemma letter_label c : ascii_letter c = true -> is_label_char c = true /\ is_digit c = false /\ (c < 128)%N.
Proof.
  unfold ascii_letter, is_label_char, is_lower, is_upper, is_digit.
  destruct (N.leb_spec 97 c), (N.leb_spec c 122), (N.leb_spec 65 c), (N.leb_spec c 90), (N.eqb_spec c 95), (N.leb_spec 48 c), (N.leb_spec c 57);
    cbn; intros; try discriminate; repeat split; auto; try lia; rewrite ?orb_true_r; auto.
Qed.
Lemma tail_label c : (ascii_letter c || ((48 <=? c) && (c <=? 57))%N)%bool = true -> is_label_char c = true /\ (c < 128)%N.
Proof.
  intros H. apply orb_prop in H. destruct H as [H|H].
  - destruct (letter_label c H) as (A & _ & B). auto.
  - unfold is_label_char, is_digit. rewrite H, orb_true_r. split; auto.
    apply andb_prop in H. destruct H as [_ H]. apply N.leb_le in H. lia.
Qed.
Lemma ident_facts w : identifier w = true -> w <> [] /\ Forall (fun c => is_label_char c = true) w /\ head_is is_digit w = false /\ ascii w.
Proof.
  destruct w as [|c r]; [discriminate|]. intros H. cbn [identifier] in H. apply andb_prop in H. destruct H as [H1 H2].
  destruct (letter_label c H1) as (A & B & C). rewrite forallb_forall in H2.
  split; [discriminate|]. split; [|split; [exact B|]].
  - constructor; auto. apply Forall_forall. intros x I. apply tail_label. auto.
  - constructor; auto. apply Forall_forall. intros x I. apply tail_label. auto.
Qed.
Lemma ends_label r : ends_word r = negb (head_is is_label_char r).
Proof.
  destruct r as [|c r]; [reflexivity|]. cbn. f_equal. unfold ascii_letter, is_label_char, is_lower, is_upper, is_digit.
  destruct ((97 <=? c) && (c <=? 122))%N, ((65 <=? c) && (c <=? 90))%N, (c =? 95)%N, ((48 <=? c) && (c <=? 57))%N, ((128 <=? c) && (c <=? 255))%N; reflexivity.
Qed.
Lemma forallb_Forall {A} (f : A -> bool) l : forallb f l = true <-> Forall (fun x => f x = true) l.
Proof. rewrite forallb_forall, Forall_forall. tauto. Qed.
Lemma prefix_word p w r : forallb is_label_char p = true -> starts_with p (w ++ r) = true -> head_is is_label_char r = false ->
  starts_with p w = true.
Proof.
  intros P S R. revert w S. induction p as [|c p IH]; intros w S; [reflexivity|].
  cbn in P. apply andb_prop in P. destruct P as [P1 P2]. destruct w as [|d w].
  - destruct r as [|d r]; [discriminate|]. cbn in S, R. apply andb_prop in S. destruct S as [S _]. apply N.eqb_eq in S. subst. congruence.
  - cbn in *. apply andb_prop in S. destruct S as [S1 S2]. rewrite S1. cbn. apply IH; auto.
Qed.
Definition wordy (e : entry) : bool := forallb is_label_char (spelling e).
Lemma entries_wordy : forall e, In e all_entries -> head_is is_label_char (spelling e) = true -> wordy e = true.
Proof.
  assert (B : forallb (fun e => negb (head_is is_label_char (spelling e)) || wordy e) all_entries = true) by (vm_compute; reflexivity).
  rewrite forallb_forall in B. intros e I H. specialize (B e I). rewrite H in B. exact B.
Qed.
Lemma entries_nonempty : forall e, In e all_entries -> spelling e <> [].
Proof.
  assert (B : forallb (fun e => negb (str_eqb (spelling e) [])) all_entries = true) by (vm_compute; reflexivity).
  rewrite forallb_forall in B. intros e I H. specialize (B e I). rewrite H in B. discriminate.
Qed.
Lemma fits_word e w r : In e all_entries -> starts_with (spelling e) (w ++ r) = true -> w <> [] ->
  Forall (fun c => is_label_char c = true) w -> head_is is_label_char r = false -> wordy e = true /\ starts_with (spelling e) w = true.
Proof.
  intros I S N F R. assert (W : wordy e = true).
  { apply entries_wordy; auto. destruct w as [|c w]; [congruence|]. inversion F; subst.
    pose proof (entries_nonempty e I). destruct (spelling e) as [|d p]; [congruence|]. cbn in *. apply andb_prop in S. destruct S as [S _].
    apply N.eqb_eq in S. subst. auto. }
  split; auto. apply prefix_word with r; auto.
Qed.
Definition kw_entry (w : str) : option entry := find (fun e => str_eqb (spelling e) w) all_entries.
Lemma kw_entry_some w e : kw_entry w = Some e <-> In e all_entries /\ spelling e = w.
Proof.
  split; intros H.
  - apply find_some in H || (apply List.find_some in H). destruct H as [H1 H2]. apply str_eqb_eq in H2. auto.
  - destruct H as [I <-]. unfold kw_entry.
    destruct (find (fun e0 => str_eqb (spelling e0) (spelling e)) all_entries) as [x|] eqn:E.
    + apply List.find_some in E. destruct E as [E1 E2]. apply str_eqb_eq in E2. f_equal. apply (distinct_eq all_entries); auto using all_distinct.
    + exfalso. apply (List.find_none _ _ E) in I. rewrite (proj2 (str_eqb_eq _ _) eq_refl) in I. discriminate.
Qed.
Lemma starts_len p s : starts_with p s = true -> List.length p <= List.length s.
Proof. intros H. apply starts_with_iff in H. destruct H as (r & ->). rewrite app_length. lia. Qed.
Lemma starts_full p s : starts_with p s = true -> List.length p = List.length s -> p = s.
Proof. intros H L. apply starts_with_iff in H. destruct H as (r & ->). rewrite app_length in L. destruct r; [rewrite app_nil_r; auto|cbn in L; lia]. Qed.
Lemma word_entry w r : w <> [] -> Forall (fun c => is_label_char c = true) w -> head_is is_label_char r = false ->
  match kw_entry w with
  | Some e => other_entry (w ++ r) = Some e
  | None => match other_entry (w ++ r) with
            | Some e => In e all_entries /\ wordy e = true /\ List.length (spelling e) < List.length w
            | None => True
            end
  end.
Proof.
  intros N F R. rewrite other_all. destruct (kw_entry w) as [e|] eqn:K.
  - apply kw_entry_some in K. destruct K as [I <-]. apply find_is; auto.
    + unfold not_pow. apply negb_true_iff. destruct (str_eqb _ _) eqn:E; auto. apply str_eqb_eq in E. rewrite E in F.
      inversion F. discriminate.
    + apply starts_with_app.
    + intros e' I' _ S. destruct (fits_word e' _ r I' S N F R) as [_ S']. apply starts_len; auto.
  - destruct (find_entry all_entries (w ++ r)) as [e|] eqn:E; auto. apply find_some in E. destruct E as [I S].
    destruct (fits_word e _ r I S N F R) as [W S']. split; [|split]; auto.
    pose proof (starts_len _ _ S'). destruct (Nat.eq_dec (List.length (spelling e)) (List.length w)) as [L|]; [|lia].
    apply starts_full in S'; auto. exfalso. assert (X : kw_entry w = Some e) by (apply kw_entry_some; auto). congruence.
Qed.
Lemma kw_wordy e : In e all_entries -> wordy e = true -> snd e = ANone /\ kind_eqb (snd (fst e)) KCurlyBracesClose = false.
Proof.
  assert (B : forallb (fun e => negb (wordy e) || (match snd e with ANone => true | _ => false end && negb (kind_eqb (snd (fst e)) KCurlyBracesClose)))
     all_entries = true) by (vm_compute; reflexivity).
  rewrite forallb_forall in B. intros I H. specialize (B e I). rewrite H in B. cbn in B. apply andb_prop in B. destruct B as [B1 B2].
  split; [destruct (snd e); congruence|]. apply negb_true_iff in B2. auto.
Qed.
Lemma entries_ascii_all e : In e all_entries -> ascii (s2l (fst (fst e))).
Proof.
  assert (B : forallb (fun e : entry => asciib (s2l (fst (fst e)))) all_entries = true) by (vm_compute; reflexivity).
  rewrite forallb_forall in B. intros I. apply asciib_iff. apply B. auto.
Qed.
Lemma spelling_len e : In e all_entries -> blen (s2l (fst (fst e))) = List.length (spelling e).
Proof. intros I. rewrite blen_ascii by (apply entries_ascii_all; auto). unfold spelling, to_lower. rewrite map_length. reflexivity. Qed.

(** what a word means *)
Definition word_token (w : str) : token :=
  match find (fun p : string * kind => str_eqb (s2l (fst p)) w) keywords with Some (_, k) => Kw k | None => TString w end.
Lemma find_ext2 {A B} (f : A -> bool) (g : B -> bool) l l' (v : A -> kind) (v' : B -> kind) :
  (forall a, In a l -> f a = true -> exists b, In b l' /\ g b = true /\ v' b = v a) ->
  (forall b, In b l' -> g b = true -> exists a, In a l /\ f a = true) ->
  (forall b b', In b l' -> In b' l' -> g b = true -> g b' = true -> v' b = v' b') ->
  option_map v (find f l) = option_map v' (find g l').
Proof.
  intros P Q U. destruct (find f l) as [a|] eqn:E.
  - apply List.find_some in E. destruct E as [E1 E2]. destruct (P a E1 E2) as (b & B1 & B2 & B3).
    destruct (find g l') as [b'|] eqn:E'.
    + apply List.find_some in E'. destruct E' as [E1' E2']. cbn. f_equal. rewrite <- B3. apply U; auto.
    + exfalso. apply (List.find_none _ _ E') in B1. congruence.
  - destruct (find g l') as [b'|] eqn:E'; auto. apply List.find_some in E'. destruct E' as [E1' E2'].
    destruct (Q b' E1' E2') as (a & A1 & A2). apply (List.find_none _ _ E) in A1. congruence.
Qed.
Lemma kind_eqb_eq a b : kind_eqb a b = true -> a = b.
Proof. unfold kind_eqb. intros H. apply N.eqb_eq in H. destruct a, b; try reflexivity; discriminate. Qed.
Lemma word_token_entry w : w <> [] -> Forall (fun c => is_label_char c = true) w ->
  word_token w = match kw_entry w with Some e => Kw (snd (fst e)) | None => TString w end.
Proof.
  intros N F.
  assert (E : option_map snd (find (fun p : string * kind => str_eqb (s2l (fst p)) w) keywords) = option_map (fun e : entry => snd (fst e)) (kw_entry w)).
  { unfold kw_entry. apply find_ext2.
    - intros [a k] I H. apply str_eqb_eq in H. subst w.
      assert (B : forallb (fun p : string * kind => existsb (fun e : entry => str_eqb (spelling e) (s2l (fst p)) && kind_eqb (snd (fst e)) (snd p)) all_entries) keywords = true) by (vm_compute; reflexivity).
      rewrite forallb_forall in B. specialize (B _ I). rewrite existsb_exists in B. destruct B as (e & B1 & B2).
      apply andb_prop in B2. destruct B2 as [B2 B3]. exists e. split; auto. split; auto. apply kind_eqb_eq; auto.
    - intros e I H. apply str_eqb_eq in H.
      assert (W : wordy e = true) by (unfold wordy; rewrite H; apply forallb_Forall; auto).
      assert (B : forallb (fun e : entry => negb (wordy e) || existsb (fun p : string * kind => str_eqb (s2l (fst p)) (spelling e)) keywords) all_entries = true) by (vm_compute; reflexivity).
      rewrite forallb_forall in B. specialize (B _ I). rewrite W in B. cbn [negb orb] in B. rewrite existsb_exists in B.
      destruct B as (p & B1 & B2). exists p. rewrite H in B2. auto.
    - intros e e' I I' H H'. apply str_eqb_eq in H, H'. f_equal. f_equal. apply (distinct_eq all_entries); auto using all_distinct. congruence. }
  unfold word_token. destruct (find _ keywords) as [[a k]|], (kw_entry w); cbn in E; congruence.
Qed.
