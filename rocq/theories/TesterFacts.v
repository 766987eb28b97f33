(** * TesterFacts: runs of the tester (C49) *)
From Verif Require Import Base Tokens Ast Lexer Parser Printer Driver Spec SmallFacts ParserFacts Tester SpecTester.
From Coq Require Import String.

Section Facts.
Variable show : str -> str.
Variable limit : nat.
Lemma file_cases code : (exists l s, parse_str limit code = DOk l /\ print_statements show l = Some s /\ parse_file show limit code = TfWritten (rewritten show limit code)) \/
  (~ parses limit code /\ rewritten show limit code = code /\ forall s, parse_file show limit code <> TfWritten s /\ parse_file show limit code <> TfTruncated).
Proof.
  unfold parse_file, rewritten, parses. destruct (parse_str limit code) as [l|e|p|] eqn:P.
  - left. destruct (parsed_source_printable show limit code l P) as (s & E). exists l, s. rewrite E. auto.
  - right. split; [intros (l & H); discriminate|]. split; [reflexivity|]. intros s. split; discriminate.
  - right. split; [intros (l & H); discriminate|]. split; [reflexivity|]. intros s. split; discriminate.
  - right. split; [intros (l & H); discriminate|]. split; [reflexivity|]. intros s. split; discriminate.
Qed.
Lemma child_disk check i nc d j : snd (run_child show limit check i nc d) j = if j =? i then rewritten show limit (d i) else d j.
Proof.
  unfold run_child. destruct (file_cases (d i)) as [(l & s & _ & _ & ->)|(_ & R & N)]; [reflexivity|]. destruct (N []) as (N1 & N2).
  destruct (parse_file show limit (d i)) as [s| | | |] eqn:E; [destruct (N s); congruence|..|congruence|]; cbn [snd]; destruct (Nat.eqb_spec j i) as [->|_]; auto.
Qed.
Lemma child_ok check i nc d : looks check -> fst (run_child show limit check i nc d) = true <-> parses limit (d i) /\ (nc = true \/ passes check (fun j => if j =? i then rewritten show limit (d i) else d j)).
Proof.
  intros LK. unfold run_child. destruct (file_cases (d i)) as [(l & s & P & _ & ->)|(NP & _ & N)].
  - cbn [fst]. unfold passes. destruct check as [c|]; [|split; [intros _; split; [exists l; exact P|auto]|auto]]. rewrite orb_true_iff. split; [intros H; split; [exists l; exact P|exact H]|intros (_ & H); exact H].
  - split; [|intros (P & _); destruct (NP P)]. destruct (parse_file show limit (d i)) as [s| | | |] eqn:E; try discriminate. destruct (N s). congruence.
Qed.
Lemma passes_ext check d d' : looks check -> (forall j, d j = d' j) -> passes check d <-> passes check d'.
Proof. intros LK E. destruct check as [c|]; cbn in *; [rewrite (LK d d' E); reflexivity|reflexivity]. Qed.
Lemma files_ok check d0 n : looks check -> forall i suc d, (forall j, d j = handled show limit i d0 j) -> suc <= i ->
  match run_files show limit check n i suc d with (i', suc', d') =>
    i' = i + n /\ suc' <= i' /\ (forall j, d' j = handled show limit (i + n) d0 j) /\
    (suc' = i' <-> suc = i /\ forall k, i <= k < i + n -> parses limit (d0 k) /\ passes check (handled show limit (S k) d0)) end.
Proof.
  intros LK. induction n as [|n IH]; intros i suc d E LE; cbn [run_files].
  - rewrite Nat.add_0_r. split; [reflexivity|]. split; [exact LE|]. split; [exact E|]. split; [intros H; split; [exact H|intros k K; lia]|intros (H & _); exact H].
  - destruct (run_child show limit check i false d) as [ok d'] eqn:R.
    assert (DI : d i = d0 i) by (rewrite E; unfold handled; rewrite Nat.ltb_irrefl; reflexivity).
    assert (ED : forall j, (if j =? i then rewritten show limit (d i) else d j) = handled show limit (S i) d0 j).
    { intros j. destruct (Nat.eqb_spec j i) as [->|NJ]; [rewrite DI; unfold handled; destruct (Nat.ltb_spec i (S i)); [reflexivity|lia]|]. rewrite E. unfold handled. destruct (Nat.ltb_spec j i), (Nat.ltb_spec j (S i)); auto; lia. }
    assert (E' : forall j, d' j = handled show limit (S i) d0 j) by (intros j; rewrite <- ED; pose proof (child_disk check i false d j) as X; rewrite R in X; exact X).
    assert (OK : ok = true <-> parses limit (d0 i) /\ passes check (handled show limit (S i) d0)).
    { pose proof (child_ok check i false d LK) as X. rewrite R, DI in X. cbn [fst] in X. rewrite X. rewrite <- (passes_ext check _ _ LK ED), DI. split; [intros (A & [B|B]); [discriminate|auto]|intros (A & B); auto]. }
    specialize (IH (S i) (if ok then S suc else suc) d' E'). destruct (run_files show limit check n (S i) _ d') as [[i' suc'] d'']. destruct IH as (A & B & C & D); [destruct ok; lia|].
    rewrite Nat.add_succ_r in *. cbn [Nat.add] in *. split; [exact A|]. split; [exact B|]. split; [exact C|]. rewrite D. split.
    + intros (S1 & S2). destruct ok; [|lia]. split; [lia|]. intros k K. destruct (Nat.eq_dec k i) as [->|NK]; [apply OK; reflexivity|apply S2; lia].
    + intros (S1 & S2). rewrite (proj2 OK) by (apply S2; lia). split; [lia|]. intros k K. apply S2. lia.
Qed.
Lemma tester_run check count d : looks check ->
  (forall j, snd (run_all show limit check count d) j = if j <? count then rewritten show limit (d j) else d j) /\
  (fst (run_all show limit check count d) = true <-> forall k, k < count -> parses limit (d k) /\ passes check (handled show limit (S k) d)).
Proof.
  intros LK. pose proof (files_ok check d count LK 0 0 d (fun j => eq_refl) (le_n 0)) as H. unfold run_all. destruct (run_files show limit check count 0 0 d) as [[i suc] d']. cbn [Nat.add fst snd] in *. destruct H as (A & B & C & D).
  split; [exact C|]. rewrite Nat.eqb_eq, D. split; [intros (_ & X) k K; apply X; lia|intros X; split; [reflexivity|intros k K; apply X; lia]].
Qed.

(** ** The search with these children *)
Lemma child_touches check : touches_own (run_child show limit check).
Proof. intros i b d j N. rewrite child_disk. destruct (Nat.eqb_spec j i); [contradiction|reflexivity]. Qed.
Variable c : fs -> bool.
Variable src : fs.
Definition ideal (i : nat) (nc : bool) (d : fs) : bool * fs := let d' := fs_set d i (rewritten show limit (src i)) in (nc || c d', d')%bool.
Variable count : nat.
Hypothesis PA : forall i, i < count -> parses limit (src i).
Lemma child_ideal i nc d : i < count -> d i = src i -> run_child show limit (Some c) i nc d = ideal i nc d.
Proof.
  intros L E. unfold run_child, ideal. rewrite E. destruct (file_cases (src i)) as [(l & s & _ & _ & ->)|(N & _)]; [reflexivity|destruct (N (PA i L))].
Qed.
Lemma range_ideal n : forall low mid i d, low + i + n <= count -> (forall j, low + i <= j < low + i + n -> d j = src j) -> run_range (run_child show limit (Some c)) n low mid i d = run_range ideal n low mid i d.
Proof.
  induction n as [|n IH]; intros low mid i d L E; cbn [run_range]; [reflexivity|]. rewrite child_ideal by (auto; try apply E; lia). destruct (ideal (low + i) (negb (i =? mid - low - 1)) d) as [ok d'] eqn:R. injection R as _ <-. destruct ok; [|reflexivity]. apply IH; [lia|]. intros j J. unfold fs_set. destruct (Nat.eqb_spec j (low + i)); [lia|]. apply E. lia.
Qed.
Lemma ideal_touches : touches_own ideal.
Proof. intros i b d j N. cbn [ideal snd]. unfold fs_set. destruct (Nat.eqb_spec j i); [contradiction|reflexivity]. Qed.
Lemma revert_at n : forall low d j, revert src n low d j = if (low <=? j) && (j <? low + n) then src j else d j.
Proof.
  induction n as [|n IH]; intros low d j; cbn [revert].
  - destruct (Nat.leb_spec low j), (Nat.ltb_spec j (low + 0)); cbn [andb]; auto; lia.
  - rewrite IH. unfold fs_set. destruct (Nat.leb_spec (S low) j), (Nat.leb_spec low j), (Nat.ltb_spec j (S low + n)), (Nat.ltb_spec j (low + S n)); cbn [andb]; try lia; destruct (Nat.eqb_spec j low); subst; auto; lia.
Qed.
Lemma range_others n : forall low mid i d j, ~ (low + i <= j < low + i + n) -> snd (run_range ideal n low mid i d) j = d j.
Proof.
  induction n as [|n IH]; intros low mid i d j N; cbn [run_range]; [reflexivity|]. destruct (ideal (low + i) _ d) as [ok d'] eqn:R. assert (D : d' j = d j) by (pose proof (ideal_touches (low + i) (negb (i =? mid - low - 1)) d j ltac:(lia)) as T; rewrite R in T; exact T).
  destruct ok; cbn [snd]; [|exact D]. rewrite IH by lia. exact D.
Qed.
Lemma loop_ideal n : forall low high d, high <= count -> (forall j, low <= j < high -> d j = src j) -> search_loop (run_child show limit (Some c)) src n low high d = search_loop ideal src n low high d.
Proof.
  induction n as [|n IH]; intros low high d L E; cbn [search_loop]; destruct (Nat.leb_spec (high - low) 1); auto.
  assert (M : low < (low + high) / 2 < high) by (split; [apply Nat.div_le_lower_bound; lia|apply Nat.div_lt_upper_bound; lia]). set (mid := (low + high) / 2) in *.
  rewrite range_ideal; [|lia|intros j J; apply E; lia]. destruct (run_range ideal (mid - low) low mid 0 d) as [ok d1] eqn:R.
  assert (D1 : forall j, low <= j < high -> revert src (mid - low) low d1 j = src j).
  { intros j J. rewrite revert_at. destruct (Nat.leb_spec low j); [|lia]. destruct (Nat.ltb_spec j (low + (mid - low))); cbn [andb]; [reflexivity|]. pose proof (range_others (mid - low) low mid 0 d j ltac:(lia)) as T. rewrite R in T. cbn [snd] in T. rewrite T. apply E, J. }
  destruct ok; apply IH; auto; try lia; intros j J; apply D1; lia.
Qed.
Lemma tester_search bad b : detects c src bad -> (forall j, bad j -> rewritten show limit (src j) <> src j) -> bad b -> b < count -> (forall j, bad j -> b <= j) ->
  exists disk', search (run_child show limit (Some c)) src count src = Some (if S b <? count then inl (b, S b) else inr PIndex, disk') /\ forall j, disk' j = src j.
Proof.
  intros DT BC B BL LB.
  assert (CK : checks ideal src (fun i => rewritten show limit (src i)) bad).
  { intros i nc d. cbn [ideal fst snd]. split; [intros j; reflexivity|]. split; [intros ->; reflexivity|]. intros ->. cbn [orb]. apply DT. }
  unfold search. rewrite loop_ideal by (auto; lia). destruct (search_loop_finds ideal src (fun i => rewritten show limit (src i)) bad CK BC count 0 count src b) as (d' & H & R); auto; try lia. rewrite H. exists d'. split; [|exact R]. destruct (Nat.ltb_spec b count); [|lia]. reflexivity.
Qed.
End Facts.
