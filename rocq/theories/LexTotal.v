(** * LexTotal: consequences of LexInv for whole runs *)
From Verif Require Import Base Tokens Ast Lexer Parser Driver Spec SpecRun SmallFacts LexBase LexMono LexInv ParserTermination ParserFacts.
From Coq Require Import String.

Definition braceless (FF : Prop) (code : str) : Prop :=
  FF \/ ((forall a b, code <> a ++ [123; 36]%N ++ b) /\ (forall a b, code <> a ++ [36; 123]%N ++ b)).
Lemma next_from code FF lo : lo <= blen code -> braceless FF code -> forall f s, inv code FF lo s -> FF \/ 2 * blen code + 2 < f ->
  hx FF (next_token code f) s (got code FF lo s) (fun e s' => inv code FF lo s' /\ err_in code e).
Proof.
  intros LO NB. induction f as [|f IH]; intros s I HF; [unfold hx; cbn; destruct HF; [auto|lia]|]. cbn [next_token]. apply h_nt_loop; auto.
  - destruct HF; [auto|right; lia].
  - destruct HF as [H|H]; [auto|]. destruct (i_stack _ _ _ _ I) as [X|X]; [auto|]. right. pose proof (i_pos _ _ _ _ I). unfold rk. destruct (restart s); lia.
Qed.
Lemma next_inv code FF : braceless FF code -> forall f s, inv code FF 0 s -> FF \/ 2 * blen code + 2 < f ->
  hx FF (next_token code f) s (got code FF 0 s) (fun e s' => inv code FF 0 s' /\ err_in code e).
Proof. apply next_from. lia. Qed.
Lemma init_inv code FF : inv code FF 0 tst_init.
Proof.
  constructor; cbn [lines line_num src_pos queue lstack tst_init].
  - reflexivity.
  - intros i j a b L A B. assert (a = 0) by (destruct i as [|[|i]]; cbn in A; congruence). lia.
  - reflexivity.
  - constructor; [split; lia|constructor].
  - lia.
  - constructor.
  - right. cbn. lia.
Qed.
(** ** C06 *)
Lemma reached_inv code s : reached code s -> inv code True 0 s.
Proof.
  induction 1 as [|f s t s' H IH E|f s e s' H IH E]; [apply init_inv| |];
    pose proof (next_inv code True (or_introl I) f s IH (or_introl I)) as G; unfold hx in G; rewrite E in G; apply G.
Qed.
Lemma pend_split inp : pend inp = 0 \/ exists w r, In w line_ends /\ inp = w ++ r /\ pend inp = blen w.
Proof.
  unfold pend. destruct (starts_with [59; 13; 10]%N inp) eqn:E1; [right; destruct (sw_split _ _ E1) as (r & ->); exists [59; 13; 10]%N, r; cbn; tauto|].
  destruct (starts_with [59; 10]%N inp) eqn:E2; [right; destruct (sw_split _ _ E2) as (r & ->); exists [59; 10]%N, r; cbn; tauto|].
  destruct (starts_with [59; 13]%N inp) eqn:E3; [right; destruct (sw_split _ _ E3) as (r & ->); exists [59; 13]%N, r; cbn; tauto|].
  destruct (starts_with [13; 10]%N inp) eqn:E4; [right; destruct (sw_split _ _ E4) as (r & ->); exists [13; 10]%N, r; cbn; tauto|].
  destruct (starts_with [10]%N inp) eqn:E5; [right; destruct (sw_split _ _ E5) as (r & ->); exists [10]%N, r; cbn; tauto|].
  destruct (starts_with [13]%N inp) eqn:E6; [right; destruct (sw_split _ _ E6) as (r & ->); exists [13]%N, r; cbn; tauto|]. left. reflexivity.
Qed.
Lemma line_table code s : reached code s ->
  nth_error (lines s) 0 = Some 0 /\ nondecreasing (lines s) /\ List.length (lines s) = line_num s /\
  forall d, In d (lines s) -> d <= blen code /\ passed code s d.
Proof.
  intros R. pose proof (reached_inv _ _ R) as I. destruct I as [A B C D E F G]. repeat split; auto; rewrite Forall_forall in D; specialize (D d H); destruct D as [D1 D2]; [exact D1|].
  unfold ahead in D2. destruct (drop_bytes (src_pos s) code) as [inp|] eqn:DB; [|left; lia]. destruct (pend_split inp) as [P|(w & r & W & -> & P)]; [left; lia|].
  right. exists w, r. split; [exact W|]. destruct (drop_split _ _ _ DB) as (pre & X & Y). split; [exists pre; auto|lia].
Qed.
Lemma lookup_works code s pos : reached code s ->
  exists line a b, line_from_position (lines s) pos = Some line /\ line < line_num s /\
    line_range (lines s) (blen code) line = Some (a, b) /\ a <= b <= blen code /\ a <= pos /\ (pos < b \/ b = blen code).
Proof.
  intros R. destruct (line_table code s R) as (A & B & C & D). destruct (line_lookup (lines s) pos B A) as (l & d & H & N & L & K).
  exists l, d. unfold line_range. rewrite N. assert (l < line_num s) by (rewrite <- C; apply nth_error_Some; congruence).
  destruct (nth_error (lines s) (l + 1)) as [e|] eqn:E; eexists; (split; [exact H|]); (split; [auto|]); (split; [reflexivity|]).
  - pose proof (B l (l + 1) d e ltac:(lia) N E). pose proof (proj1 (D e (nth_error_In _ _ E))). split; [lia|]. split; [exact L|]. left. apply (K (l + 1)); auto. lia.
  - pose proof (proj1 (D d (nth_error_In _ _ N))). split; [lia|]. auto.
Qed.

(** ** Whole runs *)
Lemma tokenize_run code n f : forall acc s, reached code s -> Forall (tokin code 0) acc ->
  match tokenize_loop code n f acc s with
  | DOk (l, s') => reached code s' /\ Forall (tokin code 0) l
  | DErr (e, s') => reached code s' /\ err_in code e
  | _ => True
  end.
Proof.
  induction n as [|n IH]; intros acc s R A; cbn [tokenize_loop]; [exact I|].
  pose proof (next_inv code True (or_introl I) f s (reached_inv _ _ R) (or_introl I)) as G. unfold hx in G. destruct (next_token code f s) as [t s'|e s'|p|] eqn:E; auto.
  - assert (R' : reached code s') by (eapply reached_token; eauto). destruct G as (_ & T & _).
    assert (X : forall t', t' = t -> match tokenize_loop code n f (acc ++ [t']) s' with DOk (l, s') => reached code s' /\ Forall (tokin code 0) l | DErr (e, s') => reached code s' /\ err_in code e | _ => True end).
    { intros t' ->. apply IH; [exact R'|]. apply Forall_app. auto. }
    destruct t as [[k| | | | | | | |] sp]; try (apply X; reflexivity). destruct k; try (apply X; reflexivity). auto.
  - destruct G as [_ G]. split; [eapply reached_error; eauto|exact G].
Qed.
Lemma filter_in code l : Forall (tokin code 0) l -> Forall (tokin code 0) (filter_tokens l).
Proof.
  intros H. unfold filter_tokens. apply Forall_flat_map. eapply Forall_impl; [|exact H]. intros [t sp] T. unfold filter_token. cbn [fst snd].
  destruct t as [k| | | | | | | |]; try (constructor; [exact T|constructor]); try constructor; try exact T; try (repeat constructor; apply T). destruct k; repeat constructor; apply T.
Qed.

(** ** C23 *)
Lemma mk_located src s st en pe sx e : reached src s -> st <= blen src -> en <= blen src + 1 -> mk_serror (lines s) (blen src) st en pe sx = DErr e -> located src e.
Proof.
  intros R S E. unfold mk_serror. destruct (lookup_works src s en R) as (line & a & b & A & B & C & D & F & G). rewrite A, C. intros H. injection H as <-. unfold located. cbn [se_line se_line_start se_line_end se_start se_end].
  split; [exists s; split; [exact R|]|].
  - unfold line_range in C. destruct (nth_error (lines s) line); [|discriminate]. congruence.
  - repeat split; lia.
Qed.
Lemma error_located f src e : parse_str f src = DErr e -> located src e.
Proof.
  unfold parse_str, tokenize. pose proof (tokenize_run src f f [] tst_init (reached_start _) (Forall_nil _)) as G. destruct (tokenize_loop src f f [] tst_init) as [[l s]|[x s]|p|]; try discriminate.
  - destruct G as [R T]. apply filter_in in T. unfold parse_tokens. destruct (parse_top (filter_tokens l)) as [|pe ?| |]; try discriminate. rewrite Forall_forall in T.
    destruct (nth_error (filter_tokens l) (err_pos pe)) as [t|] eqn:N.
    + apply nth_error_In, T in N as [N1 N2]. apply mk_located; auto; lia.
    + destruct (List.length (filter_tokens l)) as [|i]; [discriminate|]. destruct (nth_error (filter_tokens l) i) as [t|] eqn:N2; [|discriminate]. apply nth_error_In, T in N2 as [N2 N3]. apply mk_located; auto; lia.
  - destruct G as [R T]. unfold err_in in T. destruct (err_span x) as [sp|]; [|discriminate]. destruct T. apply mk_located; auto.
Qed.

(** ** C02 *)
Lemma no_braces_less src : no_braces src -> braceless False src. Proof. intros [A B]. right. split; [exact A|exact B]. Qed.
Lemma tokenize_total src f n : no_braces src -> 2 * blen src + 2 < f -> forall acc s, inv src False 0 s -> Phi src s < n -> tokenize_loop src n f acc s <> DFuel.
Proof.
  intros NB HF. induction n as [|n IH]; intros acc s I P; [lia|]. cbn [tokenize_loop].
  pose proof (next_inv src False (no_braces_less _ NB) f s I (or_intror HF)) as G. unfold hx in G. destruct (next_token src f s) as [t s'|e s'|p|] eqn:E; try discriminate; try contradiction.
  destruct G as (I' & _ & [[]|G]). assert (X : ~ is_end t -> tokenize_loop src n f (acc ++ [t]) s' <> DFuel) by (intros N; apply IH; [exact I'|]; destruct G as [G|G]; [destruct (N G)|lia]).
  destruct t as [[k| | | | | | | |] sp]; try (apply X; discriminate). destruct k; try (apply X; discriminate). discriminate.
Qed.
Lemma terminates src f : no_braces src -> 2 * blen src + 3 <= f -> parse_str f src <> DFuel.
Proof.
  intros NB HF. unfold parse_str, tokenize. pose proof (tokenize_total src f f NB ltac:(lia) [] tst_init (init_inv _ _)) as T. assert (P : Phi src tst_init < f) by (unfold Phi; cbn; lia). specialize (T P).
  destruct (tokenize_loop src f f [] tst_init) as [[l s]|[x s]|p|]; try congruence; [apply parse_tokens_total|].
  destruct (err_span x) as [sp|]; [|discriminate]. unfold mk_serror. destruct (line_from_position _ _); [|discriminate]. destruct (line_range _ _ _) as [[? ?]|]; discriminate.
Qed.
Lemma terminates_same src f : no_braces src -> 2 * blen src + 3 <= f -> parse_str f src = parse_str (2 * blen src + 3) src.
Proof. intros NB HF. apply parse_str_mono; [exact HF|]. apply terminates; auto. Qed.

(** the source on which it hangs *)
Definition hang : str := s2l "<?php ""{$a".
Definition inside (p : nat) : tst := set_pos p (set_stack [LDoNothing] (set_mode LInScripting tst_init)).
Lemma fuel_first {A B} (m : T A) (k : A -> T B) s : m s = TFuel -> tbind m k s = TFuel. Proof. unfold tbind. intros ->. reflexivity. Qed.
Lemma fuel_then {A B} (m : T A) (k : A -> T B) s a s' : m s = TOk a s' -> k a s' = TFuel -> tbind m k s = TFuel. Proof. unfold tbind. intros ->. auto. Qed.
Lemma fuel_token {A} (m k : T A) s : m s = TFuel -> ret_token m k s = TFuel. Proof. unfold ret_token. intros ->. reflexivity. Qed.
Lemma fuel_skip {A} (m k : T A) s s' : m s = TErr SENone s' -> k s' = TFuel -> ret_token m k s = TFuel. Proof. unfold ret_token. intros ->. auto. Qed.
Definition script (p : nat) : tst := set_pos p (set_mode LInScripting tst_init).
Lemma hang_token nt lf n (H : forall k toks, block_loop nt k toks (inside 8) = TFuel) : nt_loop hang nt (S (S lf)) (S n) (script 5) = TFuel.
Proof.
  cbn [nt_loop]. change (lmode (script 5)) with LInScripting. cbv iota. unfold scan. change (lmode (script 5)) with LInScripting. cbv iota.
  assert (X : in_scripting_token hang nt (S (S lf)) (script 5) = TFuel); [|rewrite X; reflexivity]. unfold in_scripting_token.
  eapply fuel_then; [lazy; reflexivity|]. eapply fuel_then; [lazy; reflexivity|]. cbv iota. eapply fuel_then; [lazy; reflexivity|].
  eapply fuel_skip; [lazy; reflexivity|]. eapply fuel_skip; [lazy; reflexivity|]. eapply fuel_skip; [lazy; reflexivity|]. eapply fuel_skip; [lazy; reflexivity|]. apply fuel_token.
  unfold match_dq_string. eapply fuel_then; [lazy; reflexivity|]. 
  match goal with |- (if ?b then _ else _) _ = _ => change b with false; cbv iota end.
  eapply fuel_then; [lazy; reflexivity|]. eapply fuel_then; [lazy; reflexivity|]. cbv iota. apply fuel_first. cbn [dq_loop].
  eapply fuel_then; [lazy; reflexivity|]. eapply fuel_then; [lazy; reflexivity|]. eapply fuel_then; [lazy; reflexivity|]. cbv zeta. eapply fuel_then; [lazy; reflexivity|]. cbv iota beta.
  match goal with |- (if ?b then _ else _) _ = _ => change b with false; cbv iota end.
  match goal with |- (if ?b then _ else _) _ = _ => change b with false; cbv iota end.
  match goal with |- (if ?b then _ else _) _ = _ => change b with false; cbv iota end.
  match goal with |- (if ?b then _ else _) _ = _ => change b with false; cbv iota end.
  match goal with |- (if ?b then _ else _) _ = _ => change b with true; cbv iota end.
  apply fuel_first. unfold str_block. eapply fuel_then; [lazy; reflexivity|]. eapply fuel_then; [lazy; reflexivity|].
  match goal with |- (if ?b then _ else _) _ = _ => change b with true; cbv iota end.
  eapply fuel_then; [lazy; reflexivity|]. eapply fuel_then; [lazy; reflexivity|]. eapply fuel_then; [lazy; reflexivity|]. eapply fuel_then; [lazy; reflexivity|]. apply fuel_first. apply H.
Qed.
Lemma stuck_or f f' s r : f' = 10 -> next_token hang f' s = r -> r <> TFuel -> next_token hang f s = TFuel \/ next_token hang f s = r.
Proof.
  intros -> E N. destruct (Nat.le_gt_cases f 10) as [X|X].
  - destruct (next_fle hang f 10 X s) as [Y|Y]; [auto|]. right. congruence.
  - destruct (next_fle hang 10 f ltac:(lia) s) as [Y|Y]; [congruence|]. right. congruence.
Qed.
Lemma hang_end f k : forall toks, block_loop (next_token hang f) k toks (inside 10) = TFuel.
Proof.
  induction k as [|k IH]; intros toks; [reflexivity|]. cbn [block_loop].
  destruct (stuck_or f 10 (inside 10) _ eq_refl eq_refl) as [E|E]; [vm_compute; discriminate|rewrite E; reflexivity|].
  rewrite E. assert (Z : exists t, next_token hang 10 (inside 10) = TOk t (inside 10)) by (eexists; vm_compute; reflexivity). destruct Z as (t & ->). apply IH.
Qed.
Lemma hang_block f k : forall toks, block_loop (next_token hang f) k toks (inside 8) = TFuel.
Proof.
  destruct k as [|k]; intros toks; [reflexivity|]. cbn [block_loop].
  destruct (stuck_or f 10 (inside 8) _ eq_refl eq_refl) as [E|E]; [vm_compute; discriminate|rewrite E; reflexivity|].
  rewrite E. assert (Z : exists t, next_token hang 10 (inside 8) = TOk t (inside 10)) by (eexists; vm_compute; reflexivity). destruct Z as (t & ->). apply hang_end.
Qed.
Lemma hang_second f : next_token hang f (script 5) = TFuel.
Proof.
  destruct (next_fle hang f (4 + f) ltac:(lia) (script 5)) as [E|E]; [exact E|]. rewrite E. change (nt_loop hang (next_token hang (S (S (S f)))) (S (S (S f))) (S (S (S f))) (script 5) = TFuel). apply hang_token. apply hang_block.
Qed.
Lemma hangs f : parse_str f hang = DFuel.
Proof.
  unfold parse_str, tokenize. assert (X : tokenize_loop hang f f [] tst_init = DFuel); [|rewrite X; reflexivity].
  assert (Y : forall n, tokenize_loop hang n f [] tst_init = DFuel); [|apply Y]. intros [|n]; [reflexivity|]. cbn [tokenize_loop].
  destruct (stuck_or f 10 tst_init _ eq_refl eq_refl) as [E|E]; [vm_compute; discriminate|rewrite E; reflexivity|].
  rewrite E. assert (Z : exists sp, next_token hang 10 tst_init = TOk (Kw KOpenTag, sp) (script 5)) by (eexists; vm_compute; reflexivity). destruct Z as (sp & ->).
  destruct n as [|n]; [reflexivity|]. cbn [tokenize_loop]. rewrite hang_second. reflexivity.
Qed.
Lemma tokenizer_terminates src f : no_braces src -> 2 * blen src + 3 <= f -> tokenize f src <> DFuel.
Proof. intros NB HF. apply tokenize_total; auto; [lia|apply init_inv|]. unfold Phi. cbn. lia. Qed.
Lemma find_sub_none p s : find_sub p s = None -> forall a b, s <> a ++ p ++ b.
Proof.
  revert p. induction s as [|c s IH]; intros p H a b E.
  - destruct a; [|discriminate]. destruct p; [discriminate H|discriminate E].
  - cbn [find_sub] in H. destruct (starts_with p (c :: s)) eqn:W; [discriminate|]. destruct (find_sub p s) eqn:F; [discriminate|].
    destruct a as [|x a]; [cbn [app] in E; rewrite E in W; rewrite (proj2 (starts_with_iff p (p ++ b))) in W; [discriminate|eauto]|]. injection E as -> E. apply (IH p F a b E).
Qed.
Lemma misplaced_error : exists f src e, parse_str f src = DErr e /\
  se_end e < se_start e /\ se_line_end e < se_start e /\ error_snippet e src = inr POverflow.
Proof.
  exists 60, (s2l "<?php
echo 1 1.5;"). eexists. split; [vm_compute; reflexivity|]. cbn [se_start se_end se_line_end]. repeat split; try lia.
Qed.
