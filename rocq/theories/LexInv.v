(** * LexInv: what every run of the tokenizer keeps
    One pass over all functions of the tokenizer shows three things at once: the line
    table stays well formed, positions stay inside the source, and (in sources without
    brace interpolation) the fuel suffices.  [FF] says whether running out of fuel is
    acceptable. *)
From Verif Require Import Base Tokens Lexer Spec SmallFacts LexBase.
From Coq Require Import String.

Lemma drop_split p code inp : drop_bytes p code = Some inp -> exists pre, code = pre ++ inp /\ blen pre = p.
Proof.
  revert p. induction code as [|c code IH]; intros [|p] H; try (injection H as <-; exists []; auto); cbn [drop_bytes] in H; [discriminate|].
  destruct (Nat.leb_spec (clen c) (S p)) as [X|X]; [|discriminate]. destruct (IH _ H) as (pre & -> & B). exists (c :: pre). cbn. split; [reflexivity|lia].
Qed.
Lemma take_split n inp w : take_bytes n inp = Some w -> exists r, inp = w ++ r /\ blen w = n.
Proof.
  revert n w. induction inp as [|c inp IH]; intros [|n] w H; cbn [take_bytes] in H; try (injection H as <-; eexists; split; reflexivity); [discriminate|].
  destruct (Nat.leb_spec (clen c) (S n)) as [X|X]; [|discriminate]. destruct (take_bytes (S n - clen c) inp) as [t|] eqn:E; [|discriminate]. injection H as <-.
  destruct (IH _ _ E) as (r & -> & B). exists r. cbn. split; [reflexivity|lia].
Qed.

Section Inv.
Variable code : str.
Variable FF : Prop.
Notation L := (blen code).
Definition spot (s : tst) (inp : str) : Prop := drop_bytes (src_pos s) code = Some inp.
Lemma spot_len s inp : spot s inp -> src_pos s + blen inp = L.
Proof. intros H. destruct (drop_split _ _ _ H) as (pre & E & B). rewrite E, blen_app. lia. Qed.
Lemma spot_next s w r : spot s (w ++ r) -> drop_bytes (src_pos s + blen w) code = Some r.
Proof. intros H. destruct (drop_split _ _ _ H) as (pre & E & B). rewrite E, <- B, <- blen_app, app_assoc. apply drop_app. Qed.
Lemma spot_fun s a b : spot s a -> spot s b -> a = b.
Proof. unfold spot. congruence. Qed.

(** ** Rules *)
Definition hx {A} (m : T A) (s : tst) (Q : A -> tst -> Prop) (E : syntax_error -> tst -> Prop) : Prop :=
  match m s with TOk a s' => Q a s' | TErr e s' => E e s' | TPanic _ => True | TFuel => FF end.
Lemma hx_mono {A} (m : T A) s (Q Q' : A -> tst -> Prop) (E E' : syntax_error -> tst -> Prop) :
  hx m s Q E -> (forall a s', Q a s' -> Q' a s') -> (forall e s', E e s' -> E' e s') -> hx m s Q' E'.
Proof. unfold hx. destruct (m s); auto. Qed.
Lemma hx_bind {A B} (m : T A) (k : A -> T B) s Q E : hx m s (fun a s' => hx (k a) s' Q E) E -> hx (tbind m k) s Q E.
Proof. unfold hx, tbind. destruct (m s); auto. Qed.
Lemma hx_use {A B} (m : T A) (k : A -> T B) s (Q0 : A -> tst -> Prop) (E0 : syntax_error -> tst -> Prop) Q E :
  hx m s Q0 E0 -> (forall a s', Q0 a s' -> hx (k a) s' Q E) -> (forall e s', E0 e s' -> E e s') -> hx (tbind m k) s Q E.
Proof. intros H K X. apply hx_bind. eapply hx_mono; eauto. Qed.
Lemma hx_ret {A} (a : A) s (Q : A -> tst -> Prop) E : Q a s -> hx (tret a) s Q E. Proof. exact (fun H => H). Qed.
Lemma hx_err {A} e s (Q : A -> tst -> Prop) (E : syntax_error -> tst -> Prop) : E e s -> hx (terr e) s Q E. Proof. exact (fun H => H). Qed.
Lemma hx_panic {A} p s (Q : A -> tst -> Prop) E : hx (tpanic p) s Q E. Proof. exact I. Qed.
Lemma hx_input s (Q : str -> tst -> Prop) E : (forall inp, spot s inp -> Q inp s) -> hx (input code) s Q E.
Proof. intros H. unfold hx, input. destruct (drop_bytes (src_pos s) code) as [i|] eqn:D; [|exact I]. apply H. exact D. Qed.
Lemma hx_pos s (Q : nat -> tst -> Prop) E : Q (src_pos s) s -> hx input_pos s Q E. Proof. exact (fun H => H). Qed.
Lemma hx_get s (Q : tst -> tst -> Prop) E : Q s s -> hx tget s Q E. Proof. exact (fun H => H). Qed.
Lemma hx_put s s' (Q : unit -> tst -> Prop) E : Q tt s' -> hx (tput s') s Q E. Proof. exact (fun H => H). Qed.
Lemma hx_putpos p s (Q : unit -> tst -> Prop) E : Q tt (set_pos p s) -> hx (put_pos p) s Q E. Proof. exact (fun H => H). Qed.
Lemma hx_restore b s (Q : unit -> tst -> Prop) E : Q tt (restore b s) -> hx (trestore b) s Q E. Proof. exact (fun H => H). Qed.
Lemma hx_line s (Q : unit -> tst -> Prop) E : Q tt (next_line_st s) -> hx next_line s Q E. Proof. exact (fun H => H). Qed.
Lemma hx_push m s (Q : unit -> tst -> Prop) E : Q tt (set_mode m (set_stack (lmode s :: lstack s) s)) -> hx (push_state m) s Q E. Proof. exact (fun H => H). Qed.
Lemma hx_pop s (Q : unit -> tst -> Prop) E : (forall m st, lstack s = m :: st -> Q tt (set_mode m (set_stack st s))) -> hx pop_state s Q E.
Proof. intros H. unfold hx, pop_state. destruct (lstack s) as [|m st]; [exact I|]. apply H. reflexivity. Qed.
Lemma hx_sub a b s (Q : nat -> tst -> Prop) E : (b <= a -> Q (a - b) s) -> hx (tsub a b) s Q E.
Proof. intros H. unfold tsub. destruct (Nat.leb_spec b a); [apply H; auto|exact I]. Qed.
Lemma hx_unwrap {A} (o : option A) s (Q : A -> tst -> Prop) E : (forall a, o = Some a -> Q a s) -> hx (unwrap o) s Q E.
Proof. intros H. destruct o; [apply H; reflexivity|exact I]. Qed.
Lemma hx_advb n s (Q : str -> tst -> Prop) E : (forall w r, spot s (w ++ r) -> blen w = n -> spot (set_pos (src_pos s + blen w) s) r -> Q w (set_pos (src_pos s + blen w) s)) -> hx (advance_bytes code n) s Q E.
Proof.
  intros H. unfold advance_bytes. apply hx_bind, hx_input. intros inp I. destruct (take_bytes n inp) as [w|] eqn:T; [|exact Logic.I].
  destruct (take_split _ _ _ T) as (r & -> & B). specialize (H w r I B (spot_next _ _ _ I)). rewrite B in H. exact H.
Qed.
Lemma hx_advc n s (Q : str -> tst -> Prop) E : (forall w r, spot s (w ++ r) -> w = firstn n (w ++ r) -> spot (set_pos (src_pos s + blen w) s) r -> Q w (set_pos (src_pos s + blen w) s)) -> hx (advance_chars code n) s Q E.
Proof.
  intros H. unfold advance_chars. apply hx_bind, hx_input. intros inp I. apply hx_advb. intros w r I' B I2. pose proof (spot_fun _ _ _ I I') as ->.
  apply (H w r I'); [|exact I2]. assert (X : forall a b c d, a ++ b = c ++ d -> blen a = blen c -> a = c).
  { clear. induction a as [|x a IH]; intros b [|y c] d E B; auto; cbn in *.
    - pose proof (clen_pos y). lia. - pose proof (clen_pos x). lia.
    - injection E as -> E. f_equal. eapply IH; [exact E|lia]. }
  apply (X _ r _ (skipn n (w ++ r))); [symmetry; apply firstn_skipn|exact B].
Qed.
Lemma hx_ret_token {A} (m k : T A) s (Q : A -> tst -> Prop) (E : syntax_error -> tst -> Prop) :
  hx m s Q (fun e s' => (e = SENone -> hx k s' Q E) /\ (e <> SENone -> E e s')) -> hx (ret_token m k) s Q E.
Proof. unfold hx, ret_token. destruct (m s) as [a s'|e s'|p|]; auto. intros [H1 H2]. destruct e; try (apply H2; discriminate). apply H1. reflexivity. Qed.
Lemma hx_none {A} (m k : T A) s (Q : A -> tst -> Prop) (E : syntax_error -> tst -> Prop) :
  hx m s Q (fun e s' => e = SENone /\ s' = s) -> hx k s Q E -> hx (ret_token m k) s Q E.
Proof. intros H K. apply hx_ret_token. eapply hx_mono; [exact H|auto|]. intros e s' (-> & ->). split; [auto|congruence]. Qed.

(** ** The invariant *)
(** a line start may be known before the position gets there: behind the end of a
    heredoc the line end was looked at already *)
Definition pend (inp : str) : nat :=
  if starts_with [59; 13; 10]%N inp then 3
  else if starts_with [59; 10]%N inp || starts_with [59; 13]%N inp || starts_with [13; 10]%N inp then 2
  else if starts_with [10]%N inp || starts_with [13]%N inp then 1 else 0.
Definition ahead (p : nat) : nat := p + match drop_bytes p code with Some i => pend i | None => 0 end.
Arguments ahead : simpl never.
Lemma ahead_ge p : p <= ahead p. Proof. unfold ahead. lia. Qed.
Lemma pend_le inp : pend inp <= 3.
Proof. unfold pend. repeat match goal with |- context [if ?b then _ else _] => destruct b end; lia. Qed.
Lemma ahead_le p : ahead p <= p + 3.
Proof. unfold ahead. destruct (drop_bytes p code) as [i|]; [pose proof (pend_le i)|]; lia. Qed.
Lemma drop_plus p d inp : drop_bytes p code = Some inp -> drop_bytes (p + d) code = drop_bytes d inp.
Proof.
  intros H. destruct (drop_split _ _ _ H) as (pre & -> & <-). clear H. induction pre as [|c pre IH]; [reflexivity|]. cbn [blen app]. pose proof (clen_pos c).
  destruct (clen c + blen pre + d) eqn:E; [lia|]. cbn [drop_bytes]. destruct (Nat.leb_spec (clen c) (S n)); [|lia]. rewrite <- E. replace (clen c + blen pre + d - clen c) with (blen pre + d) by lia. exact IH.
Qed.
Lemma sw_split p s : starts_with p s = true -> exists r, s = p ++ r. Proof. apply starts_with_iff. Qed.
Lemma pend_suffix inp d : d < pend inp -> exists i, drop_bytes d inp = Some i /\ pend inp <= d + pend i.
Proof.
  intros H. unfold pend in H |- * at 1.
  destruct (starts_with [59; 13; 10]%N inp) eqn:E1.
  { destruct (sw_split _ _ E1) as (r & ->). destruct d as [|[|[|d]]]; [| | |lia]; eexists; (split; [reflexivity|]); unfold pend; cbn; lia. }
  destruct (starts_with [59; 10]%N inp) eqn:E2.
  { destruct (sw_split _ _ E2) as (r & ->). cbn [orb] in *. destruct d as [|[|d]]; [| |lia]; eexists; (split; [reflexivity|]); unfold pend; cbn; try lia. }
  destruct (starts_with [59; 13]%N inp) eqn:E3.
  { destruct (sw_split _ _ E3) as (r & ->). cbn [orb] in *. destruct d as [|[|d]]; [| |lia]; eexists; (split; [reflexivity|]); unfold pend; cbn in *; try rewrite E1; destruct r as [|x r]; try (cbn; lia); destruct (10 =? x)%N; cbn in *; lia. }
  destruct (starts_with [13; 10]%N inp) eqn:E4.
  { destruct (sw_split _ _ E4) as (r & ->). cbn [orb] in *. destruct d as [|[|d]]; [| |lia]; eexists; (split; [reflexivity|]); unfold pend; cbn; lia. }
  cbn [orb] in *. destruct (starts_with [10]%N inp || starts_with [13]%N inp)%bool eqn:E5; [|lia]. destruct d as [|d]; [|lia]. exists inp. split; [apply drop0|]. unfold pend. rewrite E1, E2, E3, E4, E5. cbn. lia.
Qed.
Lemma ahead_mono p q : p <= q -> ahead p <= ahead q.
Proof.
  intros H. unfold ahead at 1. destruct (drop_bytes p code) as [inp|] eqn:D; [|pose proof (ahead_ge q); lia].
  destruct (Nat.le_gt_cases (p + pend inp) q) as [X|X]; [pose proof (ahead_ge q); lia|].
  destruct (pend_suffix inp (q - p)) as (i & E & P); [lia|]. unfold ahead. assert (Z : drop_bytes q code = Some i) by (replace q with (p + (q - p)) by lia; rewrite (drop_plus _ _ _ D); exact E). rewrite Z. lia.
Qed.
Lemma pend_char c r : (c =? 59)%N = false -> (c =? 13)%N = false -> (c =? 10)%N = false -> pend (c :: r) = 0.
Proof. intros A B C. rewrite N.eqb_sym in A, B, C. unfold pend. cbn [starts_with]. rewrite A, B, C. reflexivity. Qed.

(** tokens start behind [lo] *)
Variable lo : nat.
Hypothesis lo_le : lo <= blen code.
Definition tokin (t : tokspan) : Prop := lo <= sp_start (snd t) <= L /\ sp_end (snd t) <= L.
Definition err_in (e : syntax_error) : Prop := match err_span e with Some sp => sp_start sp <= L /\ sp_end sp <= L + 1 | None => True end.
Record inv (s : tst) : Prop := mkInv {
  i_zero : nth_error (lines s) 0 = Some 0;
  i_sort : nondecreasing (lines s);
  i_num : List.length (lines s) = line_num s;
  i_in : Forall (fun d => d <= L /\ d <= ahead (src_pos s)) (lines s);
  i_pos : lo <= src_pos s <= L;
  i_queue : Forall tokin (queue s);
  i_stack : FF \/ List.length (lstack s) <= src_pos s }.
Lemma inv_move s p : inv s -> src_pos s <= p -> p <= L -> inv (set_pos p s).
Proof.
  intros [A B C D E F G] H K. constructor; auto.
  - eapply Forall_impl; [|exact D]. cbn [src_pos set_pos]. intros d [X Y]. split; [exact X|]. pose proof (ahead_mono _ _ H). lia.
  - cbn. lia.
  - destruct G; [auto|right; cbn; lia].
Qed.
Lemma inv_adv s w r : inv s -> spot s (w ++ r) -> inv (set_pos (src_pos s + blen w) s).
Proof. intros I H. apply inv_move; auto; [lia|]. apply spot_len in H. rewrite blen_app in H. lia. Qed.
Lemma inv_mode m s : inv s -> inv (set_mode m s). Proof. intros [A B C D E F G]. constructor; auto. Qed.
Lemma inv_restart b s : inv s -> inv (set_restart b s). Proof. intros [A B C D E F G]. constructor; auto. Qed.
Lemma inv_queue q s : inv s -> Forall tokin q -> inv (set_queue q s). Proof. intros [A B C D E F G] H. constructor; auto. Qed.
Lemma inv_stack st s : inv s -> FF \/ List.length st <= src_pos s -> inv (set_stack st s). Proof. intros [A B C D E F G] H. constructor; auto. Qed.
Lemma inv_restore b s : inv b -> inv s -> inv (restore b s). Proof. intros H [A B C D E F G]. apply inv_queue; auto. Qed.
Lemma inv_pop m st s : inv s -> lstack s = m :: st -> inv (set_mode m (set_stack st s)).
Proof. intros H E. apply inv_mode, inv_stack; auto. destruct (i_stack _ H) as [X|X]; auto. rewrite E in X. cbn in X. right. lia. Qed.
Lemma sorted_snoc l x : nondecreasing l -> Forall (fun d => d <= x) l -> nondecreasing (l ++ [x]).
Proof.
  intros S F i j a b IJ A B. destruct (Nat.lt_ge_cases j (List.length l)) as [J|J].
  - rewrite nth_error_app1 in A, B by lia. eapply S; [|exact A|exact B]; exact IJ.
  - rewrite nth_error_app2 in B by lia. destruct (j - List.length l) as [|k] eqn:K; [injection B as <-|destruct k; discriminate].
    destruct (Nat.lt_ge_cases i (List.length l)) as [X|X].
    + rewrite nth_error_app1 in A by lia. apply nth_error_In in A. rewrite Forall_forall in F. auto.
    + rewrite nth_error_app2 in A by lia. replace (i - List.length l) with 0 in A by lia. injection A as <-. auto.
Qed.
Lemma inv_line s : inv s -> Forall (fun d => d <= src_pos s) (lines s) -> inv (next_line_st s) /\ Forall (fun d => d <= src_pos s) (lines (next_line_st s)).
Proof.
  intros [A B C D E F G] H. assert (X : Forall (fun d => d <= src_pos s) (lines (next_line_st s))) by (apply Forall_app; split; [exact H|repeat constructor]). split; [|exact X]. constructor; cbn [lines src_pos line_num queue lstack next_line_st]; auto.
  - destruct (lines s); [discriminate|exact A].
  - apply sorted_snoc; auto.
  - rewrite app_length. cbn. lia.
  - eapply Forall_impl; [|exact X]. cbv beta. intros d Y. pose proof (ahead_ge (src_pos s)). lia.
Qed.
(** behind a character that is not part of such a line end all line starts are passed *)
Lemma inv_passed s inp : inv s -> spot s inp -> pend inp = 0 -> Forall (fun d => d <= src_pos s) (lines s).
Proof. intros I H P. eapply Forall_impl; [|exact (i_in _ I)]. cbn [src_pos set_pos]. intros d [_ X]. unfold ahead in X. rewrite H, P in X. lia. Qed.
Lemma inv_passed_by s inp n : inv s -> spot s inp -> pend inp <= n -> Forall (fun d => d <= src_pos (set_pos (src_pos s + n) s)) (lines s).
Proof. intros I H P. eapply Forall_impl; [|exact (i_in _ I)]. cbn [src_pos set_pos]. intros d [_ X]. unfold ahead in X. rewrite H in X. lia. Qed.
Lemma pend_lf r : pend (10%N :: r) = 1. Proof. reflexivity. Qed.
Lemma inv_lf s r : inv s -> spot s (10%N :: r) -> inv (next_line_st (set_pos (src_pos s + 1) s)).
Proof.
  intros I H. pose proof (inv_adv s [10%N] r I H) as J. change (blen [10%N]) with 1 in J. apply inv_line; [exact J|].
  eapply (inv_passed_by s); [exact I|exact H|rewrite pend_lf; lia].
Qed.

(** ** Scanning helpers *)
Definition fwd (s s' : tst) : Prop := exists p, s' = set_pos p s /\ src_pos s <= p <= L.
Definition onward (s s' : tst) : Prop := exists p, s' = set_pos p s /\ src_pos s < p <= L.
Lemma set_pos_same s : set_pos (src_pos s) s = s. Proof. destruct s. reflexivity. Qed.
Lemma set_pos_pos p q s : set_pos p (set_pos q s) = set_pos p s. Proof. reflexivity. Qed.
Lemma restore_same b s : queue s = queue b -> restore b s = b. Proof. intros H. unfold restore. rewrite H. destruct b. reflexivity. Qed.
Lemma fwd_refl s : src_pos s <= L -> fwd s s. Proof. intros H. exists (src_pos s). rewrite set_pos_same. auto. Qed.
Lemma fwd_trans a b c : fwd a b -> fwd b c -> fwd a c.
Proof. intros (p & -> & P) (q & -> & Q). exists q. rewrite set_pos_pos. cbn in Q. split; [reflexivity|lia]. Qed.
Lemma onward_fwd a b : onward a b -> fwd a b. Proof. intros (p & -> & P). exists p. split; [reflexivity|lia]. Qed.
Lemma fwd_onward a b c : fwd a b -> onward b c -> onward a c.
Proof. intros (p & -> & P) (q & -> & Q). exists q. rewrite set_pos_pos. cbn in Q. split; [reflexivity|lia]. Qed.
Lemma onward_onward a b c : onward a b -> fwd b c -> onward a c.
Proof. intros (p & -> & P) (q & -> & Q). exists q. rewrite set_pos_pos. cbn in Q. split; [reflexivity|lia]. Qed.
Lemma inv_fwd s s' : inv s -> fwd s s' -> inv s'.
Proof. intros I (p & -> & P). apply inv_move; auto; lia. Qed.
Lemma inv_onward s s' : inv s -> onward s s' -> inv s'. Proof. intros I H. eapply inv_fwd; [exact I|apply onward_fwd, H]. Qed.
Lemma fwd_adv s w r : spot s (w ++ r) -> fwd s (set_pos (src_pos s + blen w) s).
Proof. intros H. eexists. split; [reflexivity|]. apply spot_len in H. rewrite blen_app in H. lia. Qed.
Lemma blen_pos w : w <> [] -> 0 < blen w. Proof. destruct w as [|c w]; [congruence|]. intros _. cbn. pose proof (clen_pos c). lia. Qed.
Lemma onward_adv s w r : spot s (w ++ r) -> 0 < blen w -> onward s (set_pos (src_pos s + blen w) s).
Proof. intros H P. eexists. split; [reflexivity|]. apply spot_len in H. rewrite blen_app in H. lia. Qed.
Lemma len_blen (w : str) : List.length w <= blen w.
Proof. induction w as [|c w IH]; [auto|]. cbn. pose proof (clen_pos c). lia. Qed.

Definition same (s s' : tst) : Prop :=
  lmode s' = lmode s /\ lstack s' = lstack s /\ restart s' = restart s /\ queue s' = queue s /\ src_pos s <= src_pos s'.
Lemma same_refl s : same s s. Proof. repeat split; auto. Qed.
Lemma same_trans a b c : same a b -> same b c -> same a c.
Proof. intros (A & B & C & D & E) (A' & B' & C' & D' & E'). repeat split; try congruence; lia. Qed.
Lemma fwd_same a b : fwd a b -> same a b. Proof. intros (p & -> & P). repeat split. cbn. lia. Qed.

Lemma whitespace_inv inp : forall s, inv s -> spot s inp -> inv (whitespace_loop inp s) /\ same s (whitespace_loop inp s).
Proof.
  induction inp as [|c inp IH]; intros s I H; cbn [whitespace_loop]; [auto using same_refl|].
  destruct ((c =? 32) || (c =? 9) || (c =? 13))%N eqn:C1.
  - assert (Z : blen [c] = 1) by (cbn; apply orb_true_iff in C1 as [C1|C1]; [apply orb_true_iff in C1 as [C1|C1]|]; apply N.eqb_eq in C1; subst c; reflexivity).
    pose proof (fwd_adv s [c] inp H) as F. rewrite Z in F. destruct (IH (set_pos (src_pos s + 1) s)) as [X Y]; [eapply inv_fwd; eauto| |].
    + pose proof (spot_next s [c] inp H) as W. rewrite Z in W. exact W.
    + split; [exact X|]. eapply same_trans; [apply fwd_same, F|exact Y].
  - destruct (c =? 10)%N eqn:C2; [|auto using same_refl]. apply N.eqb_eq in C2. subst c.
    destruct (IH (next_line_st (set_pos (src_pos s + 1) s))) as [X Y]; [apply (inv_lf s inp I H)| |].
    + exact (spot_next s [10%N] inp H).
    + split; [exact X|]. eapply same_trans; [|exact Y]. repeat split. cbn. lia.
Qed.
Lemma h_whitespace s : inv s -> hx (whitespace code) s (fun _ s' => inv s' /\ same s s') (fun _ _ => False).
Proof. intros I. unfold whitespace. apply hx_bind, hx_input. intros inp H. apply whitespace_inv; auto. Qed.
Lemma ws_only_fwd inp : forall s, spot s inp -> fwd s (whitespace_only_loop inp s).
Proof.
  induction inp as [|c inp IH]; intros s H; cbn [whitespace_only_loop]; [apply fwd_refl; apply spot_len in H; cbn in H; lia|].
  destruct ((c =? 32) || (c =? 9))%N eqn:C1; [|apply fwd_refl; apply spot_len in H; lia].
  assert (Z : blen [c] = 1) by (cbn; apply orb_true_iff in C1 as [C1|C1]; apply N.eqb_eq in C1; subst c; reflexivity).
  pose proof (fwd_adv s [c] inp H) as F. rewrite Z in F. pose proof (spot_next s [c] inp H) as W. rewrite Z in W. eapply fwd_trans; [exact F|apply IH; exact W].
Qed.
Lemma h_ws_only s : hx (whitespace_only code) s (fun _ s' => fwd s s') (fun _ _ => False).
Proof. unfold whitespace_only. apply hx_bind, hx_input. intros inp H. apply ws_only_fwd; auto. Qed.

Lemma h_newline s : inv s ->
  hx (newline code) s (fun b s' => if (b : bool) then exists inp k, spot s inp /\ 0 < k /\ src_pos s + k <= L /\ pend inp = k /\ starts_with_c 10 inp || starts_with_c 13 inp = true /\ inv s' /\ s' = next_line_st (set_pos (src_pos s + k) s) else s' = s) (fun _ _ => False).
Proof.
  intros I. unfold newline. apply hx_bind, hx_input. intros inp H.
  assert (G : forall k, 0 < k -> pend inp = k -> starts_with_c 10 inp || starts_with_c 13 inp = true -> hx (advance_bytes code k ;;; next_line ;;; tret true) s (fun b s' => if (b : bool) then exists inp k, spot s inp /\ 0 < k /\ src_pos s + k <= L /\ pend inp = k /\ starts_with_c 10 inp || starts_with_c 13 inp = true /\ inv s' /\ s' = next_line_st (set_pos (src_pos s + k) s) else s' = s) (fun _ _ => False)).
  { intros k K P NL. apply hx_bind, hx_advb. intros w r H' B _. apply hx_bind, hx_line, hx_ret. exists inp, k. rewrite B. apply spot_len in H' as Z. rewrite blen_app in Z. split; [exact H|]. split; [exact K|]. split; [lia|]. split; [exact P|]. split; [exact NL|]. split; [|reflexivity]. apply inv_line.
    - apply inv_move; auto; lia.
    - apply (inv_passed_by s inp k I H). lia. }
  destruct (starts_with [13; 10]%N inp) eqn:E1.
  - destruct (sw_split _ _ E1) as (r & ->). apply G; [lia|reflexivity|reflexivity].
  - destruct (starts_with_c 10 inp || starts_with_c 13 inp)%bool eqn:E2 in |- *; [|apply hx_ret; reflexivity].
    apply G; [lia| |exact E2]. unfold pend. rewrite E1. destruct inp as [|c r]; [discriminate|]. cbn [starts_with_c] in E2. cbn [starts_with] in *. apply orb_true_iff in E2 as [E2|E2]; apply N.eqb_eq in E2; subst c; reflexivity.
Qed.

Lemma position_bound f (inp : str) e : position f inp = Some e -> e <= List.length inp.
Proof.
  revert e. induction inp as [|c inp IH]; intros e H; cbn in H; [discriminate|]. destruct (f c); [injection H as <-; lia|].
  destruct (position f inp) as [k|] eqn:P; [|discriminate]. injection H as <-. specialize (IH _ eq_refl). cbn. lia.
Qed.
Lemma firstn_ne {A} n (l : list A) : n <> 0 -> l <> [] -> firstn n l <> [].
Proof. destruct n, l; cbn; congruence. Qed.

Lemma h_label s : hx (label code) s
  (fun r s' => match r with None => s' = s | Some (w, sp) => onward s s' /\ src_pos s' = src_pos s + blen w /\ w <> [] /\ sp = mk_span (src_pos s) (src_pos s + List.length w) end) (fun _ _ => False).
Proof.
  unfold label. apply hx_bind, hx_input. intros [|c r0] H; [reflexivity|]. destruct (is_digit c); [reflexivity|].
  set (inp := c :: r0) in *. set (o := position (fun x => negb (is_label_char x)) inp).
  assert (G : forall e, e <> 0 -> e <= List.length inp -> hx (old_pos <- input_pos ;; r <- advance_chars code e ;; tret (Some (r, mk_span old_pos (old_pos + e)))) s
     (fun r s' => match r with None => s' = s | Some (w, sp) => onward s s' /\ src_pos s' = src_pos s + blen w /\ w <> [] /\ sp = mk_span (src_pos s) (src_pos s + List.length w) end) (fun _ _ => False)).
  { intros e E1 E2. apply hx_bind, hx_pos, hx_bind, hx_advc. intros w r H' W _. apply hx_ret. pose proof (spot_fun _ _ _ H H') as X. rewrite <- X in W.
    assert (WN : w <> []) by (rewrite W; apply firstn_ne; [exact E1|discriminate]).
    assert (WL : List.length w = e) by (rewrite W, firstn_length; lia).
    split; [apply (onward_adv s w r H'), blen_pos, WN|]. split; [reflexivity|]. split; [exact WN|]. rewrite WL. reflexivity. }
  assert (LN : List.length inp <> 0) by (unfold inp; discriminate).
  destruct o as [[|e]|] eqn:O; [reflexivity|apply G; [lia|apply (position_bound _ _ _ O)]|apply G; [exact LN|lia]].
Qed.

(** ** Tokens without interpolation *)
Definition is_end (t : tokspan) : Prop := fst t = Kw KEnd.
(** the shape of most scanners: a token moves the position, no token leaves the state *)
Definition plain (m : T tokspan) (s : tst) : Prop :=
  lo <= src_pos s -> hx m s (fun t s' => tokin t /\ (is_end t /\ s' = s \/ onward s s')) (fun e s' => e = SENone /\ s' = s).
Lemma tokin_end : tokin (end_token code). Proof. split; cbn; lia. Qed.
Lemma onward_pos a b : onward a b -> src_pos a < src_pos b <= L. Proof. intros (p & -> & P). exact P. Qed.
Lemma onward_queue a b : onward a b -> queue b = queue a. Proof. intros (p & -> & P). reflexivity. Qed.
Lemma fwd_pos a b : fwd a b -> src_pos a <= src_pos b <= L. Proof. intros (p & -> & P). exact P. Qed.
Lemma back a b : fwd a b -> set_pos (src_pos a) b = a. Proof. intros (p & -> & P). rewrite set_pos_pos. apply set_pos_same. Qed.
Lemma sw1_split c inp : starts_with_c c inp = true -> exists r, inp = c :: r.
Proof. destruct inp as [|x r]; cbn [starts_with_c]; [discriminate|]. intros H. apply N.eqb_eq in H. subst. eauto. Qed.

Lemma h_onum s : plain (onum_dnum_lnum code) s.
Proof.
  unfold plain, onum_dnum_lnum. intros LO. apply hx_bind, hx_input. intros [|c0 r0] H; [split; [apply tokin_end|left; split; reflexivity]|].
  set (inp := c0 :: r0) in *. cbv beta iota zeta.
  set (e := match position not_digit inp with Some e => e | None => blen inp end).
  assert (EL : e <= blen inp) by (subst e; destruct (position not_digit inp) as [k|] eqn:P; [apply position_bound in P; pose proof (len_blen inp); lia|lia]).
  apply hx_bind, hx_pos, hx_bind, hx_advc. intros w r H' W H2. pose proof (spot_fun _ _ _ H H') as X.
  pose proof (fwd_adv s w r H') as F. set (s1 := set_pos (src_pos s + blen w) s) in *.
  assert (SL : src_pos s + blen inp = L) by (apply spot_len; exact H).
  apply hx_bind, hx_input. intros inp2 H3. pose proof (spot_fun _ _ _ H2 H3) as <-.
  destruct (negb (starts_with_c 46 r)) eqn:D1.
  - destruct (negb (e =? 0)) eqn:D2.
    + apply hx_bind, hx_pos, hx_bind, hx_unwrap. intros z _. apply hx_ret. pose proof (fwd_pos _ _ F). split; [split; cbn [snd mk_span sp_start sp_end]; lia|]. right.
      apply (onward_adv s w r H'), blen_pos. rewrite W, <- X. apply firstn_ne; [|discriminate]. apply negb_true_iff, Nat.eqb_neq in D2. exact D2.
    + apply hx_bind, hx_putpos, hx_err. split; [reflexivity|apply back, F].
  - apply negb_false_iff in D1. destruct (sw1_split _ _ D1) as (r1 & ->).
    apply hx_bind, hx_advc. intros d r2 H4 D H5. pose proof (spot_fun _ _ _ H4 H3) as Y. rewrite Y in D. cbn [firstn] in D. subst d.
    pose proof (onward_adv s1 [46%N] r2 H4 ltac:(cbn; lia)) as F2. set (s2 := set_pos (src_pos s1 + blen [46%N]) s1) in *.
    pose proof (fwd_onward _ _ _ F F2) as F3. pose proof (onward_pos _ _ F3) as P3.
    apply hx_bind, hx_input. intros inp3 H6. pose proof (spot_fun _ _ _ H5 H6) as <-.
    assert (G : forall n, hx (p <- input_pos;; r0 <- advance_chars code n;; d <- unwrap (f64_from_str ((w ++ [46%N]) ++ r0));; tret (TDouble d, mk_span p e)) s2
       (fun (t : tokspan) (s' : tst) => tokin t /\ (is_end t /\ s' = s \/ onward s s')) (fun e s' => e = SENone /\ s' = s)).
    { intros n. apply hx_bind, hx_pos, hx_bind, hx_advc. intros x y H7 _ _. apply hx_bind, hx_unwrap. intros z _. apply hx_ret. split; [split; cbn [snd mk_span sp_start sp_end]; lia|]. right. eapply onward_onward; [exact F3|apply (fwd_adv s2 x y H7)]. }
    destruct (position not_digit r2) as [[|k]|]; [|apply G|apply G].
    destruct (blen (w ++ [46%N]) =? 1).
    + apply hx_bind, hx_putpos, hx_err. split; [reflexivity|]. apply back, onward_fwd, F3.
    + apply hx_bind, hx_pos, hx_bind, hx_unwrap. intros z _. apply hx_ret. split; [split; cbn [snd mk_span sp_start sp_end]; lia|]. right. exact F3.
Qed.

Lemma h_prefixed prefix ok radix s : lo <= src_pos s <= L ->
  hx (prefixed_num code prefix ok radix) s (fun t s' => tokin t /\ onward s s') (fun e s' => e = SENone /\ fwd s s').
Proof.
  intros SL. unfold prefixed_num. apply hx_bind, hx_input. intros inp H. destruct ((blen inp <? 3) || negb (starts_with prefix inp))%bool; [split; [reflexivity|apply fwd_refl, SL]|].
  apply hx_bind, hx_advb. intros w r H' B H2. pose proof (onward_adv s w r H' ltac:(lia)) as F. set (s1 := set_pos (src_pos s + blen w) s) in *.
  apply hx_bind, hx_input. intros inp2 H3. pose proof (spot_fun _ _ _ H2 H3) as <-.
  assert (G : forall n, n <= List.length r -> hx (p <- input_pos;; q <- tsub p 2;; r0 <- advance_chars code n;; z <- unwrap (i64_from_str_radix radix r0);; tret (TInt z, mk_span q n)) s1
     (fun (t : tokspan) (s' : tst) => tokin t /\ onward s s') (fun e s' => e = SENone /\ fwd s s')).
  { intros n N. apply hx_bind, hx_pos, hx_bind, hx_sub. intros _. apply hx_bind, hx_advc. intros x y H7 _ _. apply hx_bind, hx_unwrap. intros z _. apply hx_ret. pose proof (onward_pos _ _ F). apply spot_len in H3. pose proof (len_blen r). assert (src_pos s1 = src_pos s + 2) by (subst s1; cbn [src_pos set_pos]; lia).
    split; [split; cbn [snd mk_span sp_start sp_end]; lia|]. eapply onward_onward; [exact F|apply (fwd_adv s1 x y H7)]. }
  destruct (position (fun c => negb (ok c)) r) as [[|k]|] eqn:P; [|apply G; apply (position_bound _ _ _ P)|apply G; lia].
  split; [reflexivity|apply onward_fwd, F].
Qed.

Lemma h_variable s : src_pos s <= L -> plain (match_variable code) s.
Proof.
  intros SL. unfold plain, match_variable. intros LO. apply hx_bind, hx_input. intros inp H. destruct ((blen inp <? 2) || negb (starts_with_c 36 inp))%bool; [split; reflexivity|].
  apply hx_bind, hx_pos, hx_bind, hx_advb. intros w r H' B H2. pose proof (onward_adv s w r H' ltac:(lia)) as F. set (s1 := set_pos (src_pos s + blen w) s) in *.
  eapply hx_use; [apply h_label| |intros ? ? []]. intros [[name sp]|] s2.
  - intros (F2 & P2 & N & ->). apply hx_ret. pose proof (onward_pos _ _ F2) as Q2. pose proof (len_blen name).
    split; [split; cbn [snd mk_span sp_start sp_end set_start]; lia|]. right. eapply onward_onward; [exact F|apply onward_fwd, F2].
  - intros ->. apply hx_bind, hx_putpos, hx_err. split; [reflexivity|apply back, onward_fwd, F].
Qed.

Lemma h_m_token s : src_pos s <= L -> plain (m_token code) s.
Proof.
  intros SL. unfold plain, m_token. intros LO. apply hx_bind, hx_input. intros [|c r0] H; [split; [apply tokin_end|left; split; reflexivity]|].
  destruct (simple_token c); [|split; reflexivity]. apply hx_bind, hx_advc. intros w r H' W _. pose proof (spot_fun _ _ _ H H') as X. rewrite <- X in W.
  assert (F : onward s (set_pos (src_pos s + blen w) s)) by (apply (onward_adv s w r H'), blen_pos; rewrite W; discriminate). pose proof (onward_pos _ _ F) as P.
  apply hx_bind, hx_pos, hx_bind, hx_sub. intros _. apply hx_ret. split; [split; cbn [snd mk_span sp_start sp_end]; lia|auto].
Qed.

(** [str_escape] *)
Lemma h_escape bs sq s : inv s -> hx (str_escape code bs sq) s (fun bs' s' => onward s s' /\ List.length bs' + src_pos s <= List.length bs + src_pos s') (fun e s' => inv s' /\ err_in e /\ e <> SENone).
Proof.
  intros I. unfold str_escape. apply hx_bind, hx_input. intros inp H. destruct (nth_error inp 1) as [c|] eqn:N.
  2:{ apply hx_bind, hx_pos, hx_err. split; [exact I|]. split; [cbn; pose proof (i_pos _ I); lia|discriminate]. }
  destruct inp as [|c0 [|c1 inp]]; try discriminate. injection N as ->. set (i0 := c0 :: c :: inp) in *.
  assert (G : forall n (x : bytes), List.length x <= List.length bs + 1 + clen c -> hx (advance_chars code (S (S n)) ;;; tret x) s (fun bs' s' => onward s s' /\ List.length bs' + src_pos s <= List.length bs + src_pos s') (fun e s' => inv s' /\ err_in e /\ e <> SENone)).
  { intros n x Z. apply hx_bind, hx_advc. intros w r H' W _. pose proof (spot_fun _ _ _ H H') as X. rewrite <- X in W. subst i0. cbn [firstn] in W. apply hx_ret.
    assert (B : 1 + clen c <= blen w) by (rewrite W; cbn [blen]; pose proof (clen_pos c0); lia). split; [apply (onward_adv s w r H'); lia|cbn [src_pos set_pos]; lia]. }
  pose proof (clen_pos c) as CP. cbv zeta. repeat match goal with
    | |- context [match nth_error i0 ?k with Some x => is_alnum x | None => false end] => destruct (match nth_error i0 k with Some x => is_alnum x | None => false end); cbn [Nat.eqb Nat.add]
    | |- hx (if ?b then _ else _) _ _ _ => destruct b
    | |- hx (match nth_error i0 ?k with Some _ => _ | None => _ end) _ _ _ => destruct (nth_error i0 k)
    | |- hx (tpanic _) _ _ _ => exact Logic.I
    | |- hx (advance_chars code 2 ;;; tret _) _ _ _ => apply G; rewrite app_length; cbn [List.length app]; rewrite ?SmallFacts.enc1_clen; lia
    end; apply hx_bind, hx_unwrap; intros b _; apply G; rewrite app_length; cbn [List.length]; lia.
Qed.

(** ** Keyword tables *)
Lemma h_alias alias k a s : alias <> [] -> inv s ->
  hx (match_token_alias code alias k a) s
     (fun t s' => exists s1, onward s s1 /\ do_act a s1 = TOk tt s' /\ t = (Kw k, mk_span (src_pos s) (src_pos s1)))
     (fun e s' => e = SENone /\ s' = s).
Proof.
  intros NE I. unfold match_token_alias. apply hx_bind, hx_input. intros inp H. destruct (starts_with_ci inp alias); [|split; reflexivity].
  apply hx_bind, hx_pos, hx_bind, hx_advb. intros w r H' B _. apply blen_pos in NE. pose proof (onward_adv s w r H' ltac:(lia)) as F.
  apply hx_bind, hx_pos, hx_bind. unfold hx. destruct (do_act a (set_pos (src_pos s + blen w) s)) as [u s'|e s'|p|] eqn:D; [|destruct a; try discriminate D|exact Logic.I|].
  - destruct u. eexists. split; [exact F|]. split; [exact D|reflexivity].
  - unfold do_act, pop_state in D. destruct (lstack _); discriminate.
  - destruct a; try discriminate D. unfold do_act, pop_state in D. destruct (lstack _); discriminate.
Qed.
Lemma act_inv a s s' s0 : onward s0 s -> inv s0 -> do_act a s = TOk tt s' -> inv s' /\ src_pos s' = src_pos s /\ queue s' = queue s.
Proof.
  intros F I H. pose proof (inv_onward _ _ I F) as J. destruct a; cbn in H.
  - injection H as <-. auto.
  - injection H as <-. split; [apply inv_mode; exact J|auto].
  - injection H as <-. split; [|auto]. apply inv_mode, inv_stack; [exact J|]. destruct (i_stack _ I) as [X|X]; [auto|right]. destruct F as (p & -> & P). cbn. lia.
  - unfold pop_state in H. destruct (lstack s) as [|m st] eqn:E; [discriminate|]. injection H as <-. split; [apply inv_pop; auto|auto].
Qed.

(** what a token of the scripting state leaves behind *)
Definition took (s : tst) (t : tokspan) (s' : tst) : Prop :=
  inv s' /\ queue s' = queue s /\ (is_end t /\ s' = s /\ t = end_token code \/ src_pos s < src_pos s' /\ sp_end (snd t) = src_pos s' /\ sp_start (snd t) = src_pos s).
Definition nothing (s : tst) (e : syntax_error) (s' : tst) : Prop := e = SENone /\ s' = s.

Lemma h_alias_took alias k a s : alias <> [] -> inv s -> hx (match_token_alias code alias k a) s (took s) (nothing s).
Proof.
  intros N I. eapply hx_mono; [apply h_alias; auto| |auto]. intros t s' (s1 & F & D & ->). destruct (act_inv _ _ _ _ F I D) as (J & P & Q). pose proof (onward_pos _ _ F).
  split; [exact J|]. split; [rewrite Q; apply (onward_queue _ _ F)|]. right. cbn [snd mk_span sp_start sp_end]. rewrite P. repeat split. lia.
Qed.
Definition entries_ok (l : list entry) : bool := forallb (fun e => match s2l (fst (fst e)) with [] => false | _ => true end) l.
Lemma h_entries l k s E : entries_ok l = true -> inv s -> hx k s (took s) E -> hx (try_entries code l k) s (took s) E.
Proof.
  intros O I K. induction l as [|[[r kd] a] l IH]; [exact K|]. cbn [entries_ok forallb fst] in O. apply andb_true_iff in O as [O1 O2]. cbn [try_entries]. apply hx_none; [|apply IH; exact O2].
  apply h_alias_took; [|exact I]. intros X. rewrite X in O1. discriminate.
Qed.
Lemma h_yield s : inv s -> hx (match_yield code) s (took s) (nothing s).
Proof.
  intros I. unfold match_yield. apply hx_bind, hx_input. intros inp H. destruct (starts_with_ci inp (s2l "yield")); [|split; reflexivity].
  apply hx_bind, hx_pos, hx_bind, hx_advb. intros w r H' B _. pose proof (onward_adv s w r H' ltac:(lia)) as F. set (s1 := set_pos (src_pos s + blen w) s) in *. pose proof (inv_onward _ _ I F) as I1. pose proof (onward_pos _ _ F).
  eapply hx_use; [apply h_whitespace; exact I1| |intros ? ? []]. intros [] s2 (I2 & M). apply hx_bind, hx_input. intros inp2 H2.
  destruct M as (M1 & M2 & M3 & M4 & M5). destruct (starts_with_ci inp2 (s2l "from")).
  - apply hx_bind, hx_advb. intros w' r' H3 B' _. pose proof (onward_adv s2 w' r' H3 ltac:(lia)) as F2. pose proof (onward_pos _ _ F2). apply hx_bind, hx_pos, hx_ret.
    split; [eapply inv_onward; eauto|]. split; [exact M4|]. right. cbn [snd mk_span sp_start sp_end]. repeat split. lia.
  - apply hx_bind, hx_pos, hx_ret. split; [exact I2|]. split; [exact M4|]. right. cbn [snd mk_span sp_start sp_end]. repeat split. lia.
Qed.
(** the cast table does not touch the state otherwise *)
Definition quiet (l : list entry) : bool := forallb (fun e => match snd e with ANone => true | _ => false end) l.
Lemma h_entries_quiet l s : entries_ok l = true -> quiet l = true -> inv s -> hx (try_entries code l (terr SENone)) s (fun _ s' => onward s s') (nothing s).
Proof.
  intros O Q I. induction l as [|[[r kd] a] l IH]; [split; reflexivity|]. cbn [entries_ok forallb fst] in O. apply andb_true_iff in O as [O1 O2]. cbn [quiet forallb snd] in Q. apply andb_true_iff in Q as [Q1 Q2]. cbn [try_entries].
  destruct a; try discriminate. apply hx_none; [|apply IH; auto].
  eapply hx_mono; [apply h_alias; [intros X; rewrite X in O1; discriminate|exact I]| |auto]. intros t s' (s1 & F & D & _). injection D as <-. exact F.
Qed.
Lemma h_cast s : inv s -> hx (match_cast code) s (took s) (nothing s).
Proof.
  intros I. unfold match_cast. apply hx_bind, hx_input. intros inp H. destruct (starts_with_c 40 inp); [|split; reflexivity].
  apply hx_bind, hx_pos, hx_bind, hx_advb. intros w r H' B _. pose proof (onward_adv s w r H' ltac:(lia)) as F. set (s1 := set_pos (src_pos s + blen w) s) in *.
  eapply hx_use; [apply h_ws_only| |intros ? ? []]. intros [] s2 F2. pose proof (onward_onward _ _ _ F F2) as F3. pose proof (inv_onward _ _ I F3) as I3.
  unfold hx. pose proof (h_entries_quiet cast_table s2 eq_refl eq_refl I3) as G. unfold hx in G. destruct (try_entries code cast_table (terr SENone) s2) as [t s3|e s3|p|]; auto.
  - pose proof (fwd_onward _ _ _ (onward_fwd _ _ F3) G) as F4.
    change (hx (whitespace_only code;;; inp0 <- input code;; (if starts_with_c 41 inp0 then advance_bytes code 1;;; p <- input_pos;; tret (fst t, mk_span (src_pos s) p) else put_pos (src_pos s);;; terr SENone)) s3 (took s) (nothing s)).
    eapply hx_use; [apply h_ws_only| |intros ? ? []]. intros [] s4 F5. pose proof (onward_onward _ _ _ F4 F5) as F6. apply hx_bind, hx_input. intros inp2 H2. destruct (starts_with_c 41 inp2).
    + apply hx_bind, hx_advb. intros w' r' H3 B' _. pose proof (fwd_adv s4 w' r' H3) as F7. pose proof (onward_onward _ _ _ F6 F7) as F8. apply hx_bind, hx_pos, hx_ret. pose proof (onward_pos _ _ F8).
      split; [exact (inv_onward _ _ I F8)|]. split; [exact (onward_queue _ _ F8)|]. right. cbn [fst snd mk_span sp_start sp_end]. repeat split. lia.
    + split; [reflexivity|]. apply back, onward_fwd, F6.
  - destruct G as (-> & ->). split; [reflexivity|]. apply back, onward_fwd, F3.
Qed.
Lemma simple_one c k : simple_token c = Some k -> clen c = 1.
Proof.
  unfold simple_token. intros S. repeat (match type of S with context [(c =? ?k)%N] => destruct (N.eqb_spec c k) as [->|_] end; [reflexivity|]). discriminate S.
Qed.
Lemma h_other s : inv s -> hx (in_scripting_other_token code) s (took s) (fun e s' => e = SEUnknownCharacter (mk_span (src_pos s) (src_pos s + 1)) /\ s' = s).
Proof.
  intros I. unfold in_scripting_other_token. apply h_entries; [reflexivity|exact I|]. apply hx_none; [apply h_yield, I|]. apply h_entries; [reflexivity|exact I|]. apply hx_none; [apply h_cast, I|].
  apply h_entries; [reflexivity|exact I|]. apply hx_none.
  { unfold match_close_brace. apply hx_bind. eapply hx_mono; [apply (h_alias (s2l "}")); [discriminate|exact I]| |auto]. intros t s' (s1 & F & D & ->). destruct (act_inv _ _ _ _ F I D) as (J & P & Q). pose proof (onward_pos _ _ F).
    apply hx_ret. split; [exact J|]. split; [rewrite Q; apply (onward_queue _ _ F)|]. right. cbn [snd set_doc mk_span sp_start sp_end]. rewrite P. repeat split. lia. }
  apply h_entries; [reflexivity|exact I|]. apply hx_none; [|apply hx_bind, hx_pos, hx_err; auto].
  unfold m_token. apply hx_bind, hx_input. intros [|c r0] H; [split; [exact I|]; split; [reflexivity|]; left; repeat split|].
  destruct (simple_token c) eqn:S; [|split; reflexivity]. apply hx_bind, hx_advc. intros w r H' W _. pose proof (spot_fun _ _ _ H H') as X. rewrite <- X in W. cbn [firstn] in W. subst w.
  assert (C : blen [c] = 1) by (cbn [blen]; rewrite (simple_one _ _ S); reflexivity).
  pose proof (onward_adv s [c] r H' ltac:(lia)) as F. apply hx_bind, hx_pos, hx_bind, hx_sub. intros _. apply hx_ret. pose proof (onward_pos _ _ F).
  split; [eapply inv_onward; eauto|]. split; [reflexivity|]. right. cbn [fst snd mk_span sp_start sp_end src_pos set_pos]. lia.
Qed.

(** ** Strings *)
Definition bsn (bs : bytes) : nat := match bs with [] => 0 | _ => 1 end.
Lemma bsn_le bs : bsn bs <= 1. Proof. destruct bs; cbn; lia. Qed.
Lemma bsn_enc bs w : bsn (bs ++ encode w) <= bsn bs + blen w.
Proof.
  destruct w as [|c w]; [cbn; rewrite app_nil_r; lia|]. pose proof (bsn_le (bs ++ encode (c :: w))). assert (0 < blen (c :: w)) by (apply blen_pos; discriminate). lia.
Qed.
(** while a string that began at [bak] is read *)
Definition J (bak s : tst) (bs : bytes) (parts : list tokspan) : Prop :=
  inv s /\ Forall tokin parts /\
  (FF \/ (List.length parts + bsn bs + S (src_pos bak) <= src_pos s /\ queue s = queue bak /\ lstack s = lstack bak)) /\
  lo + List.length bs <= src_pos s.
Ltac ff := repeat match goal with H : FF \/ _ |- _ => destruct H as [H|H]; [left; exact H|] end.
Lemma J_fwd bak s s' bs bs' parts : J bak s bs parts -> fwd s s' -> (bsn bs' + src_pos s <= bsn bs + src_pos s') -> List.length bs' + src_pos s <= List.length bs + src_pos s' -> J bak s' bs' parts.
Proof.
  intros (I & P & C & LB) F B B2. split; [eapply inv_fwd; eauto|]. split; [exact P|]. split; [|pose proof (fwd_pos _ _ F); lia]. ff. right. destruct C as (C1 & C2 & C3). destruct F as (p & -> & F). cbn in *. repeat split; auto. lia.
Qed.
Lemma J_onward bak s s' bs bs' parts : J bak s bs parts -> onward s s' -> List.length bs' + src_pos s <= List.length bs + src_pos s' -> J bak s' bs' parts.
Proof. intros H F B. eapply J_fwd; [exact H|apply onward_fwd, F| |exact B]. apply onward_pos in F. pose proof (bsn_le bs'). lia. Qed.
Lemma J_inv bak s bs parts : J bak s bs parts -> inv s. Proof. intros H. apply H. Qed.

Definition fails (e : syntax_error) (s' : tst) : Prop := e <> SENone /\ inv s' /\ err_in e.
Lemma h_unterminated {A} g bak s msg (Q : A -> tst -> Prop) : inv bak -> inv s -> (forall x, g x <= x + 1) ->
  hx (old_pos <- input_pos ;; trestore bak ;;; p <- input_pos ;; terr (SEUnterminated msg (mk_span p (g old_pos)))) s Q fails.
Proof.
  intros IB I D. apply hx_bind, hx_pos, hx_bind, hx_restore, hx_bind, hx_pos, hx_err. split; [discriminate|]. split; [apply inv_restore; auto|].
  pose proof (i_pos _ I). pose proof (i_pos _ IB). specialize (D (src_pos s)). unfold err_in. cbn [err_span mk_span sp_start sp_end src_pos restore set_queue]. lia.
Qed.

Lemma h_sq n bak bs s : inv bak -> J bak s bs [] -> FF \/ L - src_pos s < n ->
  hx (sq_loop code n bak bs) s (fun bs' s' => J bak s' bs' []) fails.
Proof.
  intros IB. revert bs s. induction n as [|n IH]; intros bs s HJ HN; cbn [sq_loop]; [unfold hx, tfuel; destruct HN; [auto|lia]|].
  apply hx_bind, hx_input. intros inp H. cbv zeta. apply hx_bind, hx_advc. intros w r H' _ H2. pose proof (fwd_adv s w r H') as F. set (s1 := set_pos (src_pos s + blen w) s) in *.
  assert (J1 : J bak s1 (bs ++ encode w) []) by (apply (J_fwd bak s s1 bs); [exact HJ|exact F|subst s1; cbn [src_pos set_pos]; pose proof (bsn_enc bs w); lia|subst s1; cbn [src_pos set_pos]; rewrite app_length, SmallFacts.encode_blen; lia]).
  pose proof (fwd_pos _ _ F) as P1. apply hx_bind, hx_input. intros inp2 H3. pose proof (spot_fun _ _ _ H2 H3) as <-. pose proof (J_inv _ _ _ _ J1) as I1.
  destruct r as [|c r]; [exact (h_unterminated (fun x => x + 1) bak s1 _ _ IB I1 (fun x => le_n _))|].
  destruct (c =? 10)%N eqn:C1.
  { apply N.eqb_eq in C1. subst c. pose proof (onward_adv s1 [10%N] r H3 ltac:(cbn; lia)) as F2.
    apply hx_bind, hx_advb. intros w2 r2 H4 B2 _. rewrite B2. apply hx_bind, hx_line. pose proof (inv_lf s1 r I1 H3) as I2. pose proof (onward_pos _ _ F2) as P2. cbn in P2. apply IH.
    - split; [exact I2|]. destruct J1 as (_ & X & C). split; [exact X|]. destruct C as (C & LB). split; [|cbn [src_pos next_line_st set_pos]; rewrite app_length; cbn [List.length]; lia]. ff. right. destruct C as (C & Y). split; [|exact Y]. cbn [src_pos next_line_st set_pos]. pose proof (bsn_le ((bs ++ encode w) ++ [10%N])). lia.
    - ff. right. cbn [src_pos next_line_st set_pos]. lia. }
  destruct (c =? 92)%N.
  { eapply hx_use; [apply h_escape; exact I1| |intros e s' (A & B & C); split; auto]. intros bs' s2 (F2 & E2). pose proof (onward_pos _ _ F2). apply IH; [apply (J_onward bak s1 s2 (bs ++ encode w)); auto|]. ff. right. lia. }
  destruct (c =? 39)%N; [|exact (h_unterminated (fun x => x + 1) bak s1 _ _ IB I1 (fun x => le_n _))].
  apply hx_bind, hx_advb. intros w2 r2 H4 B2 _. apply hx_ret. pose proof (onward_adv s1 w2 r2 H4 ltac:(lia)) as F2. apply (J_onward bak s1 _ (bs ++ encode w)); auto; cbn [fst src_pos set_pos]; lia.
Qed.

(** ** What [next_token] promises *)
Definition Phi (s : tst) : nat := 2 * (L - src_pos s) + List.length (queue s).
Definition got (s : tst) (t : tokspan) (s' : tst) : Prop := inv s' /\ tokin t /\ (FF \/ is_end t \/ Phi s' < Phi s).
Definition rest (s0 : tst) (e : syntax_error) (s' : tst) : Prop := e = SENone /\ fwd s0 s' \/ fails e s'.
Lemma fwd_Phi a b : fwd a b -> Phi b <= Phi a. Proof. intros (p & -> & P). unfold Phi. cbn. lia. Qed.
Lemma onward_Phi a b : onward a b -> Phi b < Phi a. Proof. intros (p & -> & P). unfold Phi. cbn. lia. Qed.
Lemma got_from a b t s' : fwd a b -> got b t s' -> got a t s'.
Proof. intros F (I & T & C). split; [exact I|]. split; [exact T|]. destruct C as [C|[C|C]]; auto. right. right. apply fwd_Phi in F. lia. Qed.
Lemma rest_none s0 s : fwd s0 s -> rest s0 SENone s. Proof. left. auto. Qed.
Lemma plain_got m s0 s : inv s0 -> fwd s0 s -> plain m s -> hx m s (got s0) (rest s0).
Proof.
  intros I F P. eapply hx_mono; [apply P; pose proof (i_pos _ (inv_fwd _ _ I F)); lia| |].
  - intros t s' (T & C). apply (got_from s0 s); [exact F|]. pose proof (inv_fwd _ _ I F) as I1. destruct C as [(E & ->)|C].
    + split; [exact I1|]. auto.
    + split; [eapply inv_onward; eauto|]. split; [exact T|]. right. right. apply onward_Phi, C.
  - intros e s' (-> & ->). apply rest_none, F.
Qed.

(** [lf] bounds the local loops *)
Variable lf : nat.
Hypothesis HL : FF \/ L < lf.
Lemma J_start s s' : inv s -> onward s s' -> J s s' [] [].
Proof. intros I F. split; [eapply inv_onward; eauto|]. split; [constructor|]. pose proof (onward_pos _ _ F). pose proof (i_pos _ I). split; [|cbn; lia]. right. destruct F as (p & -> & F). cbn. cbn in *. repeat split; lia. Qed.
Lemma h_sq_string s0 s : inv s0 -> fwd s0 s -> hx (match_sq_string code lf) s (got s0) (rest s0).
Proof.
  intros I F. pose proof (inv_fwd _ _ I F) as I1. unfold match_sq_string. apply hx_bind, hx_input. intros inp H. destruct (blen inp <? 2); [apply rest_none, F|].
  apply hx_bind, hx_get, hx_bind.
  assert (G : forall k, 0 < k -> hx (advance_bytes code k ;;; tret true) s (fun b s' => hx (if (b : bool) then bs <- sq_loop code lf s [];; p <- input_pos;; tret (frag_token bs, mk_span (src_pos s) p) else terr SENone) s' (got s0) (rest s0)) (rest s0)).
  { intros k K. apply hx_bind, hx_advb. intros w r H' B _. pose proof (onward_adv s w r H' ltac:(lia)) as F2. apply hx_ret. pose proof (onward_pos _ _ F2) as P2.
    eapply hx_use; [apply h_sq; [exact I1|apply J_start; auto|pose proof HL as HL'; ff; right; lia]| |intros e s' X; right; exact X]. intros bs' s2 (I2 & _ & C & _). apply hx_bind, hx_pos, hx_ret. apply (got_from s0 s); [exact F|].
    pose proof (i_pos _ I1). pose proof (i_pos _ I2). split; [exact I2|]. split; [split; cbn; lia|]. ff. right. right. destruct C as (C1 & C2 & C3). unfold Phi. rewrite C2. lia. }
  destruct (starts_with (s2l "b'") inp); [apply G; lia|]. destruct (starts_with_c 39 inp); [apply G; lia|]. apply hx_ret, rest_none, F.
Qed.

Lemma next_lines_inv n s : inv s -> Forall (fun d => d <= src_pos s) (lines s) -> inv (next_lines n s) /\ src_pos (next_lines n s) = src_pos s /\ queue (next_lines n s) = queue s.
Proof.
  revert s. induction n as [|n IH]; intros s I H; [auto|]. cbn [next_lines]. destruct (inv_line s I H) as [I2 H2]. destruct (IH (next_line_st s) I2 H2) as (A & B & C). rewrite B, C. auto.
Qed.
Lemma h_comments s0 s : inv s0 -> fwd s0 s -> hx (match_comments code) s (got s0) (rest s0).
Proof.
  intros I F. pose proof (inv_fwd _ _ I F) as I1. unfold match_comments. apply hx_bind, hx_input. intros inp H. apply hx_bind, hx_pos. cbv zeta.
  assert (FIN : forall s1 r doc, pend inp = 0 -> onward s s1 ->
    hx ((fun s => TOk tt (next_lines (lines_count r - 1) s)) ;;; p <- input_pos ;; (let sp := mk_span (src_pos s) p in tret (TComment r, if (doc : bool) then set_doc (Some []) sp else sp))) s1 (got s0) (rest s0)).
  { intros s1 r doc P F1. pose proof (inv_onward _ _ I1 F1) as I2. pose proof (onward_pos _ _ F1) as P1.
    destruct (next_lines_inv (lines_count r - 1) s1 I2) as (A & B & C).
    { pose proof (inv_passed _ _ I1 H P) as Z. destruct F1 as (p & -> & F1). cbn [lines set_pos]. eapply Forall_impl; [|exact Z]. cbv beta. intros d D. cbn. lia. }
    apply hx_bind. unfold hx at 1. apply hx_bind, hx_pos. cbv zeta. apply hx_ret. apply (got_from s0 s); [exact F|]. split; [exact A|]. pose proof (i_pos _ I1).
    split; [destruct doc; split; cbn [snd set_doc mk_span sp_start sp_end]; lia|]. right. right. unfold Phi. rewrite B, C, (onward_queue _ _ F1). lia. }
  destruct (starts_with_c 35 inp) eqn:E1; [|destruct (starts_with (s2l "//") inp) eqn:E2].
  - destruct (sw1_split _ _ E1) as (r0 & ->). cbn [Nat.ltb Nat.leb]. apply hx_bind, hx_advb. intros w r H' B H2. pose proof (onward_adv s w r H' ltac:(lia)) as F2. apply hx_bind, hx_input. intros inp2 H3. apply hx_bind, hx_advc. intros w' r' H4 _ _. apply (FIN _ w' false); [apply pend_char; reflexivity|]. eapply onward_onward; [exact F2|apply (fwd_adv _ w' r' H4)].
  - destruct (sw_split _ _ E2) as (r0 & ->). cbn [Nat.ltb Nat.leb]. apply hx_bind, hx_advb. intros w r H' B H2. pose proof (onward_adv s w r H' ltac:(lia)) as F2. apply hx_bind, hx_input. intros inp2 H3. apply hx_bind, hx_advc. intros w' r' H4 _ _. apply (FIN _ w' false); [apply pend_char; reflexivity|]. eapply onward_onward; [exact F2|apply (fwd_adv _ w' r' H4)].
  - cbn [Nat.ltb Nat.leb].
    assert (G : forall n doc, 0 < n -> pend inp = 0 -> hx (advance_bytes code n ;;; inp2 <- input code ;; match find_sub (s2l "*/") inp2 with None => p <- input_pos ;; terr (SEUnterminated (s2l "comment") (mk_span p p)) | Some e => r <- advance_bytes code e ;; advance_bytes code 2 ;;; (fun s => TOk tt (next_lines (lines_count r - 1) s)) ;;; p <- input_pos ;; (let sp := mk_span (src_pos s) p in tret (TComment r, if (doc : bool) then set_doc (Some []) sp else sp)) end) s (got s0) (rest s0)).
    { intros n doc N P. apply hx_bind, hx_advb. intros w r H' B H2. pose proof (onward_adv s w r H' ltac:(lia)) as F2. apply hx_bind, hx_input. intros inp2 H3. destruct (find_sub (s2l "*/") inp2) as [e|].
      - apply hx_bind, hx_advb. intros w1 r1 H4 B1 _. pose proof (fwd_adv _ w1 r1 H4) as F3. apply hx_bind, hx_advb. intros w2 r2 H5 B2 _. apply (FIN _ w1 doc); [exact P|]. eapply onward_onward; [exact F2|]. eapply fwd_trans; [exact F3|apply (fwd_adv _ w2 r2 H5)].
      - apply hx_bind, hx_pos, hx_err. right. split; [discriminate|]. split; [eapply inv_onward; eauto|]. pose proof (onward_pos _ _ F2). cbn [err_in err_span mk_span sp_start sp_end]. unfold err_in. cbn [err_span mk_span sp_start sp_end]. lia. }
    destruct (starts_with (s2l "/**") inp) eqn:E3.
    + destruct (sw_split _ _ E3) as (r0 & ->). apply (G 3 true); [lia|apply pend_char; reflexivity].
    + destruct (starts_with (s2l "/*") inp) eqn:E4; cbn [Nat.ltb Nat.leb].
      * destruct (sw_split _ _ E4) as (r0 & ->). apply (G 2 false); [lia|apply pend_char; reflexivity].
      * apply rest_none, F.
Qed.

Lemma h_label_or_other s c r : inv s -> spot s (c :: r) -> hx (label_or_other code (src_pos s)) s (got s) fails.
Proof.
  intros I H. pose proof (i_pos _ I) as PI. pose proof (spot_len _ _ H) as SL. cbn [blen] in SL. pose proof (clen_pos c) as CP. unfold label_or_other.
  eapply hx_use; [apply h_label| |intros ? ? []]. intros l s1 HL1. apply hx_bind, hx_putpos.
  assert (X : set_pos (src_pos s) s1 = s). { destruct l as [[w sp]|]; [destruct HL1 as (F & _); apply back, onward_fwd, F|subst; apply set_pos_same]. }
  rewrite X. pose proof (h_other s I) as O. unfold hx in *. destruct (in_scripting_other_token code s) as [t s'|e s'|p|]; auto.
  - destruct O as (I' & Q & C). pose proof (i_pos _ I') as P'.
    assert (G : got s t (set_pos (sp_end (snd t)) s')).
    { destruct C as [(E1 & -> & ->)|(C1 & C2 & C3)].
      - split; [apply inv_move; auto; cbn; lia|]. split; [apply tokin_end|]. auto.
      - rewrite C2, set_pos_same. split; [exact I'|]. split; [split; lia|]. right. right. unfold Phi. rewrite Q. lia. }
    destruct l as [[name sp]|]; [|exact G]. destruct (Nat.leb_spec (sp_end sp) (sp_end (snd t))); [exact G|].
    destruct HL1 as (F & P & N & ->). pose proof (onward_pos _ _ F). cbn [mk_span sp_start sp_end] in *. pose proof (len_blen name).
    destruct C as [(E1 & -> & ->)|(C1 & C2 & C3)]; [cbn in *; lia|].
    split; [apply inv_move; auto; lia|]. split; [split; cbn [snd mk_span sp_start sp_end]; lia|]. right. right. unfold Phi. cbn [src_pos queue set_pos]. rewrite Q. lia.
  - destruct O as (-> & ->). destruct l as [[name sp]|].
    + destruct HL1 as (F & P & N & ->). pose proof (onward_pos _ _ F). cbn [mk_span sp_start sp_end] in *. pose proof (len_blen name). assert (0 < List.length name) by (destruct name; [congruence|cbn; lia]).
      split; [apply inv_move; auto; lia|]. split; [split; cbn [snd mk_span sp_start sp_end]; lia|]. right. right. unfold Phi. cbn [src_pos queue set_pos]. lia.
    + cbn [err_span mk_span sp_end]. split; [discriminate|]. split; [apply inv_move; auto; lia|]. unfold err_in. cbn [err_span mk_span sp_start sp_end]. lia.
Qed.

(** ** Interpolation *)
(** without brace interpolation, unless running out of fuel is acceptable *)
Hypothesis NB : FF \/ ((forall a b, code <> a ++ [123; 36]%N ++ b) /\ (forall a b, code <> a ++ [36; 123]%N ++ b)).
Lemma nb1 s r : spot s (123%N :: 36%N :: r) -> FF.
Proof. intros H. destruct NB as [X|[X _]]; [exact X|]. destruct (drop_split _ _ _ H) as (pre & E & _). destruct (X pre r E). Qed.
Lemma nb2 s r : spot s (36%N :: 123%N :: r) -> FF.
Proof. intros H. destruct NB as [X|[_ X]]; [exact X|]. destruct (drop_split _ _ _ H) as (pre & E & _). destruct (X pre r E). Qed.
Variable nt : T tokspan.
Hypothesis NT : FF -> forall s, inv s -> hx nt s (got s) (fun e s' => inv s' /\ err_in e).

Lemma h_flush bs parts start s : Forall tokin parts -> start <= L -> lo + List.length bs <= start ->
  hx (flush bs parts start) s (fun parts' s' => s' = s /\ Forall tokin parts' /\ List.length parts' = List.length parts + bsn bs) (fun _ _ => False).
Proof.
  intros P S LB. unfold flush. destruct bs as [|b bs]; [apply hx_ret; cbn; auto|]. apply hx_bind, hx_sub. intros SB. apply hx_ret. split; [reflexivity|].
  split; [apply Forall_app; split; [exact P|]; constructor; [split; cbn [snd mk_span sp_start sp_end]; lia|constructor]|]. rewrite app_length. cbn. lia.
Qed.
Lemma h_block (ok : FF) n : forall toks s, inv s -> Forall tokin toks -> hx (block_loop nt n toks) s (fun toks' s' => inv s' /\ Forall tokin toks') (fun _ _ => False).
Proof.
  induction n as [|n IH]; intros toks s I P; cbn [block_loop]; [exact ok|]. unfold hx. pose proof (NT ok s I) as G. unfold hx in G. destruct (nt s) as [t s'|e s'|p|]; auto.
  - destruct G as (I' & T' & _). apply IH; [exact I'|]. apply Forall_app. split; [exact P|]. constructor; [exact T'|constructor].
  - destruct G as (I' & _). auto.
Qed.
Definition piece (bak s : tst) (r : bytes * list tokspan) (s' : tst) : Prop := J bak s' (fst r) (snd r) /\ (FF \/ src_pos s < src_pos s').
Lemma J_ff (ok : FF) bak s bs parts : inv s -> Forall tokin parts -> lo + List.length bs <= src_pos s -> J bak s bs parts. Proof. intros I P LB. split; [exact I|]. split; [exact P|]. auto. Qed.
Lemma h_str_block bak bs parts rd r s : J bak s bs parts -> spot s (123%N :: r) -> (rd = false -> FF) -> hx (str_block code nt lf bs parts rd) s (piece bak s) (fun _ _ => False).
Proof.
  intros HJ H RD. pose proof (J_inv _ _ _ _ HJ) as I. unfold str_block. apply hx_bind, hx_advb. intros w r' H' B H2. pose proof (onward_adv s w r' H' ltac:(lia)) as F. set (s1 := set_pos (src_pos s + blen w) s) in *. pose proof (onward_pos _ _ F) as P1.
  apply hx_bind, hx_input. intros inp H3. assert (inp = r). { pose proof (spot_next s [123%N] r H) as X. change (blen [123%N]) with 1 in X. subst s1. rewrite B in H3. unfold spot in H3. cbn [src_pos set_pos] in H3. congruence. } subst inp.
  destruct (starts_with_c 36 r || negb rd)%bool eqn:C.
  - assert (ok : FF). { apply orb_true_iff in C as [C|C]; [destruct (sw1_split _ _ C) as (r0 & ->); apply (nb1 s r0 H)|apply RD; destruct rd; [discriminate|reflexivity]]. }
    pose proof (inv_onward _ _ I F) as I1. destruct HJ as (_ & PP & _ & LB). apply hx_bind, hx_get, hx_bind, hx_put, hx_bind, hx_pos, hx_bind, hx_sub. intros _. cbn [src_pos set_stack set_mode].
    eapply hx_use; [apply (h_block ok)| |intros ? ? []].
    + apply inv_stack; [apply inv_mode, I1|auto].
    + constructor; [split; cbn [snd mk_span sp_start sp_end]; lia|constructor].
    + intros toks s2 (I2 & PT). assert (BAD : hx (trestore s1 ;;; tret (bs, parts)) s2 (piece bak s) (fun _ _ => False)).
      { apply hx_bind, hx_restore, hx_ret. split; [|auto]. apply (J_ff ok); [apply inv_restore; auto|exact PP|cbn [fst src_pos restore set_queue]; lia]. }
      destruct (last toks (Kw KEnd, span_new)) as [[k| | | | | | | |] sp0]; try exact BAD. destruct k; try exact BAD.
      apply hx_bind, hx_sub. intros _. eapply hx_use; [apply h_flush; [exact PP|lia|lia]| |intros ? ? []]. intros parts' s3 (-> & PF & _). apply hx_bind, hx_get, hx_bind, hx_put, hx_ret. split; [|auto]. apply (J_ff ok).
      * apply inv_stack; [apply inv_mode, I2|auto].
      * cbn [snd]. apply Forall_app. auto.
      * cbn [fst List.length src_pos set_stack set_mode]. pose proof (i_pos _ I2). lia.
  - apply hx_ret. split; [apply (J_onward bak s s1 bs); auto; cbn [fst]; rewrite app_length; cbn [List.length]; lia|]. right. lia.
Qed.
Lemma hx_and {A} (m : T A) s Q Q' (E E' : syntax_error -> tst -> Prop) : hx m s Q E -> hx m s Q' E' -> hx m s (fun a s' => Q a s' /\ Q' a s') E.
Proof. unfold hx. destruct (m s); auto. Qed.
Lemma h_block_head n : forall toks s toks' s', block_loop nt n toks s = TOk toks' s' -> exists r, toks' = toks ++ r.
Proof.
  induction n as [|n IH]; intros toks s toks' s'; cbn [block_loop]; [discriminate|]. destruct (nt s) as [t s1|e s1|p|]; try discriminate.
  - intros H. destruct (IH _ _ _ _ H) as (r & ->). exists (t :: r). rewrite <- app_assoc. reflexivity.
  - intros H. injection H as <- <-. exists []. rewrite app_nil_r. reflexivity.
Qed.
(** the brace that opens a block *)
Lemma h_str_block_first parts rd s : FF -> hx (str_block code nt lf [] parts rd) s (fun r _ => forall t, nth_error (snd r) (List.length parts) = Some t -> src_pos s <= sp_start (snd t)) (fun _ _ => True).
Proof.
  intros ok. unfold str_block. apply hx_bind, hx_advb. intros w r' H' B H2. apply hx_bind, hx_input. intros inp H3.
  assert (NO : forall t : tokspan, nth_error parts (List.length parts) = Some t -> src_pos s <= sp_start (snd t)) by (intros t X; rewrite (proj2 (nth_error_None parts (List.length parts)) (le_n _)) in X; discriminate).
  destruct (starts_with_c 36 inp || negb rd)%bool; [|apply hx_ret; exact NO].
  apply hx_bind, hx_get, hx_bind, hx_put, hx_bind, hx_pos, hx_bind, hx_sub. intros _. cbn [src_pos set_stack set_mode set_pos]. rewrite B. replace (src_pos s + 1 - 1) with (src_pos s) by lia.
  apply hx_bind. unfold hx at 1. destruct (block_loop nt lf _ _) as [toks s2|e s2|p|] eqn:E; auto. destruct (h_block_head _ _ _ _ _ E) as (r & ->).
  destruct (last _ _) as [[k| | | | | | | |] sp0]; try (apply hx_bind, hx_restore, hx_ret; exact NO). destruct k; try (apply hx_bind, hx_restore, hx_ret; exact NO).
  apply hx_bind, hx_sub. intros _. cbn [flush]. apply hx_bind, hx_ret, hx_bind, hx_get, hx_bind, hx_put, hx_ret. intros t. cbn [snd]. rewrite nth_error_app2, Nat.sub_diag by auto. cbn [app nth_error]. intros X. injection X as <-. auto.
Qed.
Lemma h_str_variable bak bs parts r s : J bak s bs parts -> spot s (36%N :: r) -> hx (str_variable code nt lf bs parts) s (piece bak s) (fun _ _ => False).
Proof.
  intros HJ H. pose proof (J_inv _ _ _ _ HJ) as I. unfold str_variable. apply hx_bind, hx_advb. intros w r' H' B H2. pose proof (onward_adv s w r' H' ltac:(lia)) as F. set (s1 := set_pos (src_pos s + blen w) s) in *. pose proof (onward_pos _ _ F) as P1. pose proof (inv_onward _ _ I F) as I1.
  apply hx_bind, hx_input. intros inp H3. assert (inp = r). { pose proof (spot_next s [36%N] r H) as X. change (blen [36%N]) with 1 in X. subst s1. rewrite B in H3. unfold spot in H3. cbn [src_pos set_pos] in H3. congruence. } subst inp.
  destruct HJ as (_ & PP & CJ & LB).
  destruct (starts_with_c 123 r) eqn:C.
  - destruct (sw1_split _ _ C) as (r0 & ->). pose proof (nb2 s r0 H) as ok.
    apply hx_bind, hx_pos, hx_bind, hx_sub. intros _. eapply hx_use; [apply h_flush; [exact PP|lia|lia]| |intros ? ? []]. intros parts1 s2 (-> & PF & _).
    eapply hx_use; [eapply hx_and; [apply (h_str_block bak [] parts1 false r0); [apply (J_ff ok); auto; cbn; lia|exact H3|auto]|apply (h_str_block_first parts1 false s1 ok)]| |intros ? ? []]. intros [bs2 parts2] s3 (((I3 & P3 & _ & LB3) & _) & HD). cbn [fst snd] in P3, LB3, HD.
    destruct (nth_error parts2 (List.length parts1)) as [[t sp]|] eqn:E; [|exact Logic.I]. assert (TI : tokin (t, sp)) by (rewrite Forall_forall in P3; apply P3; eapply nth_error_In; exact E).
    destruct t as [k| | | | | | | |]; try exact Logic.I. destruct k; try exact Logic.I. apply hx_bind, hx_sub. intros _. apply hx_ret. split; [|auto]. specialize (HD _ eq_refl). cbn [snd] in HD. apply (J_ff ok); [exact I3| |exact LB3]. cbn [snd]. apply Forall_app. split; [|constructor].
    + rewrite <- (firstn_skipn (List.length parts1) parts2) in P3. apply Forall_app in P3. apply P3.
    + destruct TI as [T1 T2]. split; cbn [snd set_start sp_start sp_end] in *; lia.
    + rewrite <- (firstn_skipn (S (List.length parts1)) parts2) in P3. apply Forall_app in P3. apply P3.
  - eapply hx_use; [apply h_label| |intros ? ? []]. intros [[name sp]|] s2.
    2:{ intros ->. apply hx_ret. split; [|right; lia]. apply (J_onward bak s s1 bs); [split; auto|exact F|cbn [fst]; rewrite app_length; cbn [List.length]; lia]. }
    intros (F2 & P2 & N & ->). apply hx_bind, hx_input. intros inp2 H4. destruct (starts_with_c 91 inp2); [exact Logic.I|]. pose proof (onward_pos _ _ F2) as Q2. pose proof (len_blen name) as LN.
    assert (G : forall tmp s3, fwd s2 s3 -> Forall tokin tmp -> List.length tmp + src_pos s2 <= src_pos s3 ->
      hx (start <- tsub (sp_start (mk_span (src_pos s1) (src_pos s1 + List.length name))) 1 ;; parts0 <- flush bs parts start ;; tret ([], parts0 ++ [(TVariable name, mk_span start (sp_end (mk_span (src_pos s1) (src_pos s1 + List.length name))))] ++ tmp)) s3 (piece bak s) (fun _ _ => False)).
    { intros tmp s3 F3 PT CT. cbn [mk_span sp_start sp_end]. apply hx_bind, hx_sub. intros _. eapply hx_use; [apply h_flush; [exact PP|lia|lia]| |intros ? ? []]. intros parts1 s4 (-> & PF & LF). apply hx_ret. pose proof (fwd_pos _ _ F3) as P3. split; [|right; lia].
      split; [eapply inv_fwd; [|exact F3]; eapply inv_onward; eauto|]. cbn [snd fst]. split.
      - apply Forall_app. split; [exact PF|]. constructor; [split; cbn [snd mk_span sp_start sp_end]; lia|exact PT].
      - split; [|cbn [List.length]; pose proof (i_pos _ I); lia]. ff. right. destruct CJ as (C1 & C2 & C3). rewrite !app_length. cbn [List.length bsn]. unfold tokspan in *. split; [lia|]. destruct F3 as (p3 & -> & _). destruct F2 as (p2 & -> & _). auto. }
    destruct (starts_with (s2l "->") inp2).
    + apply hx_bind. apply hx_bind, hx_pos, hx_bind, hx_advb. intros w2 r2 H5 B2 _. pose proof (onward_adv s2 w2 r2 H5 ltac:(lia)) as F3. set (s3 := set_pos (src_pos s2 + blen w2) s2) in *. pose proof (onward_pos _ _ F3) as P3.
      assert (P3' : src_pos s3 = src_pos s2 + 2) by (subst s3; cbn; lia).
      eapply hx_use; [apply h_label| |intros ? ? []]. intros [[prop sp2]|] s4.
      * intros (F4 & P4 & N4 & ->). apply hx_ret. pose proof (onward_pos _ _ F4) as Q4. pose proof (len_blen prop). apply blen_pos in N4. apply G.
        -- eapply fwd_trans; [apply onward_fwd, F3|apply onward_fwd, F4].
        -- repeat constructor; cbn [snd mk_span sp_start sp_end]; lia.
        -- cbn [List.length]. lia.
      * intros ->. apply hx_bind, hx_putpos, hx_ret. rewrite (back s2 s3 (onward_fwd _ _ F3)). apply G; [apply fwd_refl; lia|constructor|cbn; lia].
    + apply hx_bind, hx_ret. apply G; [apply fwd_refl; lia|constructor|cbn; lia].
Qed.

Lemma h_newline_J bak s r bs bs' parts : J bak s bs parts -> spot s (10%N :: r) -> List.length bs' <= List.length bs + 1 -> J bak (next_line_st (set_pos (src_pos s + 1) s)) bs' parts /\ src_pos s + 1 <= L.
Proof.
  intros (I & P & C & LB) H LB'. pose proof (spot_len _ _ H) as SL. cbn [blen] in SL. change (clen 10) with 1 in SL. split; [|lia]. split; [apply (inv_lf s r I H)|]. split; [exact P|]. split; [|cbn [src_pos next_line_st set_pos]; lia]. ff. right. destruct C as (C1 & C2 & C3). cbn [src_pos next_line_st set_pos queue lstack]. pose proof (bsn_le bs'). repeat split; auto. lia.
Qed.
Lemma h_dq_end inp s : hx (dq_end_pos inp) s (fun _ s' => s' = s) (fun _ _ => False).
Proof. unfold dq_end_pos. destruct (position dq_special inp); [apply hx_ret; reflexivity|]. apply hx_sub. reflexivity. Qed.

Lemma h_dq n bak bs parts s : inv bak -> J bak s bs parts -> FF \/ L - src_pos s < n ->
  hx (dq_loop code nt lf n bak bs parts) s (fun r s' => J bak s' (fst r) (snd r) /\ lo < src_pos s') fails.
Proof.
  intros IB. revert bs parts s. induction n as [|n IH]; intros bs parts s HJ HN; cbn [dq_loop]; [unfold hx, tfuel; destruct HN; [auto|lia]|].
  apply hx_bind, hx_input. intros inp H. eapply hx_use; [apply h_dq_end| |intros ? ? []]. intros e s' ->. cbv zeta. apply hx_bind, hx_advc. intros w r H' _ H2. pose proof (fwd_adv s w r H') as F. set (s1 := set_pos (src_pos s + blen w) s) in *.
  assert (J1 : J bak s1 (bs ++ encode w) parts) by (apply (J_fwd bak s s1 bs); [exact HJ|exact F|subst s1; cbn [src_pos set_pos]; pose proof (bsn_enc bs w); lia|subst s1; cbn [src_pos set_pos]; rewrite app_length, SmallFacts.encode_blen; lia]).
  pose proof (fwd_pos _ _ F) as P1. apply hx_bind, hx_input. intros inp2 H3. pose proof (spot_fun _ _ _ H2 H3) as <-. pose proof (J_inv _ _ _ _ J1) as I1.
  assert (UN : forall Q : bytes * list tokspan -> tst -> Prop, hx (err_pos <- input_pos ;; trestore bak ;;; p <- input_pos ;; terr (SEUnterminated (s2l "double-quoted string literal") (mk_span p err_pos))) s1 Q fails) by (intros Q; apply (h_unterminated (fun x => x) bak s1); auto; intros x; lia).
  destruct r as [|c r]; [apply UN|].
  destruct (c =? 10)%N eqn:C1.
  { apply N.eqb_eq in C1. subst c. apply hx_bind, hx_advb. intros w2 r2 H4 B2 _. rewrite B2. apply hx_bind, hx_line. destruct (h_newline_J bak s1 r _ ((bs ++ encode w) ++ [10%N]) _ J1 H3 ltac:(rewrite (app_length (bs ++ encode w)); cbn [List.length]; lia)) as [J2 P2]. apply IH; [exact J2|]. ff. right. cbn [src_pos next_line_st set_pos]. lia. }
  destruct (c =? 92)%N.
  { eapply hx_use; [apply h_escape; exact I1| |intros e' s' (A & B & C); split; auto]. intros bs' s2 (F2 & E2). pose proof (onward_pos _ _ F2). apply IH; [apply (J_onward bak s1 s2 (bs ++ encode w)); auto|]. ff. right. lia. }
  destruct (c =? 34)%N.
  { apply hx_bind, hx_advb. intros w2 r2 H4 B2 _. apply hx_ret. pose proof (onward_adv s1 w2 r2 H4 ltac:(lia)) as F2. split; [apply (J_onward bak s1 _ (bs ++ encode w)); auto; cbn [fst src_pos set_pos]; lia|]. apply onward_pos in F2. pose proof (i_pos _ I1). lia. }
  assert (NEXT : forall r0 s2, piece bak s1 r0 s2 -> hx (dq_loop code nt lf n bak (fst r0) (snd r0)) s2 (fun r s' => J bak s' (fst r) (snd r) /\ lo < src_pos s') fails).
  { intros r0 s2 (J2 & P2). apply IH; [exact J2|]. ff. right. pose proof (i_pos _ (J_inv _ _ _ _ J2)). lia. }
  destruct (c =? 36)%N eqn:C4.
  { apply N.eqb_eq in C4. subst c. eapply hx_use; [apply (h_str_variable bak _ _ r); [exact J1|exact H3]| |intros ? ? []]. apply NEXT. }
  destruct (c =? 123)%N eqn:C5; [|apply UN].
  apply N.eqb_eq in C5. subst c. eapply hx_use; [apply (h_str_block bak _ _ true r); [exact J1|exact H3|discriminate]| |intros ? ? []]. apply NEXT.
Qed.
Lemma h_bq n bak bs parts s : inv bak -> J bak s bs parts -> FF \/ L - src_pos s < n ->
  hx (bq_loop code nt lf n bak bs parts) s (fun r s' => J bak s' (fst r) (snd r) /\ lo < src_pos s') fails.
Proof.
  intros IB. revert bs parts s. induction n as [|n IH]; intros bs parts s HJ HN; cbn [bq_loop]; [unfold hx, tfuel; destruct HN; [auto|lia]|].
  apply hx_bind, hx_input. intros inp H. eapply hx_use; [apply h_dq_end| |intros ? ? []]. intros e s' ->. cbv zeta. apply hx_bind, hx_advc. intros w r H' _ H2. pose proof (fwd_adv s w r H') as F. set (s1 := set_pos (src_pos s + blen w) s) in *.
  assert (J1 : J bak s1 (bs ++ encode w) parts) by (apply (J_fwd bak s s1 bs); [exact HJ|exact F|subst s1; cbn [src_pos set_pos]; pose proof (bsn_enc bs w); lia|subst s1; cbn [src_pos set_pos]; rewrite app_length, SmallFacts.encode_blen; lia]).
  pose proof (fwd_pos _ _ F) as P1. apply hx_bind, hx_input. intros inp2 H3. pose proof (spot_fun _ _ _ H2 H3) as <-. pose proof (J_inv _ _ _ _ J1) as I1.
  assert (UN : forall Q : bytes * list tokspan -> tst -> Prop, hx (err_pos <- input_pos ;; trestore bak ;;; p <- input_pos ;; terr (SEUnterminated (s2l "Backquote") (mk_span p err_pos))) s1 Q fails) by (intros Q; apply (h_unterminated (fun x => x) bak s1); auto; intros x; lia).
  destruct r as [|c r]; [apply UN|].
  destruct (c =? 10)%N eqn:C1.
  { apply N.eqb_eq in C1. subst c. apply hx_bind, hx_advb. intros w2 r2 H4 B2 _. rewrite B2. apply hx_bind, hx_line. destruct (h_newline_J bak s1 r _ ((bs ++ encode w) ++ [10%N]) _ J1 H3 ltac:(rewrite (app_length (bs ++ encode w)); cbn [List.length]; lia)) as [J2 P2]. apply IH; [exact J2|]. ff. right. cbn [src_pos next_line_st set_pos]. lia. }
  destruct (c =? 96)%N.
  { apply hx_bind, hx_advb. intros w2 r2 H4 B2 _. apply hx_ret. pose proof (onward_adv s1 w2 r2 H4 ltac:(lia)) as F2. split; [apply (J_onward bak s1 _ (bs ++ encode w)); auto; cbn [fst src_pos set_pos]; lia|]. apply onward_pos in F2. pose proof (i_pos _ I1). lia. }
  assert (NEXT : forall r0 s2, piece bak s1 r0 s2 -> hx (bq_loop code nt lf n bak (fst r0) (snd r0)) s2 (fun r s' => J bak s' (fst r) (snd r) /\ lo < src_pos s') fails).
  { intros r0 s2 (J2 & P2). apply IH; [exact J2|]. ff. right. pose proof (i_pos _ (J_inv _ _ _ _ J2)). lia. }
  destruct (c =? 36)%N eqn:C4.
  { apply N.eqb_eq in C4. subst c. eapply hx_use; [apply (h_str_variable bak _ _ r); [exact J1|exact H3]| |intros ? ? []]. apply NEXT. }
  destruct (c =? 123)%N eqn:C5; [|apply UN].
  apply N.eqb_eq in C5. subst c. eapply hx_use; [apply (h_str_block bak _ _ true r); [exact J1|exact H3|discriminate]| |intros ? ? []]. apply NEXT.
Qed.
(** the end of a heredoc: the line end behind the tag is looked at and given back *)
Lemma h_doc_end s : inv s ->
  hx (inp4 <- input code ;; (if starts_with_c 59 inp4 then advance_bytes code 1 ;;; tret tt else tret tt) ;;; newline code) s
     (fun b s' => if (b : bool) then inv (set_pos (src_pos s) s') /\ queue s' = queue s /\ lstack s' = lstack s else fwd s s') (fun _ _ => False).
Proof.
  intros I. pose proof (i_pos _ I) as PI. apply hx_bind, hx_input. intros inp H.
  assert (G : forall s1 inp1 j, fwd s s1 -> spot s1 inp1 -> src_pos s1 = src_pos s + j -> (starts_with_c 10 inp1 || starts_with_c 13 inp1 = true -> j + pend inp1 <= pend inp) ->
    hx (newline code) s1 (fun b s' => if (b : bool) then inv (set_pos (src_pos s) s') /\ queue s' = queue s /\ lstack s' = lstack s else fwd s s') (fun _ _ => False)).
  { intros s1 inp1 j F1 H1 P1 PE. eapply hx_mono; [apply h_newline; eapply inv_fwd; eauto| |auto]. intros [|] s'; [|intros ->; exact F1].
    intros (inp2 & k & A & B & C & D & NL & E & ->). pose proof (spot_fun _ _ _ H1 A) as <-. specialize (PE NL). destruct F1 as (p & -> & F1). cbn [src_pos set_pos] in *. rewrite set_pos_pos in *.
    split; [|split; reflexivity]. destruct E as [X0 X1 X2 X3 X4 X5 X6]. constructor; auto.
    - cbn [lines set_pos next_line_st src_pos]. apply Forall_app. split; [exact (i_in _ I)|]. constructor; [|constructor]. split; [lia|]. unfold ahead. unfold spot in H. rewrite H. lia.
    - exact (i_stack _ I). }
  destruct (starts_with_c 59 inp) eqn:E.
  - destruct (sw1_split _ _ E) as (r0 & ->). apply hx_bind. apply hx_bind, hx_advb. intros w r H' B H2. apply hx_ret.
    pose proof (spot_next s [59%N] r0 H) as X. assert (r = r0). { unfold spot in H2. cbn [src_pos set_pos] in H2. rewrite B in H2. change (blen [59%N]) with 1 in X. congruence. } subst r0.
    apply (G _ r 1); [apply (fwd_adv s w r H')|exact H2|cbn; lia|].
    intros NL. destruct r as [|c r]; [discriminate NL|]. cbn [starts_with_c] in NL. apply orb_true_iff in NL as [NL|NL]; apply N.eqb_eq in NL; subst c; [vm_compute; lia|].
    destruct r as [|d r]; [vm_compute; lia|]. unfold pend. cbn [starts_with]. destruct (10 =? d)%N; vm_compute; lia.
  - apply hx_bind, hx_ret. apply (G s inp 0); [apply fwd_refl, PI|exact H|lia|intros _; lia].
Qed.
Lemma tbind_assoc {A B C} (m : T A) (f : A -> T B) (g : B -> T C) s : tbind (tbind m f) g s = tbind m (fun a => tbind (f a) g) s.
Proof. unfold tbind. destruct (m s); reflexivity. Qed.
Lemma h_doc n bak tag now bs parts s : inv bak -> J bak s bs parts -> FF \/ L - src_pos s < n ->
  hx (doc_loop code nt lf n bak tag now bs parts) s (fun r s' => J bak s' (fst r) (snd r) /\ lo < src_pos s') fails.
Proof.
  intros IB. revert bs parts s. induction n as [|n IH]; intros bs parts s HJ HN; cbn [doc_loop]; [unfold hx, tfuel; destruct HN; [auto|lia]|].
  apply hx_bind, hx_input. intros inp H. cbv zeta. apply hx_bind, hx_advc. intros w r H' _ H2. pose proof (fwd_adv s w r H') as F. set (s1 := set_pos (src_pos s + blen w) s) in *.
  assert (J1 : J bak s1 (bs ++ encode w) parts) by (apply (J_fwd bak s s1 bs); [exact HJ|exact F|subst s1; cbn [src_pos set_pos]; pose proof (bsn_enc bs w); lia|subst s1; cbn [src_pos set_pos]; rewrite app_length, SmallFacts.encode_blen; lia]).
  pose proof (fwd_pos _ _ F) as P1. apply hx_bind, hx_input. intros inp2 H3. pose proof (spot_fun _ _ _ H2 H3) as <-. pose proof (J_inv _ _ _ _ J1) as I1.
  assert (UN : forall msg sx (Q : bytes * list tokspan -> tst -> Prop), inv sx -> hx (err_pos <- input_pos ;; trestore bak ;;; p <- input_pos ;; terr (SEUnterminated msg (mk_span p err_pos))) sx Q fails) by (intros msg sx Q X; apply (h_unterminated (fun x => x) bak sx); auto; intros x; lia).
  destruct r as [|c r]; [apply UN; auto|].
  destruct (c =? 10)%N eqn:C1.
  { apply N.eqb_eq in C1. subst c. apply hx_bind, hx_advb. intros w2 r2 H4 B2 _. rewrite B2. apply hx_bind, hx_line. destruct (h_newline_J bak s1 r _ ((bs ++ encode w) ++ [10%N]) _ J1 H3 ltac:(rewrite (app_length (bs ++ encode w)); cbn [List.length]; lia)) as [J2 P2].
    destruct (h_newline_J bak s1 r _ (bs ++ encode w) _ J1 H3 ltac:(lia)) as [J2' _].
    set (s2 := next_line_st (set_pos (src_pos s1 + 1) s1)) in *. assert (P2' : src_pos s2 = src_pos s1 + 1) by reflexivity.
    apply hx_bind, hx_input. intros inp3 H5. destruct (starts_with tag inp3).
    - apply hx_bind, hx_advb. intros w3 r3 H6 B3 _. pose proof (fwd_adv s2 w3 r3 H6) as F3. set (s3 := set_pos (src_pos s2 + blen w3) s2) in *. assert (J3 : J bak s3 (bs ++ encode w) parts) by (apply (J_fwd bak s2 s3 (bs ++ encode w)); [exact J2'|exact F3|subst s3; cbn [src_pos set_pos]; lia|subst s3; cbn [src_pos set_pos]; lia]).
      pose proof (fwd_pos _ _ F3) as P3. pose proof (J_inv _ _ _ _ J3) as I3. apply hx_bind, hx_pos.
      assert (X : forall (A : Type) (k : bool -> T A) Q (E : syntax_error -> tst -> Prop), hx (b <- (inp4 <- input code ;; (if starts_with_c 59 inp4 then advance_bytes code 1 ;;; tret tt else tret tt) ;;; newline code) ;; k b) s3 Q E ->
        hx (inp4 <- input code ;; (if starts_with_c 59 inp4 then advance_bytes code 1 ;;; tret tt else tret tt) ;;; nl <- newline code ;; k nl) s3 Q E).
      { intros A k Q E Z. unfold hx in *. rewrite !tbind_assoc in Z. unfold tbind at 1 in Z. unfold tbind at 1. destruct (input code s3) as [i4 s4|e4 s4|p4|]; auto. rewrite tbind_assoc in Z. exact Z. }
      apply X. eapply hx_use; [apply h_doc_end; exact I3| |intros ? ? []]. intros [|] s4.
      + intros (I4 & Q4 & S4). apply hx_bind, hx_putpos, hx_ret. split; [|pose proof (i_pos _ I1); cbn [src_pos set_pos]; lia]. split; [exact I4|]. destruct J3 as (_ & PP & C & LB). split; [exact PP|]. split; [|cbn [fst src_pos set_pos]; exact LB]. ff. right. destruct C as (C & C' & C''). cbn [fst snd src_pos set_pos queue lstack]. repeat split; congruence || exact C.
      + intros F4. apply UN. eapply inv_fwd; eauto.
    - apply IH; [exact J2|]. ff. right. lia. }
  destruct (c =? 92)%N.
  { eapply hx_use; [apply h_escape; exact I1| |intros e' s' (A & B & C); split; auto]. intros bs' s2 (F2 & E2). pose proof (onward_pos _ _ F2). apply IH; [apply (J_onward bak s1 s2 (bs ++ encode w)); auto|]. ff. right. lia. }
  assert (NEXT : forall r0 s2, piece bak s1 r0 s2 -> hx (doc_loop code nt lf n bak tag now (fst r0) (snd r0)) s2 (fun r s' => J bak s' (fst r) (snd r) /\ lo < src_pos s') fails).
  { intros r0 s2 (J2 & P2). apply IH; [exact J2|]. ff. right. pose proof (i_pos _ (J_inv _ _ _ _ J2)). lia. }
  destruct ((c =? 36)%N && negb now)%bool eqn:C4.
  { apply andb_true_iff in C4 as [C4 _]. apply N.eqb_eq in C4. subst c. eapply hx_use; [apply (h_str_variable bak _ _ r); [exact J1|exact H3]| |intros ? ? []]. apply NEXT. }
  destruct ((c =? 123)%N && negb now)%bool eqn:C5; [|apply UN; auto].
  apply andb_true_iff in C5 as [C5 _]. apply N.eqb_eq in C5. subst c. eapply hx_use; [apply (h_str_block bak _ _ true r); [exact J1|exact H3|discriminate]| |intros ? ? []]. apply NEXT.
Qed.

Lemma h_return bak s0 st en bs parts s : inv bak -> fwd s0 bak -> J bak s bs parts -> tokin st -> tokin en -> hx (return_tokens_from_parts st en bs parts) s (got s0) fails.
Proof.
  intros IB F (I & P & C & LB) TS TE. apply hx_bind, hx_get. cbv zeta. apply hx_bind, hx_put, hx_bind, hx_push, hx_ret. apply (got_from s0 bak); [exact F|].
  set (q2 := match bs with [] => en :: queue s | _ => (frag_token bs, mk_span (sp_start (snd st)) (sp_end (snd en))) :: en :: queue s end).
  assert (Q2 : Forall tokin q2). { assert (X : Forall tokin (en :: queue s)) by (constructor; [exact TE|exact (i_queue _ I)]). subst q2. destruct bs; [exact X|]. constructor; [|exact X]. destruct TS, TE. split; cbn [snd mk_span sp_start sp_end]; auto. }
  assert (QL : List.length q2 = S (bsn bs + List.length (queue s))) by (subst q2; destruct bs; reflexivity).
  split; [|split; [exact TS|]].
  - apply inv_mode, inv_stack; [apply inv_queue; [exact I|apply Forall_app; auto]|]. destruct (i_stack _ IB) as [X|X]; [auto|]. ff. right. destruct C as (C1 & C2 & C3). cbn [List.length lstack set_queue src_pos]. rewrite C3. lia.
  - ff. right. right. destruct C as (C1 & C2 & C3). unfold Phi. cbn [src_pos queue set_mode set_stack set_queue]. rewrite app_length, QL, C2. pose proof (i_pos _ I). lia.
Qed.

Lemma h_open (b1 b2 : bool) k1 k2 s : 0 < k1 -> 0 < k2 ->
  hx (if b1 then advance_bytes code k1 ;;; tret true else if b2 then advance_bytes code k2 ;;; tret true else tret false) s
     (fun b s' => if (b : bool) then onward s s' else s' = s) (fun _ _ => False).
Proof.
  intros K1 K2. destruct b1; [|destruct b2]; [| |apply hx_ret; reflexivity]; apply hx_bind, hx_advb; intros w r H' B _; apply hx_ret; apply (onward_adv s w r H'); lia.
Qed.
Lemma h_dq_string s0 s : inv s0 -> fwd s0 s -> hx (match_dq_string code nt lf) s (got s0) (rest s0).
Proof.
  intros I F. pose proof (inv_fwd _ _ I F) as I1. unfold match_dq_string. apply hx_bind, hx_input. intros inp H. destruct (blen inp <? 2); [apply rest_none, F|].
  apply hx_bind, hx_get. eapply hx_use; [apply h_open; lia| |intros ? ? []]. intros [|] s1; [|intros ->; apply rest_none, F]. intros F2. pose proof (onward_pos _ _ F2) as P2.
  eapply hx_use; [apply h_dq; [exact I1|apply J_start; auto|pose proof HL as HL'; ff; right; lia]| |intros e s' X; right; exact X]. intros [bs' parts'] s2 (J2 & P0). cbn [fst snd] in J2. apply hx_bind, hx_pos, hx_bind, hx_sub. intros _.
  pose proof (i_pos _ (J_inv _ _ _ _ J2)). pose proof (i_pos _ I1). eapply hx_mono; [apply (h_return s s0); eauto; split; cbn [snd mk_span sp_start sp_end]; lia|auto|right; auto].
Qed.
Lemma h_backquote s0 s : inv s0 -> fwd s0 s -> hx (match_backquote code nt lf) s (got s0) (rest s0).
Proof.
  intros I F. pose proof (inv_fwd _ _ I F) as I1. unfold match_backquote. apply hx_bind, hx_input. intros inp H. destruct (blen inp <? 2); [apply rest_none, F|].
  destruct (starts_with_c 96 inp); [|apply rest_none, F]. apply hx_bind, hx_get, hx_bind, hx_advb. intros w r H' B _. pose proof (onward_adv s w r H' ltac:(lia)) as F2. pose proof (onward_pos _ _ F2) as P2.
  eapply hx_use; [apply h_bq; [exact I1|apply J_start; auto|pose proof HL as HL'; ff; right; lia]| |intros e s' X; right; exact X]. intros [bs' parts'] s2 (J2 & P0). cbn [fst snd] in J2. apply hx_bind, hx_pos, hx_bind, hx_sub. intros _.
  pose proof (i_pos _ (J_inv _ _ _ _ J2)). pose proof (i_pos _ I1). eapply hx_mono; [apply (h_return s s0); eauto; split; cbn [snd mk_span sp_start sp_end]; lia|auto|right; auto].
Qed.
Lemma h_opt_adv (b : bool) {A} (x y : A) k s : src_pos s <= L -> hx (if b then advance_bytes code k ;;; tret x else tret y) s (fun a s' => a = (if b then x else y) /\ fwd s s') (fun _ _ => False).
Proof. intros SL. destruct b; [|apply hx_ret; split; [reflexivity|apply fwd_refl, SL]]. apply hx_bind, hx_advb. intros w r H' B _. apply hx_ret. split; [reflexivity|apply (fwd_adv s w r H')]. Qed.
Lemma h_heredoc s0 s : inv s0 -> fwd s0 s -> hx (match_here_now_doc code nt lf) s (got s0) (rest s0).
Proof.
  intros I F. pose proof (inv_fwd _ _ I F) as I1. pose proof (i_pos _ I1) as SL. unfold match_here_now_doc. apply hx_bind, hx_input. intros inp H. destruct (blen inp <? 8); [apply rest_none, F|].
  apply hx_bind, hx_get. eapply hx_use; [apply h_open; lia| |intros ? ? []]. intros [|] s1; cbn [negb]; [|intros ->; apply rest_none, F]. intros F2.
    assert (GIVEUP : forall s2, fwd s s2 -> hx (trestore s ;;; terr SENone) s2 (got s0) (rest s0)).
    { intros s2 FX. apply hx_bind, hx_restore, hx_err. rewrite restore_same; [apply rest_none, F|]. destruct FX as (p & -> & _). reflexivity. }
    eapply hx_use; [apply h_ws_only| |intros ? ? []]. intros [] s2 F3. pose proof (onward_onward _ _ _ F2 F3) as F4. apply hx_bind, hx_input. intros inp2 H2.
    eapply hx_use with (Q0 := fun _ s3 => fwd s2 s3) (E0 := fun _ _ => False); [| |intros ? ? []].
    { pose proof (onward_pos _ _ F4) as P4. destruct (starts_with_c 39 inp2); [|destruct (starts_with_c 34 inp2)].
      - eapply hx_mono; [apply (h_opt_adv true DNowDoc DNowDoc); lia|intros a s' (_ & X); exact X|auto].
      - eapply hx_mono; [apply (h_opt_adv true DHereDocEncapsed DNowDoc); lia|intros a s' (_ & X); exact X|auto].
      - apply hx_ret, fwd_refl. lia. }
    intros ty s3 F5. pose proof (onward_onward _ _ _ F4 F5) as F6. eapply hx_use; [apply h_label| |intros ? ? []]. intros [[tag sp]|] s4.
    2:{ intros ->. apply GIVEUP, onward_fwd, F6. }
    intros (F7 & _). pose proof (onward_onward _ _ _ F6 (onward_fwd _ _ F7)) as F8. apply hx_bind, hx_input. intros inp3 H3.
    eapply hx_use with (Q0 := fun _ s5 => fwd s4 s5) (E0 := fun _ _ => False); [| |intros ? ? []].
    { pose proof (onward_pos _ _ F8) as P8. destruct ty; [apply hx_ret, fwd_refl; lia| |]; (eapply hx_mono; [apply h_opt_adv; lia|intros a s' (_ & X); exact X|auto]). }
    intros ok s5 F9. pose proof (onward_onward _ _ _ F8 F9) as F10. destruct ok; cbn [negb]; [|apply GIVEUP, onward_fwd, F10].
    pose proof (inv_onward _ _ I1 F10) as I5. eapply hx_use; [apply h_newline; exact I5| |intros ? ? []]. intros [|] s6; cbn [negb]; [|intros ->; apply GIVEUP, onward_fwd, F10].
    intros (inp4 & j & _ & J0 & JL & _ & _ & I6 & ->). pose proof (onward_pos _ _ F10) as P10. cbv zeta.
    eapply hx_use; [apply (h_doc lf s)| |intros e s' X; right; exact X].
    - exact I1.
    - split; [exact I6|]. split; [constructor|]. split; [|cbn [List.length src_pos next_line_st set_pos]; lia]. right. cbn [List.length bsn src_pos next_line_st set_pos queue lstack]. destruct F10 as (p & -> & F10). cbn [src_pos set_pos queue lstack] in *. repeat split. lia.
    - pose proof HL as HL'; ff; right. lia.
    - intros [bs' parts'] s7 (J7 & P7). cbn [fst snd] in *. apply hx_bind, hx_pos. pose proof (i_pos _ (J_inv _ _ _ _ J7)) as PL7.
      assert (RT : hx (q <- tsub (src_pos s7) 1 ;; return_tokens_from_parts (Kw KHereDocStart, mk_span (src_pos s) (src_pos s + 1)) (Kw KHereDocEnd, mk_span q (src_pos s7)) bs' parts') s7 (got s0) (rest s0)).
      { apply hx_bind, hx_sub. intros _. eapply hx_mono; [apply (h_return s s0); eauto; split; cbn [snd mk_span sp_start sp_end]; lia|auto|right; auto]. }
      destruct ty; try exact RT. destruct parts'; [|exact Logic.I]. apply hx_ret. apply (got_from s0 s); [exact F|]. destruct J7 as (I7 & _ & C & _). split; [exact I7|]. split; [split; cbn [snd mk_span sp_start sp_end]; lia|]. ff. right. right. destruct C as (C1 & C2 & C3). unfold Phi. rewrite C2. lia.
Qed.

Lemma h_chain s0 m k s : (hx m s (got s0) (rest s0)) -> (forall s', fwd s0 s' -> hx k s' (got s0) fails) -> hx (ret_token m k) s (got s0) fails.
Proof.
  intros H K. apply hx_ret_token. eapply hx_mono; [exact H|auto|]. intros e s' [(-> & F)|X]; [split; [intros _; apply K, F|congruence]|]. split; [intros ->; destruct X; congruence|auto].
Qed.
Lemma same_Phi a b : same a b -> Phi b <= Phi a. Proof. intros (_ & _ & _ & Q & P). unfold Phi. rewrite Q. lia. Qed.
Lemma h_scripting s : inv s -> hx (in_scripting_token code nt lf) s (got s) fails.
Proof.
  intros I. unfold in_scripting_token. eapply hx_use; [apply h_whitespace, I| |intros ? ? []]. intros [] s0 (I0 & S0).
  eapply hx_mono with (Q := got s0) (E := fails); [| |auto].
  2:{ intros t s' (A & B & C). split; [exact A|]. split; [exact B|]. destruct C as [C|[C|C]]; auto. right. right. apply same_Phi in S0. lia. }
  apply hx_bind, hx_input. intros [|c r] H; [apply hx_ret; split; [exact I0|]; split; [apply tokin_end|]; right; left; reflexivity|].
  apply hx_bind, hx_pos. pose proof (i_pos _ I0) as PL.
  apply (h_chain s0); [apply h_heredoc; [exact I0|apply fwd_refl, PL]|]. intros s1 F1.
  assert (PN : forall pf ok rx sx, fwd s0 sx -> hx (prefixed_num code pf ok rx) sx (got s0) (rest s0)).
  { intros pf ok rx sx FX. pose proof (fwd_pos _ _ FX) as PX. eapply hx_mono; [apply h_prefixed; lia| |].
    - intros t s' (A & B). apply (got_from s0 sx); [exact FX|]. split; [eapply inv_onward; [eapply inv_fwd; [exact I0|exact FX]|exact B]|]. split; [exact A|]. right. right. apply onward_Phi, B.
    - intros e s' (-> & B). apply rest_none. eapply fwd_trans; eauto. }
  apply (h_chain s0); [apply PN, F1|]. intros s2 F2. apply (h_chain s0); [apply PN, F2|]. intros s3 F3.
  apply (h_chain s0); [apply plain_got; auto; apply h_onum|]. intros s4 F4. apply (h_chain s0); [apply h_dq_string; auto|]. intros s5 F5.
  apply (h_chain s0); [apply plain_got; auto; apply h_variable; apply fwd_pos in F5; lia|]. intros s6 F6. apply (h_chain s0); [apply h_sq_string; auto|]. intros s7 F7.
  apply (h_chain s0); [apply h_comments; auto|]. intros s8 F8. apply (h_chain s0); [apply h_backquote; auto|]. intros s9 F9.
  apply hx_bind, hx_putpos. rewrite (back _ _ F9). apply (h_label_or_other s0 c r); auto.
Qed.

(** ** [next_token] *)
Definition rk (s : tst) : nat := 2 * List.length (lstack s) + (if restart s then 1 else 0).
Definition stops_at (s : tst) (e : syntax_error) (s' : tst) : Prop :=
  inv s' /\ err_in e /\ (e = SENone -> (restart s' = true -> 2 * List.length (lstack s') < rk s) /\ Phi s' <= Phi s).
Lemma fails_stops s e s' : fails e s' -> stops_at s e s'. Proof. intros (A & B & C). split; [exact B|]. split; [exact C|]. congruence. Qed.
Lemma took_got s t s' : inv s -> took s t s' -> got s t s'.
Proof.
  intros I (A & B & C). split; [exact A|]. pose proof (i_pos _ A). pose proof (i_pos _ I). destruct C as [(E & -> & ->)|(C1 & C2 & C3)]; [split; [apply tokin_end|auto]|]. split; [split; lia|]. right. right. unfold Phi. rewrite B. lia.
Qed.
Lemma h_property s : inv s -> hx (looking_for_property_token code) s (got s) (stops_at s).
Proof.
  intros I. unfold looking_for_property_token. eapply hx_use; [apply h_whitespace, I| |intros ? ? []]. intros [] s0 (I0 & S0). pose proof (same_Phi _ _ S0) as PH.
  assert (UP : forall t s', got s0 t s' -> got s t s') by (intros t s' (A & B & C); split; [exact A|]; split; [exact B|]; destruct C as [C|[C|C]]; auto; right; right; lia).
  apply hx_none. { eapply hx_mono; [apply h_alias_took; [discriminate|exact I0]|intros t s' X; apply UP, took_got; auto|auto]. }
  eapply hx_use; [apply h_label| |intros ? ? []]. intros [[x sp]|] s1.
  - intros (F & P & N & ->). pose proof (onward_pos _ _ F) as PF. pose proof (len_blen x). pose proof (i_pos _ I0). apply hx_bind, hx_pop. intros m st E. apply hx_ret. apply UP. split; [apply inv_pop; [eapply inv_onward; eauto|exact E]|]. split; [split; cbn [snd mk_span sp_start sp_end]; lia|]. right. right. apply onward_Phi in F. exact F.
  - intros ->. apply hx_bind, hx_pop. intros m st E. unfold hx. split; [apply inv_restart, inv_pop; auto|]. split; [exact Logic.I|]. intros _. destruct S0 as (_ & S2 & _ & _). split; [|exact PH]. intros _. cbn [lstack set_restart set_mode set_stack]. unfold rk. rewrite <- S2, E. cbn [List.length]. lia.
Qed.
Lemma h_initial s : inv s -> hx (initial_token code) s (got s) fails.
Proof.
  intros I. pose proof (i_pos _ I) as PL. unfold initial_token. apply hx_bind, hx_input. intros [|c r] H.
  { unfold hx. split; [apply inv_mode, I|]. split; [apply tokin_end|]. right. left. reflexivity. }
  set (inp := c :: r) in *.
  assert (AL : forall a k ac, a <> [] -> hx (match_token_alias code a k ac) s (got s) (nothing s)) by (intros a k ac N; eapply hx_mono; [apply h_alias_took; auto|intros t s' X; apply took_got; auto|auto]).
  apply hx_none; [apply AL; discriminate|]. apply hx_none; [apply AL; discriminate|]. apply hx_none; [apply AL; discriminate|]. cbv zeta.
  set (e := match find_sub (s2l "<?") inp with None => blen inp | Some x => x end). destruct (negb (e =? 0)) eqn:E.
  - apply negb_true_iff, Nat.eqb_neq in E. apply hx_bind, hx_pos, hx_bind, hx_advb. intros w r' H' B _. apply hx_ret. pose proof (onward_adv s w r' H' ltac:(lia)) as F. pose proof (onward_pos _ _ F) as P. cbn [src_pos set_pos] in P.
    split; [eapply inv_onward; eauto|]. split; [split; cbn [snd mk_span sp_start sp_end]; lia|]. right. right. apply onward_Phi, F.
  - apply hx_ret. split; [exact I|]. split; [apply tokin_end|]. right. left. reflexivity.
Qed.
Lemma h_scan s : inv s -> hx (scan code nt lf) s (got s) (stops_at s).
Proof.
  intros I. assert (N : lmode s <> LDone \/ True) by auto. unfold hx, scan. destruct (lmode s) eqn:M.
  all: try (split; [exact I|]; split; [exact Logic.I|]; intros _; split; [|lia]; intros R; unfold rk; rewrite R; lia).
  all: try (apply (hx_mono _ _ _ (got s) _ (stops_at s) (h_scripting s I)); [auto|intros; apply fails_stops; auto]).
  all: try (apply (hx_mono _ _ _ (got s) _ (stops_at s) (h_initial s I)); [auto|intros; apply fails_stops; auto]).
  all: apply (h_property s I).
Qed.
Lemma h_nt_loop n : forall s, inv s -> FF \/ rk s < n -> hx (nt_loop code nt lf n) s (got s) (fun e s' => inv s' /\ err_in e).
Proof.
  induction n as [|n IH]; intros s I HN; [unfold hx; cbn; destruct HN; [auto|lia]|]. cbn [nt_loop]. unfold hx.
  assert (S : match match scan code nt lf s with TErr SENone s' => if restart s' then nt_loop code nt lf n (set_restart false s') else TErr SENone s' | r => r end with TOk a s' => got s a s' | TErr e s' => inv s' /\ err_in e | TPanic _ => True | TFuel => FF end).
  { pose proof (h_scan s I) as G. unfold hx in G. destruct (scan code nt lf s) as [t s'|e s'|p|]; auto. destruct G as (I' & E & R). destruct e; auto. destruct (R eq_refl) as [R1 R2]. destruct (restart s') eqn:RS; auto.
    specialize (IH (set_restart false s') (inv_restart _ _ I')). unfold hx in IH. specialize (R1 eq_refl).
    assert (X : FF \/ rk (set_restart false s') < n) by (ff; right; unfold rk in *; cbn [restart set_restart lstack]; lia). specialize (IH X).
    destruct (nt_loop code nt lf n (set_restart false s')); auto. destruct IH as (A & B & C). split; [exact A|]. split; [exact B|]. destruct C as [C|[C|C]]; auto. right. right. unfold Phi in *. cbn [src_pos queue set_restart] in *. lia. }
  destruct (lmode s) eqn:M; try exact S. destruct (queue s) as [|x q] eqn:Q.
  - unfold pop_state. destruct (lstack s) as [|m st] eqn:ST; [exact Logic.I|]. pose proof (inv_restart true _ (inv_pop m st s I ST)) as I'. specialize (IH _ I'). unfold hx in IH.
    assert (X : FF \/ rk (set_restart true (set_mode m (set_stack st s))) < n) by (ff; right; unfold rk in *; rewrite ST in HN; cbn [restart set_restart lstack set_mode set_stack List.length] in *; lia). specialize (IH X).
    destruct (nt_loop code nt lf n _); auto.
  - pose proof (i_queue _ I) as QI. rewrite Q in QI. inversion QI as [|x' q' X1 X2]; subst. split; [apply inv_queue; auto|]. split; [exact X1|]. right. right. unfold Phi. rewrite Q. cbn [src_pos queue set_queue List.length]. lia.
Qed.
End Inv.
