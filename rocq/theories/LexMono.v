(** * LexMono: more fuel never changes what the tokenizer does *)
From Verif Require Import Base Tokens Ast AstMap Lexer Parser Driver Spec.
From Coq Require Import String.

Definition fle {A} (m m' : T A) : Prop := forall s, m s = TFuel \/ m s = m' s.
Lemma fle_refl {A} (m : T A) : fle m m.
Proof. intros s. auto. Qed.
Lemma fle_bind {A B} (m m' : T A) (k k' : A -> T B) : fle m m' -> (forall a, fle (k a) (k' a)) -> fle (tbind m k) (tbind m' k').
Proof.
  intros H K s. unfold tbind. destruct (H s) as [E|E]; rewrite E; [auto|]. destruct (m' s); auto. apply K.
Qed.
Lemma fle_fuel {A} (m : T A) : fle tfuel m.
Proof. intros s. auto. Qed.
Lemma fle_ret {A} (m m' k k' : T A) : fle m m' -> fle k k' -> fle (ret_token m k) (ret_token m' k').
Proof. intros H K s. unfold ret_token. destruct (H s) as [E|E]; rewrite E; [auto|]. destruct (m' s) as [|[] ?| |]; auto. Qed.
Ltac fl := repeat
  match goal with
  | |- fle ?x ?x => apply fle_refl
  | |- fle (tbind _ _) (tbind _ _) => apply fle_bind; [|intros ?]
  | |- fle (ret_token _ _) (ret_token _ _) => apply fle_ret
  | |- fle (match ?x with _ => _ end) (match ?x with _ => _ end) => destruct x
  | H : forall _, _ |- fle _ _ => apply H; try lia
  end.
Section Code.
Variable code : str.
Lemma sq_fle n : forall n' bak bs, n <= n' -> fle (sq_loop code n bak bs) (sq_loop code n' bak bs).
Proof. induction n as [|n IH]; intros [|n'] bak bs L; try apply fle_fuel; [lia|]. cbn [sq_loop]. fl. Qed.
Section Nt.
Variables (nt nt' : T tokspan) (lf lf' : nat).
Hypothesis NT : fle nt nt'.
Hypothesis LF : lf <= lf'.
Lemma block_fle n : forall n' l, n <= n' -> fle (block_loop nt n l) (block_loop nt' n' l).
Proof.
  induction n as [|n IH]; intros [|n'] l L; try apply fle_fuel; [lia|]. cbn [block_loop]. intros s. destruct (NT s) as [E|E]; rewrite E; [auto|]. destruct (nt' s); auto. apply IH. lia.
Qed.
Lemma str_block_fle bs ps d : fle (str_block code nt lf bs ps d) (str_block code nt' lf' bs ps d).
Proof. pose proof (fun l => block_fle lf lf' l LF) as B. unfold str_block. fl. Qed.
Lemma str_variable_fle bs ps : fle (str_variable code nt lf bs ps) (str_variable code nt' lf' bs ps).
Proof. pose proof str_block_fle as B. unfold str_variable. fl. Qed.
Lemma dq_fle n : forall n' bak bs ps, n <= n' -> fle (dq_loop code nt lf n bak bs ps) (dq_loop code nt' lf' n' bak bs ps).
Proof.
  pose proof str_block_fle as B. pose proof str_variable_fle as V. induction n as [|n IH]; intros [|n'] bak bs ps L; try apply fle_fuel; [lia|]. cbn [dq_loop]. fl.
Qed.
Lemma bq_fle n : forall n' bak bs ps, n <= n' -> fle (bq_loop code nt lf n bak bs ps) (bq_loop code nt' lf' n' bak bs ps).
Proof.
  pose proof str_block_fle as B. pose proof str_variable_fle as V. induction n as [|n IH]; intros [|n'] bak bs ps L; try apply fle_fuel; [lia|]. cbn [bq_loop]. fl.
Qed.
Lemma doc_fle n : forall n' bak tag now bs ps, n <= n' -> fle (doc_loop code nt lf n bak tag now bs ps) (doc_loop code nt' lf' n' bak tag now bs ps).
Proof.
  pose proof str_block_fle as B. pose proof str_variable_fle as V. induction n as [|n IH]; intros [|n'] bak tag now bs ps L; try apply fle_fuel; [lia|]. cbn [doc_loop]. fl.
Qed.
Lemma script_fle : fle (in_scripting_token code nt lf) (in_scripting_token code nt' lf').
Proof.
  pose proof (dq_fle lf) as D. pose proof (bq_fle lf) as B. pose proof (doc_fle lf) as H. pose proof (sq_fle lf) as S.
  unfold in_scripting_token, match_here_now_doc, match_dq_string, match_sq_string, match_backquote. fl.
Qed.
Lemma scan_fle : fle (scan code nt lf) (scan code nt' lf').
Proof. intros s. unfold scan. destruct (lmode s); first [exact (script_fle s)|right; reflexivity]. Qed.
Lemma nt_fle n : forall n', n <= n' -> fle (nt_loop code nt lf n) (nt_loop code nt' lf' n').
Proof.
  induction n as [|n IH]; intros [|n'] L; try apply fle_fuel; [lia|]. intros s. cbn [nt_loop].
  assert (X : match scan code nt lf s with TErr SENone s' => if restart s' then nt_loop code nt lf n (set_restart false s') else TErr SENone s' | r => r end = TFuel \/
    match scan code nt lf s with TErr SENone s' => if restart s' then nt_loop code nt lf n (set_restart false s') else TErr SENone s' | r => r end =
    match scan code nt' lf' s with TErr SENone s' => if restart s' then nt_loop code nt' lf' n' (set_restart false s') else TErr SENone s' | r => r end).
  { destruct (scan_fle s) as [E|E]; rewrite E; [auto|]. destruct (scan code nt' lf' s) as [|[] s'| |]; auto. destruct (restart s'); auto. apply IH. lia. }
  destruct (lmode s); try exact X. destruct (queue s); auto. destruct (pop_state s); auto. apply IH. lia.
Qed.
End Nt.
Lemma next_fle f : forall f', f <= f' -> fle (next_token code f) (next_token code f').
Proof. induction f as [|f IH]; intros [|f'] L; try apply fle_fuel; [lia|]. cbn [next_token]. apply nt_fle; try lia. apply IH. lia. Qed.
End Code.

Lemma tokenize_mono code n : forall n' f f' acc s, n <= n' -> f <= f' -> tokenize_loop code n f acc s <> DFuel ->
  tokenize_loop code n' f' acc s = tokenize_loop code n f acc s.
Proof.
  induction n as [|n IH]; intros [|n'] f f' acc s L L' N; cbn [tokenize_loop] in *; try congruence; [lia|].
  destruct (next_fle code f f' L' s) as [E|E]; [rewrite E in N; congruence|]. rewrite <- E in *.
  destruct (next_token code f s) as [[[k| | | | | | | |] sp] s'| | |]; try reflexivity; try congruence;
    try (apply IH; [lia|lia|exact N]); destruct k; try reflexivity; apply IH; (lia || exact N).
Qed.
Lemma parse_str_mono f f' code : f <= f' -> parse_str f code <> DFuel -> parse_str f' code = parse_str f code.
Proof.
  unfold parse_str, tokenize. intros L N. rewrite (tokenize_mono code f f' f f' [] tst_init L L); [reflexivity|]. intros E. rewrite E in N. congruence.
Qed.
(** one run decides *)
Lemma run_parses f src l l' : parse_str f src = DOk l' -> strip l' = strip l -> parses_to src l.
Proof. intros E S. exists f. intros f' L. exists l'. split; [|exact S]. rewrite (parse_str_mono f f' src L), E; congruence. Qed.
Lemma run_panics f src p : parse_str f src = DPanic p -> panics src.
Proof. intros E. exists f. intros f' L. exists p. rewrite (parse_str_mono f f' src L), E; congruence. Qed.
Lemma parses_run f src l r : parses_to src l -> parse_str f src = r -> r <> DFuel -> exists l', r = DOk l' /\ strip l' = strip l.
Proof.
  intros (F & P) E N. destruct (P (max F f) ltac:(lia)) as (l' & E' & S). exists l'. split; [|exact S].
  rewrite (parse_str_mono f (max F f) src ltac:(lia)) in E' by congruence. congruence.
Qed.
