(** * ParserRel: one relational pass over the parser

    Two runs on token lists that agree up to positions and up to a rewriting of the
    payloads give outcomes that agree in the same way, and all leaves of the
    resulting trees satisfy an invariant that holds of the tokens.  A left run that
    runs out of fuel is related to anything. *)
From Verif Require Import Base Tokens Ast Parser AstMap Wp.
From Coq Require Import String.

Definition rel {A B} (R : A -> B -> Prop) (m1 : P A) (m2 : P B) : Prop := forall p,
  match m1 p, m2 p with
  | PFuel, _ => True
  | POk a p1, POk b p2 => p1 = p2 /\ R a b
  | PErr e1 p1, PErr e2 p2 => p1 = p2 /\ e1 = e2
  | PPanic x, PPanic y => x = y
  | _, _ => False
  end.

Section Comb.
Context {A B A' B' : Type}.
Lemma rel_mono (R R' : A -> B -> Prop) m1 m2 : rel R m1 m2 -> (forall a b, R a b -> R' a b) -> rel R' m1 m2.
Proof. intros H I p. specialize (H p). destruct (m1 p), (m2 p); intuition. Qed.
Lemma rel_catch (R : A -> B -> Prop) (R' : A' -> B' -> Prop) m1 m2 ok1 ok2 er1 er2 :
  rel R m1 m2 -> (forall a b, R a b -> rel R' (ok1 a) (ok2 b)) -> (forall e, rel R' (er1 e) (er2 e)) ->
  rel R' (pcatch m1 ok1 er1) (pcatch m2 ok2 er2).
Proof.
  intros H K1 K2 p. unfold pcatch. specialize (H p). destruct (m1 p), (m2 p); try tauto; subst; auto.
  - destruct H as [-> H]. apply K1; auto.
  - destruct H as [-> ->]. apply K2.
Qed.
Lemma rel_ret (R : A -> B -> Prop) a b : R a b -> rel R (pret a) (pret b).
Proof. intros H p. cbn. auto. Qed.
Lemma rel_err (R : A -> B -> Prop) ts : rel R (perr ts) (perr ts).
Proof. intros p. cbn. auto. Qed.
Lemma rel_throw (R : A -> B -> Prop) e : rel R (pthrow e) (pthrow e).
Proof. intros p. cbn. auto. Qed.
Lemma rel_panic (R : A -> B -> Prop) x : rel R (ppanic x) (ppanic x).
Proof. intros p. cbn. auto. Qed.
Lemma rel_fuel (R : A -> B -> Prop) m : rel R pfuel m.
Proof. intros p. cbn. auto. Qed.
Lemma rel_unpack (R : A -> B -> Prop) d : rel R (deepest_unpack d) (deepest_unpack d).
Proof. destruct d as [[? ?]|]; [apply rel_throw|apply rel_err]. Qed.
Lemma rel_deepest (R : A -> B -> Prop) d m1 m2 k1 k2 :
  rel R m1 m2 -> (forall d, rel R (k1 d) (k2 d)) -> rel R (deepest d m1 k1) (deepest d m2 k2).
Proof.
  intros H K p. unfold deepest, pcatch. specialize (H p). destruct (m1 p), (m2 p); try tauto; subst; auto.
  destruct H as [-> ->]. apply K.
Qed.
End Comb.
Lemma rel_bind {A B A' B'} (R : A -> B -> Prop) (R' : A' -> B' -> Prop) m1 m2 k1 k2 :
  rel R m1 m2 -> (forall a b, R a b -> rel R' (k1 a) (k2 b)) -> rel R' (pbind m1 k1) (pbind m2 k2).
Proof. intros H K. eapply rel_catch; eauto. intros e. apply rel_throw. Qed.
Lemma rel_getpos : rel eq getpos getpos.
Proof. intros p. cbn. auto. Qed.
Lemma rel_setpos q : rel eq (setpos q) (setpos q).
Proof. intros p. cbn. auto. Qed.
Lemma rel_adv : rel eq adv adv.
Proof. intros p. cbn. auto. Qed.

(** the two starts behave alike under one, or two, subtractions of 1 *)
Definition same1 (a b : nat) : Prop := Nat.min 1 a = Nat.min 1 b.
Definition same2 (a b : nat) : Prop := Nat.min 2 a = Nat.min 2 b.
Arguments same1 : simpl never.
Arguments same2 : simpl never.
Lemma same21 a b : same2 a b -> same1 a b.
Proof. unfold same1, same2. destruct a as [|[|a]], b as [|[|b]]; cbn; lia. Qed.
Lemma same2_pred a b : same2 a b -> same1 (a - 1) (b - 1).
Proof. unfold same1, same2. destruct a as [|[|a]], b as [|[|b]]; cbn; lia. Qed.
Lemma same1_sub a b : same1 a b -> (1 <=? a) = (1 <=? b).
Proof. unfold same1. destruct a as [|a], b as [|b]; cbn; lia. Qed.

(** what happens to the payload of a token *)
Definition map_tok (fv : str -> str) (fz : Z -> Z) (fd fs : str -> str) (t : token) : token :=
  match t with
  | TVariable s => TVariable (fv s)
  | TInt z => TInt (fz z)
  | TDouble d => TDouble (fd d)
  | TCes s => TCes (fs s)
  | TInlineHtml s => TInlineHtml (fs s)
  | t => t
  end.

(** the path with the given fragments *)
Definition path_of (abs : bool) (l : list str) : path :=
  mkPath abs (match removelast l with [] => None | r => Some (join_ns r) end) (last l []).

(** invariants of leaves *)
Record inv := mkInv {
  iB : nat -> Prop;  (* positions *)
  iD : option str -> Prop;
  iV : str -> Prop; iI : str -> Prop; iS : str -> Prop; iZ : Z -> Prop; iF : str -> Prop }.
Definition ok_span (J : inv) (sp : span) : Prop := iB J (sp_start sp) /\ iB J (sp_end sp) /\ iD J (sp_doc sp).
Definition ok_path (J : inv) (p : path) : Prop :=
  exists abs l, l <> [] /\ Forall (iI J) l /\ p = path_of abs l.
Definition ok_token (J : inv) (t : token) : Prop :=
  match t with
  | TVariable s => iV J s
  | TInt z => iZ J z
  | TDouble d => iF J d
  | TString s => iI J s
  | TCes s | TInlineHtml s => iS J s
  | _ => True
  end.
Definition ok_atom (J : inv) (a : atom) : Prop :=
  match a with
  | ASpan sp => ok_span J sp
  | AVarName s => iV J s
  | AIdent s => iI J s
  | APath p => ok_path J p
  | AStr s => iS J s
  | ABin _ => False
  | AInt z => iZ J z
  | ADouble d => iF J d
  | ACast t => exists k, cast_ty k = Some t
  end.
(** what the parser needs of an invariant *)
Record inv_ok (J : inv) : Prop := {
  ok_B0 : iB J 0;
  ok_Bpred : forall x, iB J x -> iB J (x - 1);
  ok_D : iD J None;
  ok_VI : forall s, iI J s -> iV J s;
  ok_repr : forall k s, repr k = Some s -> iI J (s2l s);
  ok_Sapp : forall a b, iS J a -> iS J b -> iS J (a ++ b);
  ok_Snil : iS J [] }.

Section Rel.
Variable J : inv.
Hypothesis HJ : inv_ok J.
Variables (fv : str -> str) (fz : Z -> Z) (fd : str -> str) (fs : str -> str).
Hypothesis fs_app : forall a b, fs (a ++ b) = fs a ++ fs b.
Hypothesis fs_nil : forall a, fs a = [] <-> a = [].
Variables toks1 toks2 : list tokspan.
Definition tokrel (t1 t2 : tokspan) : Prop :=
  map_tok fv fz fd fs (fst t1) = fst t2 /\
  ok_token J (fst t1) /\ ok_token J (fst t2) /\ ok_span J (snd t1) /\ ok_span J (snd t2) /\
  same2 (sp_start (snd t1)) (sp_start (snd t2)).
Hypothesis HT : Forall2 tokrel toks1 toks2.
Hypothesis Hdc : (forall s, fv s = s) \/ Forall (fun t => fst t <> Kw KDollarCurlyBracesOpen) toks1.

Lemma len_eq : List.length toks1 = List.length toks2.
Proof. clear Hdc. induction HT; cbn; auto. Qed.
Lemma lf_eq : lf toks2 = lf toks1.
Proof. unfold lf. rewrite len_eq. reflexivity. Qed.

(** ** Relations on results *)
Record desc (A : Type) := mkDesc { d_map : A -> A; d_str : A -> A; d_at : A -> list atom }.
Arguments mkDesc {A}. Arguments d_map {A}. Arguments d_str {A}. Arguments d_at {A}.
Definition R {A} (d : desc A) (x y : A) : Prop :=
  d_map d x = d_str d y /\ Forall (ok_atom J) (d_at d x) /\ Forall (ok_atom J) (d_at d y).
Definition M1 := mkMaps (fun _ => span_new) fv fz fd fs.
Definition dE := mkDesc (map_expr M1) strip_expr atoms_expr.
Definition dEn := mkDesc (map_expr_ M1) (map_expr_ no_spans) atoms_expr_.
Definition dS := mkDesc (map_stmt M1) strip_stmt atoms_stmt.
Definition dSn := mkDesc (map_stmt_ M1) (map_stmt_ no_spans) atoms_stmt_.
Definition dPar := mkDesc (map_param M1) (map_param no_spans) atoms_param.
Definition dFun := mkDesc (map_fundecl M1) (map_fundecl no_spans) atoms_fundecl.
Definition dMem := mkDesc (map_member M1) (map_member no_spans) atoms_member.
Definition dCat := mkDesc (map_catch M1) (map_catch no_spans) atoms_catch.
Definition dCase := mkDesc (map_swcase M1) (map_swcase no_spans) atoms_swcase.
Definition dV := mkDesc (map_variable M1) (map_variable no_spans) atoms_variable.
Definition dVar := mkDesc fv (fun s => s) (fun s => [AVarName s]).
Definition dId := mkDesc (fun s => s) (fun s => s) (fun s => [AIdent s]).
Definition dP := mkDesc (fun s => s) (fun s => s) (fun s => [APath s]).
Definition dStr := mkDesc fs (fun s => s) (fun s => [AStr s]).
Definition dTy := mkDesc (fun s => s) (fun s => s) atoms_ty.
Definition dTU := mkDesc (fun s => s) (fun s => s) atoms_trait_use.
Definition dUse := mkDesc (fun s => s) (fun s => s) atoms_use.
Definition dK A : desc A := mkDesc (fun s => s) (fun s => s) (fun s => []).
(** data without rewritten leaves *)
Definition dC {A} (f : A -> list atom) : desc A := mkDesc (fun s => s) (fun s => s) f.
Definition dPl := dC (flat_map (fun p => [APath p])).
Definition dL {A} (d : desc A) : desc (list A) := mkDesc (map (d_map d)) (map (d_str d)) (flat_map (d_at d)).
Definition dO {A} (d : desc A) : desc (option A) :=
  mkDesc (option_map (d_map d)) (option_map (d_str d)) (opt_atoms (d_at d)).
Definition dX {A B} (a : desc A) (b : desc B) : desc (A * B) :=
  mkDesc (fun x => match x with (u, v) => (d_map a u, d_map b v) end)
         (fun x => match x with (u, v) => (d_str a u, d_str b v) end)
         (fun x => match x with (u, v) => d_at a u ++ d_at b v end).

(** expressions whose start is usable for [start - 1] *)
Definition RE (x y : expr) : Prop := R dE x y /\ same1 (estart x) (estart y).
Definition Rsp (s1 s2 : span) : Prop :=
  ok_span J s1 /\ ok_span J s2 /\ same2 (sp_start s1) (sp_start s2).
(** spans of paths, which may begin one earlier *)
Definition Rsp1 (s1 s2 : span) : Prop :=
  ok_span J s1 /\ ok_span J s2 /\ same1 (sp_start s1) (sp_start s2).
Definition Rspw (s1 s2 : span) : Prop := ok_span J s1 /\ ok_span J s2.
Definition Rend (a b : nat) : Prop := iB J a /\ iB J b.
Definition Rpair {A B C D} (R1 : A -> B -> Prop) (R2 : C -> D -> Prop) x y : Prop :=
  R1 (fst x) (fst y) /\ R2 (snd x) (snd y).
Definition Ropt {A B} (R1 : A -> B -> Prop) x y : Prop :=
  match x, y with Some a, Some b => R1 a b | None, None => True | _, _ => False end.

(** ** Primitive steps *)
Lemma nth_rel p : Ropt tokrel (nth_error toks1 p) (nth_error toks2 p).
Proof.
  clear Hdc. revert p. induction HT as [|t1 t2 l1 l2 H F IH]; intros [|p]; cbn; auto.
Qed.
Lemma rel_peek : rel (Ropt tokrel) (peek toks1) (peek toks2).
Proof. intros p. cbn. split; auto. apply nth_rel. Qed.
Lemma tokrel_sp t1 t2 : tokrel t1 t2 -> Rsp (snd t1) (snd t2).
Proof. unfold tokrel, Rsp. tauto. Qed.
Lemma rel_span_at i : rel Rsp (span_at toks1 i) (span_at toks2 i).
Proof.
  unfold span_at. pose proof (nth_rel i). destruct (nth_error toks1 i), (nth_error toks2 i); cbn in *; try tauto.
  - apply rel_ret, tokrel_sp; auto.
  - apply rel_panic.
Qed.
Lemma rel_psub_eq a b : rel eq (psub a b) (psub a b).
Proof. unfold psub. destruct (b <=? a); [apply rel_ret; auto|apply rel_panic]. Qed.
Lemma rel_prev_end : rel Rend (prev_end toks1) (prev_end toks2).
Proof.
  unfold prev_end. eapply rel_bind; [apply rel_getpos|]. intros p ? <-.
  eapply rel_bind; [apply rel_psub_eq|]. intros q ? <-.
  eapply rel_bind; [apply rel_span_at|]. intros s1 s2 H. apply rel_ret. unfold Rend, Rsp, ok_span in *. tauto.
Qed.
Lemma rel_look {A} (Ra : A -> A -> Prop) k y1 y2 n1 n2 :
  (forall s1 s2, Rsp s1 s2 -> rel Ra (y1 s1) (y2 s2)) -> rel Ra n1 n2 ->
  rel Ra (look toks1 k y1 n1) (look toks2 k y2 n2).
Proof.
  intros Y N. unfold look. eapply rel_bind; [apply rel_peek|]. intros t1 t2 T.
  destruct t1 as [[t1 s1]|], t2 as [[t2 s2]|]; cbn in T; try tauto.
  pose proof (tokrel_sp _ _ T) as S. destruct T as (T & _). cbn in T.
  destruct t1 as [k'| | | | | | | |]; cbn in T; subst t2; auto.
  destruct (kind_eqb k k'); auto.
  eapply rel_bind; [apply rel_adv|]. intros _ _ _. apply Y. exact S.
Qed.
Lemma rel_look_dc {A} (Ra : A -> A -> Prop) y1 y2 n1 n2 :
  ((forall s, fv s = s) -> forall s1 s2, Rsp s1 s2 -> rel Ra (y1 s1) (y2 s2)) -> rel Ra n1 n2 ->
  rel Ra (look toks1 KDollarCurlyBracesOpen y1 n1) (look toks2 KDollarCurlyBracesOpen y2 n2).
Proof.
  intros Y N. destruct Hdc as [I|F].
  - apply rel_look; auto.
  - intros p. specialize (N p). unfold look, pbind, pcatch, peek.
    pose proof (nth_rel p) as T.
    destruct (nth_error toks1 p) as [[t1 s1]|] eqn:E1, (nth_error toks2 p) as [[t2 s2]|]; cbn in T; try tauto.
    apply nth_error_In in E1. rewrite Forall_forall in F. specialize (F _ E1). cbn in F.
    destruct T as (T & _). cbn in T.
    destruct t1 as [k'| | | | | | | |]; cbn in T; subst t2; auto.
    destruct (kind_eqb KDollarCurlyBracesOpen k') eqn:K; auto.
    apply kind_eqb_eq in K. congruence.
Qed.
Lemma rel_look_var {A} (Ra : A -> A -> Prop) y1 y2 n1 n2 :
  (forall v1 v2 s1 s2, R dVar v1 v2 -> Rsp s1 s2 -> rel Ra (y1 v1 s1) (y2 v2 s2)) -> rel Ra n1 n2 ->
  rel Ra (look_var toks1 y1 n1) (look_var toks2 y2 n2).
Proof.
  intros Y N. unfold look_var. eapply rel_bind; [apply rel_peek|]. intros t1 t2 T.
  destruct t1 as [[t1 s1]|], t2 as [[t2 s2]|]; cbn in T; try tauto.
  pose proof (tokrel_sp _ _ T) as S. destruct T as (T & G1 & G2 & _). cbn in T.
  destruct t1 as [k'| | | | | | | |]; cbn in T; subst t2; auto.
  eapply rel_bind; [apply rel_adv|]. intros _ _ _. apply Y; auto. cbn in *. repeat split; cbn; auto.
Qed.
Lemma rel_look_string {A} (Ra : A -> A -> Prop) y1 y2 n1 n2 :
  (forall v s1 s2, iI J v -> Rsp s1 s2 -> rel Ra (y1 v s1) (y2 v s2)) -> rel Ra n1 n2 ->
  rel Ra (look_string toks1 y1 n1) (look_string toks2 y2 n2).
Proof.
  intros Y N. unfold look_string. eapply rel_bind; [apply rel_peek|]. intros t1 t2 T.
  destruct t1 as [[t1 s1]|], t2 as [[t2 s2]|]; cbn in T; try tauto.
  pose proof (tokrel_sp _ _ T) as S. destruct T as (T & G1 & G2 & _). cbn in T.
  destruct t1 as [k'| | | | | | | |]; cbn in T; subst t2; auto.
  eapply rel_bind; [apply rel_adv|]. intros _ _ _. apply Y; auto.
Qed.
Lemma rel_look_ces {A} (Ra : A -> A -> Prop) y1 y2 n1 n2 :
  (forall v1 v2 s1 s2, R dStr v1 v2 -> Rsp s1 s2 -> rel Ra (y1 v1 s1) (y2 v2 s2)) -> rel Ra n1 n2 ->
  rel Ra (look_ces toks1 y1 n1) (look_ces toks2 y2 n2).
Proof.
  intros Y N. unfold look_ces. eapply rel_bind; [apply rel_peek|]. intros t1 t2 T.
  destruct t1 as [[t1 s1]|], t2 as [[t2 s2]|]; cbn in T; try tauto.
  pose proof (tokrel_sp _ _ T) as S. destruct T as (T & G1 & G2 & _). cbn in T.
  destruct t1 as [k'| | | | | | | |]; cbn in T; subst t2; auto.
  eapply rel_bind; [apply rel_adv|]. intros _ _ _. apply Y; auto. cbn in *. repeat split; cbn; auto.
Qed.
Lemma rel_sees k : rel eq (sees toks1 k) (sees toks2 k).
Proof.
  unfold sees. eapply rel_bind; [apply rel_peek|]. intros t1 t2 T.
  destruct t1 as [[t1 s1]|], t2 as [[t2 s2]|]; cbn in T; try tauto; [|apply rel_ret; auto].
  destruct T as (T & _). cbn in T.
  destruct t1 as [k'| | | | | | | |]; cbn in T; subst t2; apply rel_ret; auto.
Qed.

(** ** Closing the goals about results *)
Lemma Bp x : iB J x -> iB J (x - 1).
Proof. apply (ok_Bpred J HJ). Qed.
Lemma DN : iD J None.
Proof. apply (ok_D J HJ). Qed.
Hint Resolve Bp DN same21 same2_pred : rel.
Lemma path1 abs s : iI J s -> ok_path J (path_identifier abs s).
Proof. intros. exists abs, [s]. repeat split; [discriminate|auto]. Qed.
Lemma static_path : ok_path J (path_identifier false (s2l "static")).
Proof. apply path1. apply (ok_repr J HJ KStatic). reflexivity. Qed.
Hint Resolve path1 static_path : rel.
Lemma e_start e : Forall (ok_atom J) (atoms_expr e) -> iB J (sp_start (espan e)).
Proof. destruct e; cbn. intros H. inversion H; subst. apply H2. Qed.
Lemma e_end e : Forall (ok_atom J) (atoms_expr e) -> iB J (sp_end (espan e)).
Proof. destruct e; cbn. intros H. inversion H; subst. apply H2. Qed.
Lemma e_doc e : Forall (ok_atom J) (atoms_expr e) -> iD J (sp_doc (espan e)).
Proof. destruct e; cbn. intros H. inversion H; subst. apply H2. Qed.
Lemma e_node e : Forall (ok_atom J) (atoms_expr e) -> Forall (ok_atom J) (atoms_expr_ (enode e)).
Proof. destruct e; cbn. intros H. inversion H; auto. Qed.
Lemma node_map f g a b : map_expr f a = map_expr g b -> map_expr_ f (enode a) = map_expr_ g (enode b).
Proof. destruct a, b; cbn. congruence. Qed.
Hint Resolve e_start e_end e_doc e_node node_map : rel.

Ltac unf :=
  unfold RE, R, Rsp, Rsp1, Rspw, Rend, Rpair, Ropt, ok_span, strip_expr, strip_stmt in *;
  cbn [d_map d_str d_at dE dEn dS dSn dPar dFun dMem dCat dCase dV dVar dId dP dStr dTy dTU dUse dK dC dPl dL dO dX
       fst snd espan enode sspan snode estart eend mk_span sp_start sp_end sp_doc set_start set_end
       map_expr map_expr_ map_variable map_fundecl map_param map_stmt map_stmt_ map_decl map_member map_catch map_swcase
       atoms_expr atoms_expr_ atoms_variable atoms_fundecl atoms_param atoms_stmt atoms_stmt_ atoms_decl atoms_member
       atoms_catch atoms_swcase opt_atoms flat_map map option_map app ok_atom atoms_ty atoms_use atoms_trait_use uc_path uc_alias] in *;
  cbn [M1 no_spans m_sp m_var m_int m_dbl m_str] in *;
  unfold id, estart, eend, mk_span, set_start, set_end in *;
  cbn [espan sp_start sp_end sp_doc] in *.
Ltac split_hyps :=
  repeat match goal with
  | H : _ /\ _ |- _ => destruct H
  | H : Forall _ (_ ++ _) |- _ => apply Forall_app in H
  | H : Forall _ (_ :: _) |- _ => apply Forall_cons_iff in H
  | H : Forall _ [] |- _ => clear H
  | H : ok_atom _ (ASpan _) |- _ => unfold ok_atom, ok_span in H; cbn [sp_start sp_end sp_doc] in H
  | H : ok_span _ _ |- _ => unfold ok_span in H; cbn [sp_start sp_end sp_doc] in H
  end.
Ltac fin :=
  unf; split_hyps;
  unf; repeat rewrite map_app; repeat rewrite flat_map_app; unf; rewrite ?app_nil_r;
  repeat match goal with
  | |- _ /\ _ => split
  | |- Forall _ (_ ++ _) => apply Forall_app
  | |- Forall _ (_ :: _) => apply Forall_cons
  | |- Forall _ [] => apply Forall_nil
  | |- ok_atom _ (ASpan _) => unfold ok_atom, ok_span; cbn [sp_start sp_end sp_doc]
  | |- ok_span _ _ => unfold ok_span; cbn [sp_start sp_end sp_doc]
  end; cbn [ok_atom] in *;
  try solve [auto 4 with rel | congruence | f_equal; auto 4 with rel].

Create HintDb relp.
Ltac st0 :=
  match goal with
  | |- rel _ (pbind getpos _) _ => eapply rel_bind; [apply rel_getpos|intros ? ? <-]
  | |- rel _ (pbind (peek _) _) _ => eapply rel_bind; [apply rel_peek|intros ? ? ?]
  | |- rel _ (pbind (setpos _) _) _ => eapply rel_bind; [apply rel_setpos|intros _ _ _]
  | |- rel _ (pbind adv _) _ => eapply rel_bind; [apply rel_adv|intros _ _ _]
  | |- rel _ (pbind (prev_end _) _) _ => eapply rel_bind; [apply rel_prev_end|intros ? ? ?]
  | |- rel _ (pbind (span_at _ _) _) _ => eapply rel_bind; [apply rel_span_at|intros ? ? ?]
  | |- rel _ (pbind (sees _ _) _) _ => eapply rel_bind; [apply rel_sees|intros ? ? <-]
  | |- rel _ (pbind _ _) _ => eapply rel_bind; [solve [eauto 2 with relp nocore]|cbv beta; intros ? ? ?]
  | |- rel _ (pcatch _ _ _) _ => eapply rel_catch; [solve [eauto 2 with relp nocore]|cbv beta; intros ? ? ?|intros ?]
  | |- rel _ (deepest _ _ _) _ => apply rel_deepest; [|intros ?]
  | |- rel _ (deepest_unpack _) _ => apply rel_unpack
  | |- rel _ (pret _) _ => apply rel_ret
  | |- rel _ (perr _) _ => apply rel_err
  | |- rel _ (pthrow _) _ => apply rel_throw
  | |- rel _ (ppanic _) _ => apply rel_panic
  | |- rel _ pfuel _ => apply rel_fuel
  | |- rel _ (look _ _ _ _) _ => apply rel_look; [intros ? ? ?|]
  | |- rel _ (look_var _ _ _) _ => apply rel_look_var; [intros ? ? ? ? ? ?|]
  | |- rel _ (look_string _ _ _) _ => apply rel_look_string; [intros ? ? ? ? ?|]
  | |- rel _ (look_ces _ _ _) _ => apply rel_look_ces; [intros ? ? ? ? ? ?|]
  | |- rel _ (if ?b then _ else _) (if ?b then _ else _) => destruct b
  | |- rel _ _ _ => solve [eauto 2 with relp nocore]
  end.
Ltac st := cbv beta zeta; st0; cbv beta zeta.
Ltac go := rewrite ?lf_eq; repeat st; try solve [fin].

Lemma expect_r k : rel Rsp (expect toks1 k) (expect toks2 k).
Proof. unfold expect. go. Qed.
Lemma expect_var_r : rel (R dVar) (expect_var toks1) (expect_var toks2).
Proof. unfold expect_var. go. Qed.
Lemma expect_string_r : rel (R dId) (expect_string toks1) (expect_string toks2).
Proof. unfold expect_string. go. Qed.
Lemma expect_or_r k e : rel Rsp (expect_or toks1 k e) (expect_or toks2 k e).
Proof. unfold expect_or. go. destruct e; go. Qed.
Hint Resolve expect_r expect_var_r expect_string_r expect_or_r : relp.
Lemma psv_r : rel (Rpair (R dV) Rsp) (parse_simple_variable toks1) (parse_simple_variable toks2).
Proof. unfold parse_simple_variable. go. Qed.
Hint Resolve psv_r : relp.
Lemma psve_r : rel RE (parse_simple_variable_expr toks1) (parse_simple_variable_expr toks2).
Proof. unfold parse_simple_variable_expr. go. Qed.
Hint Resolve psve_r : relp.
Lemma is_ref_r : rel eq (parse_is_ref toks1) (parse_is_ref toks2).
Proof. unfold parse_is_ref. go. Qed.
Lemma is_variadic_r : rel eq (parse_is_variadic toks1) (parse_is_variadic toks2).
Proof. unfold parse_is_variadic. go. Qed.
Hint Resolve is_ref_r is_variadic_r : relp.

(** the next token on both sides *)
Ltac tk :=
  match goal with
  | H : Ropt tokrel ?a ?b |- _ =>
    destruct a as [[? ?]|], b as [[? ?]|]; cbn in H; try (exfalso; exact H);
    [let S := fresh "S" in let G1 := fresh "G" in let G2 := fresh "G" in
     pose proof (tokrel_sp _ _ H) as S; destruct H as (H & G1 & G2 & _); cbn in H, G1, G2, S;
     match type of H with map_tok _ _ _ _ ?x = ?y => destruct x; cbn in H; subst y; cbn in G1, G2 end | ]
  end.

(** names *)
Definition Rfr (l1 l2 : list (str * span)) : Prop :=
  Forall2 (fun a b => fst a = fst b /\ iI J (fst a) /\ Rsp (snd a) (snd b)) l1 l2.
Lemma Rfr_app l1 l2 s s1 s2 : Rfr l1 l2 -> iI J s -> Rsp s1 s2 -> Rfr (l1 ++ [(s, s1)]) (l2 ++ [(s, s2)]).
Proof. intros. apply Forall2_app; auto. Qed.
Lemma ns_fragments_r n : forall l1 l2, Rfr l1 l2 ->
  rel (fun a b => Rfr a b /\ a <> []) (ns_fragments toks1 n l1) (ns_fragments toks2 n l2).
Proof.
  induction n; intros l1 l2 H; cbn [ns_fragments]; [apply rel_fuel|].
  st; [|st]. pose proof (Rfr_app _ _ _ _ _ H H0 H1).
  assert (l1 ++ [(v, s1)] <> []) by (destruct l1; discriminate).
  st. st; [|st; auto]. st. tk; try (apply IHn; assumption); repeat st; auto.
Qed.
Lemma Rfr_map l1 l2 : Rfr l1 l2 -> map fst l1 = map fst l2 /\ Forall (iI J) (map fst l1).
Proof. induction 1 as [|? ? ? ? (? & ? & ?)]; cbn; auto. destruct IHForall2. split; auto. congruence. Qed.
Lemma path_of_fragments_spec l : l <> [] -> path_of_fragments l = path_of false (map fst l).
Proof.
  destruct l as [|a [|b l]]; [congruence|reflexivity|]. intros _.
  unfold path_of_fragments, path_of, path_ns_identifier.
  assert (G : forall (l : list (str * span)) d, map fst (removelast l) = removelast (map fst l) /\ fst (last l d) = last (map fst l) (fst d)).
  { clear. induction l as [|a [|b l] IH]; intros d; cbn in *; auto. destruct (IH d) as [-> ?]. auto. }
  destruct (G (a :: b :: l) ([], span_new)) as [-> ->]. cbn. reflexivity.
Qed.
Lemma Rfr_path l1 l2 : Rfr l1 l2 -> l1 <> [] ->
  path_of_fragments l1 = path_of_fragments l2 /\ path_of_fragments l1 = path_of false (map fst l1) /\ Forall (iI J) (map fst l1).
Proof.
  intros H N. assert (l2 <> []) by (destruct H; congruence).
  destruct (Rfr_map _ _ H) as [E F]. rewrite !path_of_fragments_spec by auto. rewrite E. rewrite E in F. auto.
Qed.
Lemma Rfr_last l1 l2 d1 d2 : Rfr l1 l2 -> l1 <> [] -> Rsp (snd (last l1 d1)) (snd (last l2 d2)).
Proof.
  induction 1 as [|? ? ? ? (? & ? & ?) F]; [congruence|]. intros _. destruct F; cbn in *; auto.
  apply IHF. congruence.
Qed.
Lemma Rfr_span l1 l2 : Rfr l1 l2 -> l1 <> [] -> Rsp (span_of_fragments l1) (span_of_fragments l2).
Proof.
  intros H N. pose proof (Rfr_last l1 l2 ([], span_new) ([], span_new) H N).
  unfold span_of_fragments. destruct H as [|? ? ? ? (? & ? & ?)]; [congruence|]. cbn [hd]. fin.
Qed.
(** the result of [parse_namespace_name], with either flag it is a good path *)
Definition Rname (a b : path * span) : Prop :=
  fst a = fst b /\ (forall abs, ok_path J (mkPath abs (namespace (fst a)) (identifier (fst a)))) /\ Rsp (snd a) (snd b).
Lemma namespace_name_r : rel Rname (parse_namespace_name toks1) (parse_namespace_name toks2).
Proof.
  unfold parse_namespace_name. rewrite lf_eq. eapply rel_bind; [apply ns_fragments_r; constructor|].
  intros l1 l2 [H N]. st. destruct (Rfr_path _ _ H N) as (E & P & F). repeat split; cbn [fst snd].
  - exact E.
  - intros abs. rewrite P. exists abs, (map fst l1). repeat split; auto. destruct l1; cbn; congruence.
  - apply (Rfr_span _ _ H N).
  - apply (Rfr_span _ _ H N).
  - apply (Rfr_span _ _ H N).
  - apply (Rfr_span _ _ H N).
  - apply (Rfr_span _ _ H N).
  - apply (Rfr_span _ _ H N).
  - apply (Rfr_span _ _ H N).
Qed.
Hint Resolve namespace_name_r : relp.
Lemma rel_psub1 a b : same2 a b -> iB J a -> iB J b ->
  rel (fun x y => same1 x y /\ iB J x /\ iB J y) (psub a 1) (psub b 1).
Proof.
  intros H B1 B2. unfold psub. pose proof (same21 _ _ H) as H1. rewrite (same1_sub _ _ H1).
  destruct (1 <=? b) eqn:E; [apply rel_ret|apply rel_panic]. auto with rel.
Qed.
Definition Rpath := Rpair (R dP) Rsp1.
Lemma mk_path_eta p : mkPath (is_absolute p) (namespace p) (identifier p) = p.
Proof. destruct p; reflexivity. Qed.
Lemma flag_r k : rel eq (look toks1 k (fun _ => pret true) (pret false)) (look toks2 k (fun _ => pret true) (pret false)).
Proof. go. Qed.
Hint Resolve flag_r : relp.
Lemma parse_name_r : rel Rpath (parse_name toks1) (parse_name toks2).
Proof.
  unfold parse_name. st. subst. st. destruct H as (E & P & S). destruct b.
  - unfold Rsp, ok_span in S. eapply rel_bind; [apply rel_psub1; tauto|]. intros x y ?. st.
    unfold Rpath. fin; rewrite <- ?E; auto.
  - st. pose proof (P (is_absolute (fst a))) as Q. rewrite mk_path_eta in Q.
    unfold Rpath. fin; rewrite <- ?E; auto.
Qed.
Hint Resolve parse_name_r : relp.
Ltac go1 := go; unfold Rpath in *; fin.
Lemma parse_name_as_expr_r : rel RE (parse_name_as_expr toks1) (parse_name_as_expr toks2).
Proof. unfold parse_name_as_expr. go1. Qed.
Hint Resolve parse_name_as_expr_r : relp.
Lemma name_list_r n : forall a b, R dPl a b -> rel (R dPl) (name_list toks1 n a) (name_list toks2 n b).
Proof.
  induction n; intros; cbn [name_list]; [st|]. st. st; [apply IHn|st]; unfold Rpath in *; fin.
Qed.
Lemma parse_name_list_r : rel (R dPl) (parse_name_list toks1) (parse_name_list toks2).
Proof. unfold parse_name_list. rewrite lf_eq. apply name_list_r. fin. Qed.
Hint Resolve parse_name_list_r : relp.
Lemma parse_class_name_r : rel RE (parse_class_name toks1) (parse_class_name toks2).
Proof. unfold parse_class_name. go1. Qed.
Hint Resolve parse_class_name_r : relp.
Lemma parse_identifier_r : rel (Rpair (R dId) Rsp) (parse_identifier toks1) (parse_identifier toks2).
Proof.
  unfold parse_identifier. st. tk; try solve [st].
  - destruct (is_reserved_non_modifier k); [|st]. st. destruct (repr k) eqn:E; [|st]. st.
    apply (ok_repr J HJ) in E. fin.
  - st. st. fin.
Qed.
Hint Resolve parse_identifier_r : relp.
Lemma parse_identifier_as_expr_r : rel RE (parse_identifier_as_expr toks1) (parse_identifier_as_expr toks2).
Proof. unfold parse_identifier_as_expr. go1. Qed.
Hint Resolve parse_identifier_as_expr_r : relp.
Lemma resolve_constant_r a b : RE a b -> RE (resolve_constant a) (resolve_constant b).
Proof.
  intros H. destruct a as [n1 s1], b as [n2 s2]. pose proof H as [[E _] _]. cbn in E.
  destruct n1; destruct n2; try discriminate E; try exact H. cbn [resolve_constant].
  cbn in E. injection E as ->. destruct (namespace p0); [exact H|].
  destruct (str_eqb _ _); [|destruct (str_eqb _ _); [|destruct (str_eqb _ _)]]; fin.
Qed.
Lemma parse_constant_r : rel RE (parse_constant toks1) (parse_constant toks2).
Proof. unfold parse_constant. st. apply resolve_constant_r in H. go1. Qed.
Hint Resolve parse_constant_r : relp.
Lemma member_mods_r n : forall a, rel eq (member_mods toks1 n a) (member_mods toks2 n a).
Proof. induction n; intros; cbn [member_mods]; [st|]. repeat (st; [apply IHn|]). st. auto. Qed.
Lemma parse_member_modifiers_r : rel eq (parse_member_modifiers toks1) (parse_member_modifiers toks2).
Proof. unfold parse_member_modifiers. rewrite lf_eq. apply member_mods_r. Qed.
Lemma class_mods_r n : forall a, rel eq (class_mods toks1 n a) (class_mods toks2 n a).
Proof. induction n; intros; cbn [class_mods]; [st|]. repeat (st; [apply IHn|]). st. auto. Qed.
Hint Resolve parse_member_modifiers_r class_mods_r : relp.
Lemma patmr_r : rel (R (dX dP dId)) (parse_absolute_trait_method_reference toks1) (parse_absolute_trait_method_reference toks2).
Proof. unfold parse_absolute_trait_method_reference. go1. Qed.
Hint Resolve patmr_r : relp.

(** ** The mutually recursive part *)
Section Knot.
Variables (pe1 pe2 : nat -> P expr) (ps1 ps2 : P stmt).
Hypothesis Hpe : forall n, rel RE (pe1 n) (pe2 n).
Hypothesis Hps : rel (R dS) ps1 ps2.
Hint Resolve Hpe Hps : relp.

Lemma parse_opt_expression_r n : rel (R (dO dE)) (parse_opt_expression pe1 n) (parse_opt_expression pe2 n).
Proof. unfold parse_opt_expression. go1. Qed.
Hint Resolve parse_opt_expression_r : relp.
Lemma expression_list_r n : forall a b, R (dL dE) a b ->
  rel (R (dL dE)) (expression_list toks1 pe1 n a) (expression_list toks2 pe2 n b).
Proof. induction n; intros; cbn [expression_list]; [st|]. st. st; [apply IHn|st]; fin. Qed.
Lemma parse_expression_list_r : rel (R (dL dE)) (parse_expression_list toks1 pe1) (parse_expression_list toks2 pe2).
Proof. unfold parse_expression_list. rewrite lf_eq. apply expression_list_r. fin. Qed.
Lemma argument_list_r n : forall a b, R (dL dE) a b ->
  rel (R (dL dE)) (argument_list toks1 pe1 n a) (argument_list toks2 pe2 n b).
Proof.
  induction n; intros; cbn [argument_list]; [st|].
  eapply rel_bind with (R := Ropt Rend). go1. intros x y ?.
  st. destruct x, y; cbn in H0; try tauto; st; [apply IHn|st|apply IHn|st]; fin.
Qed.
Lemma parse_argument_list_r : rel (R (dL dE)) (parse_argument_list toks1 pe1) (parse_argument_list toks2 pe2).
Proof.
  unfold parse_argument_list. rewrite lf_eq. st. st; [st; fin|].
  eapply rel_bind; [apply argument_list_r; fin|]. intros. go1.
Qed.
Hint Resolve parse_expression_list_r parse_argument_list_r : relp.
Definition dKV := dX (dO dE) dE.
Lemma array_pairs_r n : forall a b, R (dL dKV) a b ->
  rel (R (dL dKV)) (array_pairs toks1 pe1 n a) (array_pairs toks2 pe2 n b).
Proof.
  induction n; intros; cbn [array_pairs]; [st|].
  st; [|st; auto].
  eapply rel_bind with (R := R dKV). go; unfold dKV; fin. intros x y ?.
  st; [apply IHn|st]; unfold dKV in *; fin.
Qed.
Lemma parse_array_pair_list_r : rel (R (dL dKV)) (parse_array_pair_list toks1 pe1) (parse_array_pair_list toks2 pe2).
Proof. unfold parse_array_pair_list. rewrite lf_eq. apply array_pairs_r. fin. Qed.
Hint Resolve parse_array_pair_list_r : relp.
Lemma pds_r : rel RE (parse_dereferencable_scalar toks1 pe1) (parse_dereferencable_scalar toks2 pe2).
Proof. unfold parse_dereferencable_scalar. go; unfold dKV in *; fin. Qed.
Hint Resolve pds_r : relp.
Lemma ppn_r : rel RE (parse_property_name toks1 pe1) (parse_property_name toks2 pe2).
Proof. unfold parse_property_name. go1. Qed.
Hint Resolve ppn_r : relp.
Lemma parse_base_variable_r s : rel RE (parse_base_variable toks1 pe1 s) (parse_base_variable toks2 pe2 s).
Proof. unfold parse_base_variable. destruct s; go1. Qed.
Hint Resolve parse_base_variable_r : relp.
Lemma parse_const_scoped_r s : rel RE (parse_const_scoped toks1 s) (parse_const_scoped toks2 s).
Proof. unfold parse_const_scoped. destruct s; go1. Qed.
Hint Resolve parse_const_scoped_r : relp.
Lemma pfcbi_r s : rel RE (parse_fn_call_base_item toks1 s) (parse_fn_call_base_item toks2 s).
Proof. unfold parse_fn_call_base_item. destruct s; go1. Qed.
Hint Resolve pfcbi_r : relp.
Ltac push H :=
  let E := fresh "E" in
  match type of H with RE ?a ?b =>
    destruct a as [n1 ?], b as [n2 ?]; pose proof H as [[E _] _]; cbn in E;
    destruct n1; destruct n2; try discriminate E
  end.
Lemma push_idx_r a b i j x y : RE a b -> R (dO dE) i j -> Rend x y -> RE (push_idx a i x) (push_idx b j y).
Proof. intros H I X. push H; cbn [push_idx]; fin. Qed.
Lemma push_prop_r a b i j x y : RE a b -> RE i j -> Rend x y -> RE (push_prop a i x) (push_prop b j y).
Proof. intros H I X. push H; cbn [push_prop]; fin. Qed.
Lemma push_static_r a b i j x y : RE a b -> RE i j -> Rend x y -> RE (push_static a i x) (push_static b j y).
Proof. intros H I X. push H; cbn [push_static]; fin. Qed.
Hint Resolve push_idx_r push_prop_r push_static_r : rel.
Lemma ecall_r a b l1 l2 x y : RE a b -> R (dL dE) l1 l2 -> Rend x y ->
  RE (Ex (ECall a l1) (mk_span (estart a) x)) (Ex (ECall b l2) (mk_span (estart b) y)).
Proof. intros. fin. Qed.
Hint Resolve ecall_r : rel.
Lemma appendixes_r n s : forall a b, RE a b -> rel RE (appendixes toks1 pe1 n s a) (appendixes toks2 pe2 n s b).
Proof.
  induction n; intros; cbn [appendixes]; [st|].
  destruct s; repeat first [apply IHn | st]; auto with rel.
Qed.
Lemma variable_base_r s : rel RE (variable_base toks1 pe1 s) (variable_base toks2 pe2 s).
Proof. unfold variable_base. repeat st; auto. Qed.
Hint Resolve variable_base_r : relp.
Lemma parse_variable_n s : rel RE (parse_variable toks1 pe1 s None) (parse_variable toks2 pe2 s None).
Proof. unfold parse_variable. st. rewrite lf_eq. apply appendixes_r. auto. Qed.
Lemma parse_variable_s s a b : RE a b -> rel RE (parse_variable toks1 pe1 s (Some a)) (parse_variable toks2 pe2 s (Some b)).
Proof. intros. unfold parse_variable. eapply rel_bind; [apply rel_ret; eassumption|]. intros. rewrite lf_eq. apply appendixes_r. auto. Qed.
Hint Resolve parse_variable_n parse_variable_s : relp.
Lemma pcnr_r : rel RE (parse_class_name_reference toks1 pe1) (parse_class_name_reference toks2 pe2).
Proof. unfold parse_class_name_reference. repeat st; auto. Qed.
Hint Resolve pcnr_r : relp.
Lemma inst_same a b : RE a b -> (exists x y sp, a = Ex (EInstanceOf x y) sp) <-> (exists x y sp, b = Ex (EInstanceOf x y) sp).
Proof. intros H. push H; split; intros (? & ? & ? & ?); try discriminate; eauto. Qed.
Lemma rel_unwrap {A} (o : option A) : rel eq (unwrap_p o) (unwrap_p o).
Proof. destruct o; [apply rel_ret; auto|apply rel_panic]. Qed.
Hint Resolve rel_unwrap rel_psub_eq : relp.
Lemma pbe_r a b n : RE a b ->
  rel (Ropt RE) (parse_binary_expression toks1 pe1 a n) (parse_binary_expression toks2 pe2 b n).
Proof.
  intros H. unfold parse_binary_expression. st.
  assert (BIN : forall k np, rel (Ropt RE)
    (o <~ unwrap_p (binop_of k) ;;
     np' <~ match assoc_right k with Some true => psub np 1 | Some false => pret np | None => ppanic PUnimplemented end ;;
     right <~ pe1 np' ;; pret (Some (Ex (EBinary o a right) (mk_span (estart a) (eend right)))))
    (o <~ unwrap_p (binop_of k) ;;
     np' <~ match assoc_right k with Some true => psub np 1 | Some false => pret np | None => ppanic PUnimplemented end ;;
     right <~ pe2 np' ;; pret (Some (Ex (EBinary o b right) (mk_span (estart b) (eend right)))))).
  { intros k np. st. subst. eapply rel_bind with (R := eq).
    - destruct (assoc_right k) as [[]|]; [apply rel_psub_eq|st; auto|st].
    - intros ? ? <-. st. st. cbn. fin. }
  tk; try (st; cbn; exact I).
  destruct (precedence k) as [np|] eqn:E; [|st; cbn; exact I].
  destruct (np <=? n); [st; cbn; exact I|]. st.
  destruct k; try discriminate E; try apply BIN.
  - repeat st. cbn. fin.
  - push H; repeat st; cbn; fin.
Qed.
Lemma binary_loop_r n p : forall a b, RE a b -> rel RE (binary_loop toks1 pe1 n p a) (binary_loop toks2 pe2 n p b).
Proof.
  induction n; intros; cbn [binary_loop]; [st|].
  eapply rel_catch; [apply pbe_r; eassumption| |].
  - intros [x|] [y|] K; cbn in K; try tauto; [auto|st; auto].
  - intros. st. auto.
Qed.

(** statements *)
Lemma extract_block_r : rel (Rpair (R (dL dS)) Rspw) (parse_statement_extract_block ps1) (parse_statement_extract_block ps2).
Proof.
  unfold parse_statement_extract_block. st. destruct a as [n1 s1], b as [n2 s2]. pose proof H as [E _]. cbn in E.
  destruct n1; destruct n2; try discriminate E; st; fin.
Qed.
Hint Resolve extract_block_r : relp.
Definition Rwe {A B} (R : A -> B -> Prop) := Rpair R (@eq (option perror)).
Lemma inner_statements_r n : forall a b, R (dL dS) a b ->
  rel (Rwe (R (dL dS))) (inner_statements toks1 ps1 n a) (inner_statements toks2 ps2 n b).
Proof.
  induction n; intros; cbn [inner_statements]; [st|]. st. rewrite len_eq. st.
  - st; [apply IHn|st; split]; fin.
  - st. split; auto.
Qed.
Lemma nil_eq : toks1 = [] <-> toks2 = [].
Proof. clear Hdc Hps Hpe. destruct HT; split; congruence. Qed.
Lemma pisl_r : rel (Rwe (R (dL dS))) (parse_inner_statement_list toks1 ps1) (parse_inner_statement_list toks2 ps2).
Proof.
  unfold parse_inner_statement_list. rewrite lf_eq.
  pose proof (inner_statements_r (lf toks1) [] []) as K. pose proof nil_eq.
  destruct toks1 eqn:E1, toks2 eqn:E2; try (intuition discriminate); [st|].
  apply K. fin.
Qed.
Hint Resolve pisl_r : relp.

Definition dOTy := dC (opt_atoms atoms_ty).
Definition Rpt (x y : option ty + perror) : Prop :=
  match x, y with inl a, inl b => R dOTy a b | inr a, inr b => a = b | _, _ => False end.
Lemma parse_param_type_r : rel Rpt (parse_param_type toks1) (parse_param_type toks2).
Proof.
  unfold parse_param_type. st. subst.
  repeat st; cbn [Rpt]; unfold dOTy, Rpath in *; fin.
Qed.
Lemma parameter_list_r n : forall a b, R (dL dPar) a b ->
  rel (Rwe (R (dL dPar))) (parameter_list toks1 pe1 n a) (parameter_list toks2 pe2 n b).
Proof.
  induction n; intros; cbn [parameter_list]; [st|].
  eapply rel_bind; [apply parse_param_type_r|]. intros [x|x] [y|y] K; cbn in K; try tauto.
  - unfold dOTy in K. st. subst. st. subst.
    assert (PUSH : forall v1 v2 d1 d2, R dVar v1 v2 -> R (dO dE) d1 d2 ->
      rel (Rwe (R (dL dPar)))
        (look toks1 KComma (fun _ => parameter_list toks1 pe1 n (a ++ [mkParam v1 b0 b1 x d1]))
           (pret (a ++ [mkParam v1 b0 b1 x d1], None)))
        (look toks2 KComma (fun _ => parameter_list toks2 pe2 n (b ++ [mkParam v2 b0 b1 y d2]))
           (pret (b ++ [mkParam v2 b0 b1 y d2], None)))).
    { intros. st; [apply IHn|st; split]; fin. }
    st.
    + st; [|apply PUSH; fin]. st; [apply PUSH; fin|st; split; fin].
    + st. st. split; fin.
  - st. subst. split; fin.
Qed.
Lemma parse_parameter_list_r : rel (Rwe (R (dL dPar))) (parse_parameter_list toks1 pe1) (parse_parameter_list toks2 pe2).
Proof. unfold parse_parameter_list. rewrite lf_eq. apply parameter_list_r. fin. Qed.
Hint Resolve parse_parameter_list_r : relp.
Definition dUV : desc (list (bool * str)) :=
  mkDesc (map (fun u => match u with (ref, v) => (ref, fv v) end)) (map (fun u => match u with (ref, v) => (ref, v) end))
    (flat_map (fun u => match u with (ref, v) => [AVarName v] end)).
Lemma use_vars_r n : forall a b, R dUV a b -> rel (R dUV) (use_vars toks1 n a) (use_vars toks2 n b).
Proof.
  induction n; intros; cbn [use_vars]; [st|]. st. subst. st.
  st; [apply IHn|st]; unfold dUV in *; fin.
Qed.
Definition Rfd (x y : stmt) : Prop := R dS x y /\
  match x, y with
  | St (SExpr a) _, St (SExpr b) _ => RE a b
  | St (SDecl (DFunction n d)) _, St (SDecl (DFunction n' d')) _ => n = n' /\ iI J n /\ R dFun d d'
  | _, _ => False
  end.
Lemma pfd_r s1 s2 cl ab : Rsp s1 s2 ->
  rel Rfd (parse_function_declaration toks1 pe1 ps1 s1 cl ab) (parse_function_declaration toks2 pe2 ps2 s2 cl ab).
Proof.
  intros S. unfold parse_function_declaration. st. subst.
  eapply rel_bind with (R := R (dC (opt_atoms (fun s => [AIdent s])))).
  { destruct cl; go1. }
  intros nm1 nm2 NM. st. st. destruct H0 as [PL PE].
  eapply rel_bind with (R := fun _ _ => True).
  { st; [st; auto|]. rewrite PE. destruct (snd b1); st. }
  intros _ _ _.
  eapply rel_bind with (R := R dUV).
  { destruct cl; [|st; unfold dUV; fin]. st; [|st; unfold dUV; fin]. st. rewrite lf_eq.
    eapply rel_bind; [apply use_vars_r; unfold dUV; fin|]. intros. go1. }
  intros uv1 uv2 UV. eapply rel_bind with (R := eq).
  { destruct ab; go1. }
  intros nb ? <-.
  eapply rel_bind with (R := R (dO (dL dS))).
  { destruct nb; [go1|]. st. st. destruct H1 as [B1 B2]. rewrite B2. st. st. fin. }
  intros b1' b2' BB. st. st. unfold dUV in *.
  assert (R dFun (mkFun (fst a0) b1' uv1 b) (mkFun (fst b1) b2' uv2 b)) by fin.
  assert (nm1 = nm2) by (destruct NM; auto). subst nm2.
  destruct nm1; (split; [fin|fin]).
Qed.
Definition dOP := dC (opt_atoms (fun p => [APath p])).
Definition dTUl := dC (flat_map atoms_trait_use).
Definition dref := dC (opt_atoms (fun x : option path * str => match x with (p, m) => opt_atoms (fun p => [APath p]) p ++ [AIdent m] end)).
Lemma trait_uses_r n : forall f a b, R dTUl a b -> rel (R dTUl) (trait_uses toks1 n f a) (trait_uses toks2 n f b).
Proof.
  induction n; intros; cbn [trait_uses]; [st|].
  eapply rel_bind with (R := eq). { destruct f; go1. }
  intros _ _ _. st.
  eapply rel_bind with (R := R dref).
  { unfold dref. st; [match goal with H : R (dX _ _) ?x ?y |- _ => destruct x, y end; st; fin|]. st. st; st; fin. }
  intros r1 r2 K. assert (r1 = r2) by apply K. subst r2.
  destruct r1 as [[pa m]|]; [|st; auto].
  assert (AS : rel (R dTUl)
     (look toks1 KAs (fun _ => look_string toks1 (fun s _ => trait_uses toks1 n false (a ++ [TUAs pa m member_modifiers_none (Some s)])) (ppanic PUnimplemented))
        (trait_uses toks1 n false a))
     (look toks2 KAs (fun _ => look_string toks2 (fun s _ => trait_uses toks2 n false (b ++ [TUAs pa m member_modifiers_none (Some s)])) (ppanic PUnimplemented))
        (trait_uses toks2 n false b))).
  { st; [st; [|st]|]; apply IHn; unfold dTUl, dref in *; fin. }
  destruct pa; [|exact AS]. st; [|exact AS]. st. apply IHn. unfold dTUl, dref in *; fin.
Qed.
Lemma class_consts_r n m : forall a b, R (dL dMem) a b -> rel (R (dL dMem)) (class_consts toks1 pe1 n m a) (class_consts toks2 pe2 n m b).
Proof. induction n; intros; cbn [class_consts]; [st|]. do 3 st. st; [apply IHn|st]; fin. Qed.
Lemma opt_default_r : rel (R (dO dE)) (look toks1 KEqual (fun _ => e <~ pe1 PrNone ;; pret (Some e)) (pret None))
   (look toks2 KEqual (fun _ => e <~ pe2 PrNone ;; pret (Some e)) (pret None)).
Proof. go1. Qed.
Hint Resolve opt_default_r : relp.
Lemma class_props_r n m : forall a b, R (dL dMem) a b -> rel (R (dL dMem)) (class_props toks1 pe1 n m a) (class_props toks2 pe2 n m b).
Proof. induction n; intros; cbn [class_props]; [st|]. do 2 st. st; [apply IHn|st]; fin. Qed.
Lemma pcs_r : rel (R (dL dMem)) (parse_class_statement toks1 pe1 ps1) (parse_class_statement toks2 pe2 ps2).
Proof.
  unfold parse_class_statement. cbv zeta. rewrite lf_eq.
  assert (PR : forall m, rel (R (dL dMem))
     (l <~ class_props toks1 pe1 (lf toks1) m [] ;; expect toks1 KSemiColon ;~ pret l)
     (l <~ class_props toks2 pe2 (lf toks1) m [] ;; expect toks2 KSemiColon ;~ pret l)).
  { intros m. eapply rel_bind; [apply class_props_r; fin|]. intros. go1. }
  st; [apply PR|]. st. subst. st; [|st; [|st]].
  - st. st; [st; fin|]. st. st; [st; fin|].
    eapply rel_bind; [apply trait_uses_r; unfold dTUl; fin|]. intros. unfold dTUl in *. go1.
  - eapply rel_bind; [apply pfd_r; eassumption|]. intros x y [_ K].
    destruct x as [n1 ?], y as [n2 ?]; destruct n1; destruct n2; try contradiction;
      repeat match goal with d : decl |- _ => destruct d; try contradiction end; st.
    destruct K as [-> K]. fin.
  - eapply rel_bind; [apply class_consts_r; fin|]. intros. go1.
  - apply PR.
Qed.
Hint Resolve pcs_r : relp.
Lemma class_statements_r n : forall a b, R (dL dMem) a b ->
  rel (Rwe (R (dL dMem))) (class_statements toks1 pe1 ps1 n a) (class_statements toks2 pe2 ps2 n b).
Proof.
  induction n; intros; cbn [class_statements]; [st|]. st. rewrite len_eq. st.
  - st; [apply IHn|st; split]; fin.
  - st. split; auto.
Qed.
Lemma pcsl_r : rel (Rwe (R (dL dMem))) (parse_class_statement_list toks1 pe1 ps1) (parse_class_statement_list toks2 pe2 ps2).
Proof.
  unfold parse_class_statement_list. rewrite lf_eq.
  pose proof (class_statements_r (lf toks1) [] []) as K. pose proof nil_eq.
  destruct toks1 eqn:E1, toks2 eqn:E2; try (intuition discriminate); [st|].
  apply K. fin.
Qed.
Hint Resolve pcsl_r : relp.
Lemma poo_r : rel (R dS) (parse_oo_declaration toks1 pe1 ps1) (parse_oo_declaration toks2 pe2 ps2).
Proof.
  unfold parse_oo_declaration.
  eapply rel_bind with (R := eq); [repeat st; auto|]. intros ot ? <-.
  eapply rel_bind with (R := eq). { rewrite lf_eq. destruct ot; repeat st; subst; auto. }
  intros cm ? <-. st. st. subst. st. subst. st. st.
  eapply rel_bind with (R := R dOP). { unfold dOP, Rpath in *. destruct ot; repeat st; unfold Rpath in *; fin. }
  intros ex1 ex2 EX.
  eapply rel_bind with (R := R dPl). { destruct ot; repeat st; fin. }
  intros im1 im2 IM. st. st. destruct H2 as [M1' M2']. rewrite M2'. st. st. unfold dOP in *.
  destruct ot; fin.
Qed.
Hint Resolve poo_r : relp.

(** strings with parts *)
Definition Rec (x y : encaps) : Prop :=
  R dStr (ec_str x) (ec_str y) /\ R (dL dE) (ec_parts x) (ec_parts y) /\
  Ropt Rend (ec_start x) (ec_start y) /\ Rend (ec_end x) (ec_end y).
Lemma strs_nil a b : R dStr a b -> (a = [] <-> b = []).
Proof. unfold R; cbn. intros (E & _). rewrite <- E. symmetry. apply fs_nil. Qed.
Lemma unwrap_r x y : Ropt Rend x y -> rel Rend (unwrap_p x) (unwrap_p y).
Proof. destruct x, y; cbn; try tauto; intros; [st; auto|st]. Qed.
Lemma flush_r x y : Rec x y -> rel (R (dL dE)) (encaps_flush x) (encaps_flush y).
Proof.
  intros (A & B & C & D). unfold encaps_flush. pose proof (strs_nil _ _ A).
  destruct (ec_str x) eqn:E1, (ec_str y) eqn:E2; try (intuition discriminate); [st; auto|].
  eapply rel_bind; [apply unwrap_r; exact C|]. intros. st. fin.
Qed.
Lemma Rec_i s1 s2 p1 p2 a1 a2 e1 e2 : R dStr s1 s2 -> R (dL dE) p1 p2 -> Ropt Rend a1 a2 -> Rend e1 e2 ->
  Rec (mkEncaps s1 p1 a1 e1) (mkEncaps s2 p2 a2 e2).
Proof. unfold Rec; cbn. auto. Qed.
Lemma str_nil : R dStr [] [].
Proof.
  unfold R; cbn. assert (fs [] = []) by (apply fs_nil; reflexivity).
  repeat split; auto; constructor; auto; apply (ok_Snil J HJ).
Qed.
Lemma str_app a b c d : R dStr a b -> R dStr c d -> R dStr (a ++ c) (b ++ d).
Proof.
  intros (H1 & H2 & H3) (K1 & K2 & K3). cbn in *. inversion H2; inversion H3; inversion K2; inversion K3; subst.
  split; [cbn; rewrite fs_app; congruence|]. split; cbn; constructor; auto; apply (ok_Sapp J HJ); auto.
Qed.
Lemma parts_snoc a b c d : R (dL dE) a b -> R dE c d -> R (dL dE) (a ++ [c]) (b ++ [d]).
Proof. intros. fin. Qed.
Lemma e_end_r a b : RE a b -> Rend (eend a) (eend b).
Proof. intros. fin. Qed.
Lemma RE_E a b : RE a b -> R dE a b.
Proof. intros [H _]; auto. Qed.
Lemma Rsp_end s1 s2 : Rsp s1 s2 -> Rend (sp_end s1) (sp_end s2).
Proof. intros. fin. Qed.
Hint Resolve Rec_i str_nil str_app parts_snoc e_end_r RE_E Rsp_end : enc.
Lemma encaps_loop_r n : forall x y, Rec x y -> rel Rec (encaps_loop toks1 pe1 n x) (encaps_loop toks2 pe2 n y).
Proof.
  induction n; intros x y H; cbn [encaps_loop]; [st|].
  pose proof (flush_r _ _ H) as FL. destruct H as (A & B & C & D).
  st; [|apply rel_look_dc; [intros FV; intros|st; [|st]]].
  - apply IHn. apply Rec_i; auto with enc.
    + destruct (ec_start x), (ec_start y); cbn in C; try tauto; fin.
    + destruct (ec_end x <? _), (ec_end y <? _); auto with enc; fin.
  - eapply rel_bind; [exact FL|]. intros pa1 pa2 PA.
    eapply rel_bind with (R := R dE).
    { st; [|go1].
      eapply rel_bind; [apply parse_variable_s|].
      - fin; try (rewrite FV; auto); try (apply (ok_VI J HJ); auto).
      - intros. st. st. fin. }
    intros e1 e2 RE12. apply IHn. apply Rec_i; auto with enc.
  - eapply rel_bind; [exact FL|]. intros pa1 pa2 PA. st. st. apply IHn. apply Rec_i; cbn [Ropt]; auto with enc.
  - eapply rel_bind; [exact FL|]. intros pa1 pa2 PA. apply IHn. apply Rec_i; cbn [Ropt]; auto with enc.
  - st. repeat split; try apply A; try apply B; try apply C; apply D.
Qed.
Lemma concat_parts_r p1 p2 a b : R (dL dE) p1 p2 -> R dE a b -> R dE (concat_parts p1 a) (concat_parts p2 b).
Proof.
  intros H. revert p2 H. induction p1 as [|x p1 IH]; intros [|y p2] H K; try (destruct H as [H _]; discriminate); auto.
  cbn [concat_parts fold_right]. fold (concat_parts p1 a) (concat_parts p2 b).
  assert (E : R dE x y /\ R (dL dE) p1 p2).
  { unf. split_hyps. injection H as -> ->. auto. }
  destruct E as [E1 E2]. pose proof (IH _ E2 K). fin.
Qed.
Lemma R_cons A (d : desc A) x y l1 l2 : R d x y -> R (dL d) l1 l2 -> R (dL d) (x :: l1) (y :: l2).
Proof.
  intros (? & ? & ?) (? & ? & ?). split; [cbn in *; congruence|]. cbn in *. rewrite !Forall_app. auto.
Qed.
Lemma dL_split A (d : desc A) l1 l2 da db : R (dL d) l1 l2 -> l1 <> [] ->
  R (dL d) (removelast l1) (removelast l2) /\ R d (last l1 da) (last l2 db).
Proof.
  revert l2. induction l1 as [|x l1 IH]; intros l2 H N; [congruence|].
  destruct l2 as [|y l2]; [destruct H as [H _]; discriminate|].
  assert (E : R d x y /\ R (dL d) l1 l2).
  { unf. cbn in H. split_hyps. injection H as H H'. auto. }
  destruct E as [E1 E2]. destruct l1 as [|x' l1].
  - destruct l2; [|destruct E2 as [E2 _]; discriminate]. split; [|exact E1]. repeat split; constructor.
  - destruct l2 as [|y' l2]; [destruct E2 as [E2 _]; discriminate|].
    destruct (IH _ E2) as [I1 I2]; [discriminate|]. split; [|exact I2].
    change (removelast (x :: x' :: l1)) with (x :: removelast (x' :: l1)).
    change (removelast (y :: y' :: l2)) with (y :: removelast (y' :: l2)).
    apply R_cons; auto.
Qed.
Lemma parse_encaps_list_r : rel (R dE) (parse_encaps_list toks1 pe1) (parse_encaps_list toks2 pe2).
Proof.
  unfold parse_encaps_list. rewrite lf_eq.
  eapply rel_bind; [apply encaps_loop_r; apply Rec_i; [apply str_nil|fin|exact I|unfold Rend; split; apply (ok_B0 J HJ)]|].
  intros x y (A & B & C & D).
  eapply rel_bind with (R := R (dO dE)).
  { pose proof (strs_nil _ _ A). destruct (ec_str x) eqn:E1, (ec_str y) eqn:E2; try (intuition discriminate); [st; fin|].
    eapply rel_bind; [apply unwrap_r; exact C|]. intros. st. fin. }
  intros s1 s2 S.
  assert (SS : (s1 = None /\ s2 = None) \/ exists e1 e2, s1 = Some e1 /\ s2 = Some e2 /\ R dE e1 e2).
  { destruct s1, s2; try (destruct S as [S _]; discriminate); [right|left; auto].
    do 2 eexists. do 2 (split; [reflexivity|]). unf. split_hyps. split; [congruence|auto]. }
  pose proof (dL_split _ _ _ _ (Ex (EInt 0) span_new) (Ex (EInt 0) span_new) B) as LS.
  destruct (ec_parts x) eqn:P1, (ec_parts y) eqn:P2; try (destruct B as [B _]; discriminate);
  destruct SS as [[-> ->]|(e1 & e2 & -> & -> & EE)].
  - st; st.
  - st. auto.
  - st. destruct LS; [discriminate|]. apply concat_parts_r; auto.
  - st. apply concat_parts_r; auto.
Qed.
Hint Resolve parse_encaps_list_r : relp.
Lemma parse_scalar_r : rel RE (parse_scalar toks1 pe1) (parse_scalar toks2 pe2).
Proof.
  unfold parse_scalar. pose proof str_nil as SN. st.
  assert (D : rel RE (pcatch (parse_dereferencable_scalar toks1 pe1) pret (fun _ => parse_constant toks1))
                     (pcatch (parse_dereferencable_scalar toks2 pe2) pret (fun _ => parse_constant toks2)))
    by (repeat st; auto).
  tk; try exact D.
  - destruct k; cbn [scalar_of]; try exact D; repeat st; unfold respan; fin.
  - cbn [scalar_of]. repeat st. fin.
  - cbn [scalar_of]. repeat st. fin.
  - st. st.
Qed.
Hint Resolve parse_scalar_r : relp.
Lemma isset_args_r n m : forall a b, R (dL dE) a b -> rel (R (dL dE)) (isset_args toks1 pe1 n m a) (isset_args toks2 pe2 n m b).
Proof. induction n; intros; cbn [isset_args]; [st|]. st. destruct m; [st; [apply IHn|st]|st]; fin. Qed.
Lemma assign_of_r t1 t2 : Ropt tokrel t1 t2 -> assign_of t1 = assign_of t2.
Proof. intros. tk; reflexivity. Qed.
Lemma parse_assign_r a b : RE a b -> rel RE (parse_assign toks1 pe1 a) (parse_assign toks2 pe2 b).
Proof.
  intros H. unfold parse_assign. st. rewrite (assign_of_r _ _ H0). destruct (assign_of b0); [|st; auto].
  st. eapply rel_bind with (R := eq). { destruct o; repeat st; auto. }
  intros by_ref ? <-. repeat st. destruct o; [..|destruct by_ref]; fin. all: destruct by_ref; fin.
Qed.
Hint Resolve parse_assign_r : relp.
Lemma pve_r : rel RE (parse_variable_expression toks1 pe1) (parse_variable_expression toks2 pe2).
Proof.
  unfold parse_variable_expression. st; [apply parse_assign_r; auto|].
  st; [|st]; repeat st; auto.
  - apply parse_assign_r. unfold dKV in *. fin.
  - fin.
Qed.
Hint Resolve pve_r : relp.
Lemma cast_i k t : cast_ty k = Some t -> ok_atom J (ACast t).
Proof. intros. exists k. auto. Qed.
Lemma parse_internal_r r1 r2 : rel RE r1 r2 -> rel RE (parse_internal toks1 pe1 r1) (parse_internal toks2 pe2 r2).
Proof.
  intros H. unfold parse_internal. st. tk; auto.
  destruct (cast_ty k) eqn:C.
  { apply cast_i in C. repeat st. fin. }
  clear C. destruct (include_of k). { repeat st. fin. }
  destruct k; auto; st; rewrite ?lf_eq.
  - st. eapply rel_bind; [apply isset_args_r; fin|]. intros. st. st. fin.
  - st. eapply rel_bind; [apply isset_args_r; fin|]. intros l1 l2 L. st.
    destruct l1 as [|x [|? ?]], l2 as [|y [|? ?]]; try (destruct L as [L _]; discriminate); st. fin.
Qed.
Lemma poe_r : rel RE (parse_other_expression toks1 pe1 ps1) (parse_other_expression toks2 pe2 ps2).
Proof.
  unfold parse_other_expression.
  assert (I : rel RE (parse_internal toks1 pe1 (parse_variable_expression toks1 pe1))
     (parse_internal toks2 pe2 (parse_variable_expression toks2 pe2))) by (apply parse_internal_r, pve_r).
  st; [|st; [|st; [|st; [|st]]]]; auto.
  - st. st. subst. eapply rel_bind with (R := R (dL dE)). { repeat st; fin. }
    intros. repeat st. fin.
  - repeat st. fin.
  - repeat st; fin.
  - repeat st. fin.
  - eapply rel_bind; [apply pfd_r; eassumption|]. intros x y [_ K].
    destruct x as [n1 ?], y as [n2 ?]; destruct n1; destruct n2; try contradiction;
      repeat match goal with d : decl |- _ => destruct d; try contradiction end; auto.
    st. auto.
Qed.
Hint Resolve poe_r : relp.
Lemma ppe_r : rel RE (parse_postfix_expression toks1 pe1 ps1) (parse_postfix_expression toks2 pe2 ps2).
Proof. unfold parse_postfix_expression. go1. Qed.
Hint Resolve ppe_r : relp.
Lemma unop_of_r t1 t2 : map_tok fv fz fd fs t1 = t2 -> unop_of t1 = unop_of t2.
Proof. intros <-. destruct t1; reflexivity. Qed.
Lemma pue_r n : rel RE (parse_unary_expression toks1 pe1 ps1 n) (parse_unary_expression toks2 pe2 ps2 n).
Proof.
  unfold parse_unary_expression. st.
  destruct a as [[t1 s1]|], b as [[t2 s2]|]; cbn in H; try tauto; [|st].
  pose proof (tokrel_sp _ _ H) as S. destruct H as (T & _). cbn in T, S.
  eapply rel_bind with (R := RE).
  - rewrite (unop_of_r _ _ T). destruct (unop_of t2); repeat st. fin.
  - intros. rewrite lf_eq. apply binary_loop_r. auto.
Qed.
Lemma rel_psub1w a b : same1 a b -> iB J a -> iB J b -> rel Rend (psub a 1) (psub b 1).
Proof.
  intros H B1 B2. unfold psub. rewrite (same1_sub _ _ H).
  destruct (1 <=? b) eqn:E; [apply rel_ret|apply rel_panic]. split; auto with rel.
Qed.
Lemma pfv_r : rel (R dE) (parse_foreach_variable toks1 pe1) (parse_foreach_variable toks2 pe2).
Proof.
  unfold parse_foreach_variable. st. subst. st. destruct b; [|st; fin].
  eapply rel_bind; [apply rel_psub1w; try apply H; fin|]. intros. st. fin.
Qed.
Hint Resolve pfv_r : relp.
Definition dSV : desc (list (str * option expr)) :=
  mkDesc (map (fun x => match x with (v, e) => (fv v, option_map (map_expr M1) e) end))
    (map (fun x => match x with (v, e) => (v, option_map (map_expr no_spans) e) end))
    (flat_map (fun x => match x with (v, e) => AVarName v :: opt_atoms atoms_expr e end)).
Lemma static_vars_r n : forall a b, R dSV a b -> rel (R dSV) (static_vars toks1 pe1 n a) (static_vars toks2 pe2 n b).
Proof. induction n; intros; cbn [static_vars]; [st|]. do 2 st. st; [apply IHn|st]; unfold dSV in *; fin. Qed.
Lemma psvd_r s1 s2 : Rsp s1 s2 -> rel (R dS) (parse_static_var_decl toks1 pe1 s1) (parse_static_var_decl toks2 pe2 s2).
Proof.
  intros. unfold parse_static_var_decl. rewrite lf_eq.
  eapply rel_bind; [apply static_vars_r; unfold dSV; fin|]. intros. unfold dSV in *. go1.
Qed.
Lemma global_vars_r n : forall a b, R (dL dV) a b -> rel (R (dL dV)) (global_vars toks1 n a) (global_vars toks2 n b).
Proof. induction n; intros; cbn [global_vars]; [st|]. st. st; [apply IHn|st]; fin. Qed.
Lemma pgvd_r s1 s2 : Rsp s1 s2 -> rel (R dS) (parse_global_var_decl toks1 s1) (parse_global_var_decl toks2 s2).
Proof.
  intros. unfold parse_global_var_decl. rewrite lf_eq.
  eapply rel_bind; [apply global_vars_r; fin|]. intros. go1.
Qed.
Lemma braced_r : rel (Rpair (R (dL dS)) Rsp) (parse_braced toks1 ps1) (parse_braced toks2 ps2).
Proof. unfold parse_braced. st. st. destruct H0 as [B1 B2]. rewrite B2. st. st. split; auto. Qed.
Hint Resolve braced_r : relp.
Lemma catch_clauses_r n : forall a b, R (dL dCat) a b -> rel (R (dL dCat)) (catch_clauses toks1 ps1 n a) (catch_clauses toks2 ps2 n b).
Proof.
  induction n; intros; cbn [catch_clauses]; [st|]. st; [|st; auto]. do 5 st. apply IHn. unfold Rpath in *. fin.
Qed.
Lemma parse_try_r s1 s2 : Rsp s1 s2 -> rel (R dS) (parse_try toks1 ps1 s1) (parse_try toks2 ps2 s2).
Proof.
  intros. unfold parse_try. rewrite lf_eq. st. eapply rel_bind; [apply catch_clauses_r; fin|]. intros.
  eapply rel_bind with (R := R (dO (dL dS))); [go1|]. intros. go1.
Qed.
Lemma unset_vars_r n : forall a b, R (dL dE) a b -> rel (R (dL dE)) (unset_vars toks1 pe1 n a) (unset_vars toks2 pe2 n b).
Proof. induction n; intros; cbn [unset_vars]; [st|]. st. st; [apply IHn|st]; fin. Qed.
Lemma parse_unset_r s1 s2 : Rsp s1 s2 -> rel (R dS) (parse_unset toks1 pe1 s1) (parse_unset toks2 pe2 s2).
Proof.
  intros. unfold parse_unset. rewrite lf_eq. st. eapply rel_bind; [apply unset_vars_r; fin|]. intros. go1.
Qed.
Lemma parse_foreach_r s1 s2 : Rsp s1 s2 -> rel (R dS) (parse_foreach toks1 pe1 ps1 s1) (parse_foreach toks2 pe2 ps2 s2).
Proof.
  intros. unfold parse_foreach. do 4 st.
  eapply rel_bind with (R := Rpair (R (dO dE)) (R dE)); [go1|]. intros. repeat st. fin.
Qed.
Lemma parse_for_r s1 s2 : Rsp s1 s2 -> rel (R dS) (parse_for toks1 pe1 ps1 s1) (parse_for toks2 pe2 ps2 s2).
Proof. intros. unfold parse_for. repeat st. fin. Qed.
Lemma switch_cases_r n : forall a b c d, R (dL dCase) a b -> R (dL dE) c d ->
  rel (Rpair (R (dL dCase)) (R (dL dE))) (switch_cases toks1 pe1 ps1 n a c) (switch_cases toks2 pe2 ps2 n b d).
Proof.
  induction n; intros a b c d A C; cbn [switch_cases]; [st|].
  assert (SEP : rel eq
    (look toks1 KColon (fun _ => pret tt) (look toks1 KSemiColon (fun _ => pret tt) (perr [Kw KColon; Kw KSemiColon])))
    (look toks2 KColon (fun _ => pret tt) (look toks2 KSemiColon (fun _ => pret tt) (perr [Kw KColon; Kw KSemiColon])))) by go1.
  st; [|st; [|st; split; auto]].
  - st. eapply rel_bind; [exact SEP|]. intros _ _ _. st. destruct H1 as [B _].
    assert (K : R (dL dE) (c ++ [a0]) (d ++ [b0])) by fin. revert K. generalize (c ++ [a0]) (d ++ [b0]). intros c' d' K.
    destruct (fst a1) eqn:F1, (fst b1) eqn:F2; try (destruct B as [B _]; discriminate).
    + apply IHn; fin.
    + apply IHn; fin.
  - eapply rel_bind; [exact SEP|]. intros _ _ _. st. destruct H0 as [B _].
    destruct (fst a0) eqn:F1, (fst b0) eqn:F2; try (destruct B as [B _]; discriminate).
    + apply IHn; fin.
    + apply IHn; fin.
Qed.
Lemma pending_r c d : R (dL dE) c d ->
  R (dL dCase) (map (fun c => mkCase [c] false []) c) (map (fun c => mkCase [c] false []) d).
Proof.
  revert d. induction c as [|x c IH]; intros [|y d] H; try (destruct H as [H _]; discriminate); cbn [map]; [fin|].
  assert (E : R dE x y /\ R (dL dE) c d). { unf. split_hyps. injection H as -> ->. auto. }
  destruct E as [E1 E2]. apply R_cons; auto. fin.
Qed.
Lemma parse_switch_r s1 s2 : Rsp s1 s2 -> rel (R dS) (parse_switch toks1 pe1 ps1 s1) (parse_switch toks2 pe2 ps2 s2).
Proof.
  intros. unfold parse_switch. rewrite lf_eq. do 4 st. eapply rel_bind; [apply switch_cases_r; fin|].
  intros x y [K1 K2]. apply pending_r in K2. st. st.
  generalize dependent (map (fun c => mkCase [c] false []) (snd x)).
  generalize dependent (map (fun c => mkCase [c] false []) (snd y)). intros. fin.
Qed.
Lemma parse_condition_r : rel RE (parse_condition toks1 pe1) (parse_condition toks2 pe2).
Proof. unfold parse_condition. repeat st. auto. Qed.
Hint Resolve parse_condition_r : relp.
Lemma parse_while_r s1 s2 : Rsp s1 s2 -> rel (R dS) (parse_while toks1 pe1 ps1 s1) (parse_while toks2 pe2 ps2 s2).
Proof. intros. unfold parse_while. repeat st. fin. Qed.
Lemma parse_do_r s1 s2 : Rsp s1 s2 -> rel (R dS) (parse_do toks1 pe1 ps1 s1) (parse_do toks2 pe2 ps2 s2).
Proof. intros. unfold parse_do. repeat st. fin. Qed.
Lemma if_arms_r n : forall a b, R (dL dS) a b -> rel (R (dL dS)) (if_arms toks1 pe1 ps1 n a) (if_arms toks2 pe2 ps2 n b).
Proof.
  induction n; intros; cbn [if_arms]; [st|]. st; [|st; [|st; auto]].
  - st. st. apply IHn. fin.
  - st. apply IHn. fin.
Qed.
Lemma fold_step_r a b c d : Ropt (R dS) a b -> R dS c d -> Ropt (R dS) (if_fold_step a c) (if_fold_step b d).
Proof.
  intros H K. destruct a as [[n1 s1]|], b as [[n2 s2]|]; cbn in H; try tauto.
  destruct c as [n3 s3], d as [n4 s4]. pose proof H as [E1 _]. pose proof K as [E2 _]. cbn in E1, E2.
  destruct n1; destruct n2; try discriminate E1; try exact I;
  destruct n3; destruct n4; try discriminate E2; try exact I.
  - destruct e, e0; try discriminate E2; try exact I. cbn [if_fold_step Ropt]. fin.
  - destruct e1, e2; try discriminate E2; try exact I. cbn [if_fold_step Ropt]. fin.
Qed.
Lemma dL_Forall2 A (d : desc A) l1 l2 : R (dL d) l1 l2 -> Forall2 (R d) l1 l2.
Proof.
  revert l2. induction l1 as [|x l1 IH]; intros [|y l2] H; try (destruct H as [H _]; discriminate); constructor.
  - destruct H as (E & F1 & F2). cbn in *. apply Forall_app in F1, F2. split; [congruence|tauto].
  - apply IH. destruct H as (E & F1 & F2). cbn in *. apply Forall_app in F1, F2. split; [cbn; congruence|cbn; tauto].
Qed.
Lemma fold_ifs_r l1 l2 : R (dL dS) l1 l2 -> Ropt (R dS) (fold_ifs l1) (fold_ifs l2).
Proof.
  intros H. apply dL_Forall2 in H. unfold fold_ifs.
  assert (F : Forall2 (R dS) (rev l1) (rev l2)).
  { induction H; cbn; auto. apply Forall2_app; auto. }
  clear H. destruct F as [|x y r1 r2 X F]; [exact I|].
  assert (X' : Ropt (R dS) (Some x) (Some y)) by exact X. revert X'. generalize (Some x) (Some y).
  clear X. induction F; intros; cbn [fold_left]; auto. apply IHF. apply fold_step_r; auto.
Qed.
Lemma parse_if_r s1 s2 : Rsp s1 s2 -> rel (R dS) (parse_if toks1 pe1 ps1 s1) (parse_if toks2 pe2 ps2 s2).
Proof.
  intros. unfold parse_if. rewrite lf_eq. st. st.
  eapply rel_bind; [apply if_arms_r; fin|]. intros l1 l2 L. apply fold_ifs_r in L.
  destruct (fold_ifs l1), (fold_ifs l2); cbn in L; try tauto; [st; auto|st].
Qed.
Lemma parse_expr_stmt_r d : rel (R dS) (parse_expr_stmt toks1 pe1 d) (parse_expr_stmt toks2 pe2 d).
Proof. unfold parse_expr_stmt. repeat st. fin. Qed.
Lemma simple_stmt_r t1 t2 s1 s2 : tokrel (t1, s1) (t2, s2) ->
  Ropt (rel (R dSn)) (simple_stmt toks1 pe1 t1 s1) (simple_stmt toks2 pe2 t2 s2).
Proof.
  intros H. pose proof (tokrel_sp _ _ H) as S. destruct H as (T & G1 & G2 & _). cbn in T, S, G1, G2. subst t2.
  destruct t1; cbn [map_tok simple_stmt]; try exact I.
  - destruct k; try exact I; cbn [Ropt]; repeat st; fin.
  - cbn [Ropt]. cbn in *. st. fin.
Qed.
Lemma parse_other_stmt_r d : rel (R dS) (parse_other_stmt toks1 pe1 d) (parse_other_stmt toks2 pe2 d).
Proof.
  unfold parse_other_stmt. st.
  destruct a as [[t1 s1]|], b as [[t2 s2]|]; cbn in H; try tauto; [|st].
  pose proof (tokrel_sp _ _ H) as S. apply simple_stmt_r in H.
  destruct (simple_stmt toks1 pe1 t1 s1), (simple_stmt toks2 pe2 t2 s2); cbn in H, S; try tauto.
  - st. eapply rel_bind; [exact H|]. intros. repeat st. fin.
  - st. apply parse_expr_stmt_r.
Qed.
Lemma look_restore_r k d m1 m2 r1 r2 :
  (forall s1 s2, Rsp s1 s2 -> rel (R dS) (m1 s1) (m2 s2)) -> (forall d, rel (R dS) (r1 d) (r2 d)) ->
  rel (R dS) (look_restore toks1 k d m1 r1) (look_restore toks2 k d m2 r2).
Proof. intros. unfold look_restore. st. st; auto. apply rel_deepest; auto. intros. st. auto. Qed.
Lemma Rfd_S a b : Rfd a b -> R dS a b.
Proof. intros [H _]; auto. Qed.
Lemma statement_body_r : rel (R dS) (parse_statement_body toks1 pe1 ps1) (parse_statement_body toks2 pe2 ps2).
Proof.
  unfold parse_statement_body.
  st; [st; fin|]. st.
  { st. destruct H0 as [B1 B2]. rewrite B2. st. st. fin. }
  st; [apply parse_try_r; auto|]. st; [apply parse_unset_r; auto|]. st; [apply parse_foreach_r; auto|].
  st; [apply parse_for_r; auto|]. st; [apply parse_switch_r; auto|]. st; [apply parse_if_r; auto|].
  st; [apply parse_while_r; auto|]. st; [apply parse_do_r; auto|].
  apply look_restore_r; [apply psvd_r|]. intros.
  apply look_restore_r; [apply pgvd_r|]. intros.
  apply look_restore_r.
  { intros. eapply rel_mono; [apply pfd_r; eassumption|apply Rfd_S]. }
  intros. apply rel_deepest; [apply poo_r|]. apply parse_other_stmt_r.
Qed.
End Knot.

(** the knot, with more fuel on the right *)
Lemma knot_r f : forall f', f <= f' ->
  (forall n, rel RE (parse_expression toks1 f n) (parse_expression toks2 f' n)) /\
  rel (R dS) (parse_statement toks1 f) (parse_statement toks2 f').
Proof.
  induction f as [|f IH]; intros f' L; [split; intros; apply rel_fuel|].
  destruct f' as [|f']; [lia|]. destruct (IH f') as [H1 H2]; [lia|]. split.
  - intros n. apply pue_r; auto.
  - apply statement_body_r; auto.
Qed.

Section Top.
Variables (ps1 ps2 : P stmt).
Hypothesis Hps : rel (R dS) ps1 ps2.
Hint Resolve Hps : relp.
Definition dUl := dC (flat_map atoms_use).
Lemma use_clauses_r n : forall a b, R dUl a b -> rel (R dUl) (use_clauses toks1 n a) (use_clauses toks2 n b).
Proof.
  induction n; intros; cbn [use_clauses]; [st|]. st. subst. st. destruct H0 as (E & P & S).
  eapply rel_bind with (R := R (dC (opt_atoms (fun s => [AIdent s])))); [go1|]. intros al1 al2 AL.
  assert (K : R dUl (a ++ [QualifiedName (mkPath b0 (namespace (fst a0)) (identifier (fst a0))) al1])
                    (b ++ [QualifiedName (mkPath b0 (namespace (fst b1)) (identifier (fst b1))) al2])).
  { pose proof (P b0). unfold dUl in *. rewrite <- E. fin. }
  st; [apply IHn|st]; auto.
Qed.
Lemma top_statement_r : rel (R dS) (parse_top_statement toks1 ps1) (parse_top_statement toks2 ps2).
Proof.
  unfold parse_top_statement. rewrite lf_eq. st; [|st; [|auto]].
  - st. destruct H0 as (E & P & S). st. st. pose proof (P (is_absolute (fst a))) as Q. rewrite mk_path_eta in Q.
    rewrite <- E. fin.
  - eapply rel_bind; [apply use_clauses_r; unfold dUl; fin|]. intros. unfold dUl in *. st. st. fin.
Qed.
Hint Resolve top_statement_r : relp.
Lemma top_statements_r n : forall a b, R (dL dS) a b -> rel (R (dL dS)) (top_statements toks1 ps1 n a) (top_statements toks2 ps2 n b).
Proof.
  induction n; intros; cbn [top_statements]; [st|]. st. rewrite len_eq. st.
  - st. apply IHn. fin.
  - st. auto.
Qed.
Lemma top_r : rel (R (dL dS)) (parse_top_statement_list toks1 ps1) (parse_top_statement_list toks2 ps2).
Proof.
  unfold parse_top_statement_list. rewrite lf_eq.
  pose proof (top_statements_r (lf toks1) [] []) as K. pose proof nil_eq.
  destruct toks1 eqn:E1, toks2 eqn:E2; try (intuition discriminate); [st|].
  apply K. fin.
Qed.
End Top.
End Rel.
