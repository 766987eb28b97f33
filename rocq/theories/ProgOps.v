(** * ProgOps: chains of binary operators (C19) *)
From Verif Require Import Base Tokens Ast AstMap Lexer Parser Printer Driver Spec SpecProg SmallFacts ParserFacts LexBase LexTok LexWords LexRun ParseRun ParseTac ParseExpr ParseStmt ParseDecl Emit.
From Coq Require Import String.

Definition bo_kind (b : binop) : kind :=
  match find_op (bo_text b) with Some k => k | None => match word_token (s2l (bo_text b)) with Kw k => k | _ => KEnd end end.
Lemma binop_facts b : In b binops -> exists k,
  precedence k = Some (bo_level b) /\ binop_of k = Some (bo_op b) /\ assoc_right k = Some (bo_right b) /\
  1 <= bo_level b /\ bo_level b <= 15 /\ (bo_right b = true -> bo_level b = 15) /\ (bo_level b = 15 -> bo_right b = true) /\
  forall st r vs, seen LInScripting st (s2l " " ++ r) vs -> seen LInScripting st (s2l (bo_text b) ++ s2l " " ++ r) (Kw k :: vs).
Proof.
  intros I. unfold binops in I. cbn [In] in I.
  repeat (destruct I as [<- |I];
    [match goal with |- context [bo_op ?b] => let k := eval vm_compute in (bo_kind b) in exists k end; cbn [bo_level bo_op bo_right bo_text]; do 7 (split; [first [vm_compute; reflexivity | lia | intros; lia | intros; first [reflexivity|discriminate]]|]);
     intros st r vs; first [apply seen_op; reflexivity | intros R; apply seen_kw; [reflexivity|reflexivity|exact R|reflexivity]]|]).
  contradiction.
Qed.
Definition shows (x : str) (ts : list token) : Prop :=
  (forall r, cast_tail (x ++ r) = None) /\
  forall st r vs, follows r = true -> seen LInScripting st r vs -> seen LInScripting st (x ++ r) (ts ++ vs).
Lemma paren_shows x ts : shows x ts -> shows (s2l "(" ++ x ++ s2l ")") (Kw KParenthesesOpen :: ts ++ [Kw KParenthesesClose]).
Proof.
  intros (C & S). split; [reflexivity|]. intros st r vs F R. rewrite <- !app_assoc. cbn [app]. apply seen_paren; [apply C|].
  rewrite <- app_assoc. apply S; [reflexivity|]. apply (seen_op st ")"); auto. destruct r; reflexivity.
Qed.
Definition plain_start (ts : list token) : Prop := match ts with TVariable _ :: _ | Kw KParenthesesOpen :: _ => True | _ => False end.
Lemma plain_head ts : plain_start ts -> stm_expr_head ts.
Proof. destruct ts as [|t ts]; [contradiction|]. destruct t as [k| | | | | | | |]; try contradiction; try exact (fun _ => Logic.I). destruct k; try contradiction; exact (fun _ => Logic.I). Qed.
Lemma plain_app ts l : plain_start ts -> plain_start (ts ++ l).
Proof. destruct ts; [contradiction|]. exact (fun x => x). Qed.
Lemma tree_shows t : otree_ok t -> forall m, m <= 16 -> exists ts mm ff, shows (show_tree m t) ts /\ plain_start ts /\ Chain mm ff ts (tree_expr t) /\ 0 < mm /\ m <= mm /\ (m <= ff \/ (m = 15 /\ ff = 14)).
Proof.
  induction t as [v|b l IHl r IHr]; cbn [otree_ok show_tree tree_expr].
  - intros N m M. exists [TVariable v], 18, 17. split; [|split; [exact Logic.I|split; [apply operand_chain, var_operand, var_simple|lia]]].
    split; [reflexivity|]. intros st r vs F R. rewrite <- app_assoc. apply seen_var; auto using follows_word.
  - intros (I & Ol & Or) m M. destruct (binop_facts b I) as (k & P & B & A & L1 & L15 & R1 & R2 & E).
    set (x := bo_level b) in *. set (ra := bo_right b) in *.
    destruct (IHl Ol (if ra then S x else x)) as (tl & ml & fl & Sl & Pl & Cl & _ & Ml & Fl); [destruct ra; lia|].
    destruct (IHr Or (if ra then x else S x)) as (tr & mr & fr & Sr & _ & Cr & _ & Mr & Fr); [destruct ra; lia|].
    set (s := show_tree _ l ++ _).
    assert (SS : shows s (tl ++ Kw k :: tr)).
    { destruct Sl as [Sl1 Sl2], Sr as [Sr1 Sr2]. split.
      - intros q. unfold s. rewrite <- app_assoc. apply Sl1.
      - intros st q vs F R. unfold s. rewrite <- !app_assoc. cbn [app]. apply Sl2; [reflexivity|].
        apply (seen_ws st (s2l " ")); auto. apply E. apply (seen_ws st (s2l " ")); auto. }
    assert (CC : Chain x (right_bound ra x) (tl ++ Kw k :: tr) (Ex (EBinary (bo_op b) (tree_expr l) (tree_expr r)) span_new)).
    { apply (chain_bin ml fl mr fr x (bo_op b) k ra); auto; unfold right_bound; destruct ra; try specialize (R1 eq_refl); try lia. }
    destruct (Nat.ltb_spec x m) as [LT|GE].
    + eexists. exists 18, 17. split; [apply paren_shows; exact SS|]. split; [exact Logic.I|]. split; [|lia].
      apply operand_chain, var_operand, var_paren. eapply chain_full; [|exact CC]. lia.
    + eexists. exists x, (right_bound ra x). split; [exact SS|]. split; [apply plain_app; exact Pl|]. split; [exact CC|]. unfold right_bound. destruct ra; try specialize (R1 eq_refl); lia.
Qed.
Lemma ops_program t : otree_ok t -> parses_to (s2l "<?php " ++ show_tree 0 t ++ s2l ";") [St (SExpr (tree_expr t)) span_new].
Proof.
  intros O. destruct (tree_shows t O 0 ltac:(lia)) as (ts & mm & ff & (_ & S) & PS & C & M & _).
  apply (chain_full mm ff) in C; auto.
  change (s2l "<?php " ++ show_tree 0 t ++ s2l ";") with (s2l "<?php" ++ s2l " " ++ show_tree 0 t ++ s2l ";").
  apply (program_parses _ [ts ++ [Kw KSemiColon]] [expr_stm (tree_expr t)]); [|discriminate|].
  - cbn [List.concat app]. rewrite app_nil_r. apply (seen_ws [] (s2l " ")); auto. apply S; [reflexivity|].
    apply (seen_op [] ";" KSemiColon []); auto. apply seen_end.
  - constructor; [|constructor]. apply top_stm. apply stm_any. apply stm_expr; auto using plain_head.
Qed.

Lemma tree_strip t : strip_expr (tree_expr t) = tree_expr t.
Proof. induction t as [v|b l IHl r IHr]; [reflexivity|]. unfold strip_expr in *. cbn [tree_expr map_expr map_expr_]. rewrite IHl, IHr. reflexivity. Qed.
Lemma ops_unique t t' : otree_ok t -> otree_ok t' -> show_tree 0 t = show_tree 0 t' -> tree_expr t = tree_expr t'.
Proof.
  intros A B E. pose proof (ops_program t A) as P. rewrite E in P. pose proof (parses_det _ _ _ P (ops_program t' B)) as D.
  unfold strip in D. cbn [map] in D. injection D as D. change (strip_expr (tree_expr t) = strip_expr (tree_expr t')) in D. rewrite !tree_strip in D. exact D.
Qed.
