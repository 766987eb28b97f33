(** * Properties C28, C29: chains of conditions, switches *)
From Verif Require Import Base Tokens Ast AstMap Printer Spec SpecRT SpecCtl Ctl.
From Coq Require Import String.
Local Open Scope string_scope. Local Open Scope list_scope.

(** ** C28 *)
Theorem C28_chain : forall sf x l el, branch_ok sf x -> Forall (branch_ok sf) l -> else_ok sf el ->
  parses_to (s2l "<?php " ++ chain_text x l el) [nested x l (match el with Some (b, _) => b | None => [] end)].
Proof. exact chain_parses. Qed.
Print Assumptions C28_chain.

Definition c_int (z : Z) : expr := Ex (EInt z) span_new.
Definition c_var (s : string) : expr := Ex (EVar (VName (s2l s))) span_new.
Definition c_set (s : string) (z : Z) : stmt := St (SExpr (Ex (EAssign (c_var s) (c_int z)) span_new)) span_new.
Definition c_nl : str := [10%N].
Definition c_if : branch := mkBranch false (c_var "a") (s2l "$a") [c_set "x" 1] (s2l "$x=1;" ++ c_nl).
Definition c_arms : list branch :=
  [mkBranch false (c_var "b") (s2l "$b") [] []; mkBranch true (c_int 3) (s2l "3") [c_set "x" 2; c_set "y" 3] (s2l "$x=2;" ++ c_nl ++ s2l "$y=3;" ++ c_nl);
   mkBranch false (c_var "c") (s2l "$c") [c_set "x" 4] (s2l "$x=4;" ++ c_nl)].
Definition c_else : option (list stmt * str) := Some ([c_set "z" 5], s2l "$z=5;" ++ c_nl).
Example C28_example : forall sf, branch_ok sf c_if /\ Forall (branch_ok sf) c_arms /\ else_ok sf c_else /\
  chain_text c_if c_arms c_else =
    s2l "if ($a) {$x=1;" ++ c_nl ++ s2l "} elseif ($b) {} else if (3) {$x=2;" ++ c_nl ++ s2l "$y=3;" ++ c_nl ++
    s2l "} elseif ($c) {$x=4;" ++ c_nl ++ s2l "} else {$z=5;" ++ c_nl ++ s2l "}" /\
  nested c_if c_arms [c_set "z" 5] =
    St (SIf (c_var "a") [c_set "x" 1] [St (SIf (c_var "b") [] [St (SIf (c_int 3) [c_set "x" 2; c_set "y" 3]
      [St (SIf (c_var "c") [c_set "x" 4] [c_set "z" 5]) span_new]) span_new]) span_new]) span_new.
Proof. intros sf. repeat split; repeat constructor. Qed.

(** ** C29 *)
Theorem C29_switch : forall sf e t l cs, written sf e t -> Forall (label_ok sf) l -> grouped l cs ->
  parses_to (s2l "<?php " ++ switch_text t l) [St (SSwitch e cs) span_new].
Proof. exact switch_parses. Qed.
Print Assumptions C29_switch.
(** every list of labels has its cases, so the theorem speaks about all of them *)
Theorem C29_every_list : forall l, exists cs, grouped l cs.
Proof. exact grouped_exists. Qed.
Print Assumptions C29_every_list.
(** no case expression and no statement is lost, and the order is kept *)
Theorem C29_nothing_lost : forall l cs, grouped l cs ->
  flat_map case_exprs cs = flat_map label_exprs l /\ flat_map case_body cs = flat_map stmts l.
Proof. exact grouped_all. Qed.
Print Assumptions C29_nothing_lost.
(** what is lost: a default label directly before another label or at the end *)
Theorem C29_empty_default_is_lost : forall l cs, grouped l cs -> grouped (filter (fun x => negb (empty_default x)) l) cs.
Proof. exact empty_default_lost. Qed.
Print Assumptions C29_empty_default_is_lost.

Definition c_labels : list label :=
  [mkLabel (Some (c_int 1, s2l "1")) false [] []; mkLabel (Some (c_var "b", s2l "$b")) true [c_set "x" 1] (s2l "$x=1;" ++ c_nl);
   mkLabel None false [] []; mkLabel (Some (c_int 2, s2l "2")) false [c_set "x" 2] (s2l "$x=2;" ++ c_nl);
   mkLabel None false [c_set "y" 3] (s2l "$y=3;" ++ c_nl); mkLabel (Some (c_int 4, s2l "4")) false [] []].
Example C29_example : forall sf, written sf (c_var "a") (s2l "$a") /\ Forall (label_ok sf) c_labels /\
  grouped c_labels [mkCase [c_int 1; c_var "b"] false [c_set "x" 1]; mkCase [c_int 2] false [c_set "x" 2]; mkCase [] true [c_set "y" 3]; mkCase [c_int 4] false []] /\
  switch_text (s2l "$a") c_labels =
    s2l "switch ($a) {case 1: case $b; $x=1;" ++ c_nl ++ s2l "default: case 2: $x=2;" ++ c_nl ++ s2l "default: $y=3;" ++ c_nl ++ s2l "case 4: }".
Proof.
  intros sf. split; [split; reflexivity|]. split; [repeat constructor|]. split; [|reflexivity].
  apply (grouped_case [nth 0 c_labels (mkLabel None false [] [])] (nth 1 c_labels (mkLabel None false [] []))); [repeat constructor|discriminate|].
  apply (grouped_case [nth 2 c_labels (mkLabel None false [] [])] (nth 3 c_labels (mkLabel None false [] []))); [repeat constructor|discriminate|].
  apply (grouped_case [] (nth 4 c_labels (mkLabel None false [] []))); [constructor|discriminate|].
  apply (grouped_last [nth 5 c_labels (mkLabel None false [] [])]). repeat constructor.
Qed.
