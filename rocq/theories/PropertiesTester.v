(** * Property C49 *)
From Verif Require Import Base Tokens Ast Lexer Printer Driver Spec SmallFacts Tester SpecTester TesterFacts.
From Coq Require Import String.
Local Open Scope string_scope.
Local Open Scope list_scope.

(** A run over all files rewrites exactly those that parse, and succeeds iff every file
    parses and the check passes behind each *)
Theorem C49_run : forall show limit check count disk, looks check ->
  (forall j, snd (run_all show limit check count disk) j = if (j <? count)%nat then rewritten show limit (disk j) else disk j) /\
  (fst (run_all show limit check count disk) = true <->
   forall k, k < count -> parses limit (disk k) /\ passes check (handled show limit (S k) disk)).
Proof. exact tester_run. Qed.
Print Assumptions C49_run.

(** The search leaves every file as it was, whatever the files contain and the check says *)
Theorem C49_search_restores : forall show limit check count src,
  exists r disk', search (run_child show limit check) src count src = Some (r, disk') /\ forall j, disk' j = src j.
Proof.
  intros show limit check count src. unfold search.
  destruct (search_loop_ok (run_child show limit check) src (child_touches show limit check) count 0 count src) as (l & h & d' & H & _ & _ & _ & _ & _ & R);
    [lia|lia|auto|]. rewrite H. eauto.
Qed.
Print Assumptions C49_search_restores.

(** If all files parse and the check fails iff a bad file is not as it was, the search ends
    at the first bad file *)
Theorem C49_search_finds : forall show limit c src count,
  (forall i, i < count -> parses limit (src i)) ->
  forall bad b, detects c src bad -> (forall j, bad j -> rewritten show limit (src j) <> src j) ->
  bad b -> b < count -> (forall j, bad j -> b <= j) ->
  exists disk', search (run_child show limit (Some c)) src count src =
      Some (if (S b <? count)%nat then inl (b, S b) else inr PIndex, disk') /\ forall j, disk' j = src j.
Proof. exact tester_search. Qed.
Print Assumptions C49_search_finds.

Definition c49_files (second : string) (j : nat) : str :=
  s2l (match j with 0 => "<?php $a;" | 1 => second | 2 => "<?php f();" | 3 => "<?php 1;" | _ => "" end).
(** the check wants the third file as it was *)
Definition c49_check (d : fs) : bool := str_eqb (d 2) (s2l "<?php f();").
Example C49_run_example : looks (Some c49_check) /\
  fst (run_all (fun x => x) 60 None 4 (c49_files "<?php $b;")) = true /\
  fst (run_all (fun x => x) 60 None 4 (c49_files "<?php $b")) = false /\
  fst (run_all (fun x => x) 60 (Some c49_check) 2 (c49_files "<?php $b;")) = true /\
  fst (run_all (fun x => x) 60 (Some c49_check) 4 (c49_files "<?php $b;")) = false /\
  map (snd (run_all (fun x => x) 60 None 3 (c49_files "<?php $b"))) [0; 1; 2; 3] =
  map (fun x => flat_map (fun c => if (c =? 35)%N then [10]%N else [c]) (s2l x)) ["<?php#$a;##?>"; "<?php $b"; "<?php#f();##?>"; "<?php 1;"].
Proof. split; [intros d d' E; unfold c49_check; rewrite (E 2); reflexivity|]. vm_compute. auto 10. Qed.
Example C49_search_example : let src := c49_files "<?php $b;" in
  (forall i, i < 4 -> parses 60 (src i)) /\ detects c49_check src (fun j => j = 2) /\
  rewritten (fun x => x) 60 (src 2) <> src 2 /\
  option_map fst (search (run_child (fun x => x) 60 (Some c49_check)) src 4 src) = Some (inl (2, 3)) /\
  option_map fst (search (run_child (fun x => x) 60 (Some c49_check)) src 3 src) = Some (inr PIndex).
Proof.
  cbv zeta. split; [|split; [|split; [vm_compute; discriminate|split; vm_compute; reflexivity]]].
  - intros i L. do 4 (destruct i as [|i]; [eexists; vm_compute; reflexivity|]). lia.
  - intros d. unfold c49_check. rewrite str_eqb_eq. split; [intros H j ->; exact H|intros H; apply (H 2 eq_refl)].
Qed.
