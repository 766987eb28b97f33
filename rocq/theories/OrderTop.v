(** * OrderTop: the whole parser (C37) *)
From Verif Require Import Base Tokens Ast Lexer Parser Driver Wp SpecOrder Order OrderPass.

Lemma parse_top_ordered toks l p : parse_top toks = POk l p -> covers (items l) (map fst toks).
Proof.
  intros E. pose proof (ptsl_o toks (parse_statement toks (parse_fuel toks)) (proj2 (knot_o toks _)) 0) as H.
  unfold ord, wo in H. unfold parse_top in E. rewrite E in H. destruct H as (X & EX & C). cbn [app] in EX. subst X.
  destruct C as [_ C]. unfold slice in C. cbn [skipn] in C. fold (items l) in C. rewrite Nat.sub_0_r in C.
  rewrite <- (firstn_skipn p toks), map_app, <- (app_nil_r (items l)). apply covers_app; [exact C|apply covers_none].
Qed.
Lemma shown_filter all : map fst (filter_tokens all) = flat_map shown (map fst all).
Proof.
  unfold filter_tokens. induction all as [|[t sp] all IH]; [reflexivity|].
  change (flat_map filter_token ((t, sp) :: all)) with (filter_token (t, sp) ++ flat_map filter_token all).
  change (flat_map shown (map fst ((t, sp) :: all))) with (shown t ++ flat_map shown (map fst all)).
  etransitivity; [apply map_app|]. apply (f_equal2 (@app token)); [|exact IH]. destruct t as [[]| | | | | | | |]; reflexivity.
Qed.
Lemma parse_str_ordered f src l : parse_str f src = DOk l ->
  exists ts s, tokenize f src = DOk (ts, s) /\ covers (items l) (flat_map shown (map fst ts)).
Proof.
  unfold parse_str. destruct (tokenize f src) as [[ts s]|[e s]| |] eqn:T; try discriminate.
  - unfold parse_tokens. destruct (parse_top (filter_tokens ts)) as [l' p|e p| |] eqn:P; try discriminate.
    + intros E. injection E as ->. exists ts, s. split; [reflexivity|]. rewrite <- shown_filter. eapply parse_top_ordered; eauto.
    + unfold mk_serror. repeat match goal with |- context [match ?x with _ => _ end] => destruct x end; discriminate.
  - unfold mk_serror. repeat match goal with |- context [match ?x with _ => _ end] => destruct x end; discriminate.
Qed.
Lemma covers_length l ts : covers l ts -> List.length l <= List.length ts.
Proof.
  induction 1 as [|t l ts _ IH|i us l ts M _ IH]; cbn [List.length]; [lia|lia|]. rewrite app_length.
  assert (1 <= List.length us).
  { destruct M; cbn [List.length]; try lia.
    - rewrite app_length. destruct ns as [|a [|b ns]]; cbn; lia.
    - rewrite map_length. destruct parts; [congruence|cbn; lia]. }
  lia.
Qed.
Lemma covers_ints z l ts : covers l ts -> int_items z l <= int_tokens z ts.
Proof.
  induction 1 as [|t l ts _ IH|i us l ts M _ IH]; unfold int_items, int_tokens in *; cbn [List.filter]; [apply le_n| |].
  - destruct t; try exact IH. destruct (Z.eqb _ z); cbn [List.length]; lia.
  - rewrite filter_app, app_length. destruct M; cbn [List.filter]; try lia.
    destruct (Z.eqb _ z); cbn [List.length]; lia.
Qed.
Lemma parse_top_small toks l p : parse_top toks = POk l p -> List.length (items l) <= List.length toks.
Proof. intros E. pose proof (covers_length _ _ (parse_top_ordered _ _ _ E)) as H. rewrite map_length in H. exact H. Qed.
Lemma covers_int_inv z l t ts : covers (IInt z :: l) (t :: ts) -> (t = TInt z /\ covers l ts) \/ covers (IInt z :: l) ts.
Proof.
  intros C. remember (IInt z :: l) as x. remember (t :: ts) as y. destruct C as [|t' l' ts' C|i us l' ts' M C]; try discriminate.
  - injection Heqy as -> ->. right. exact C.
  - injection Heqx as -> ->. inversion M; subst. injection Heqy as <- <-. left. split; [reflexivity|exact C].
Qed.
Lemma covers_int_nil z l : ~ covers (IInt z :: l) [].
Proof. intros C. apply covers_length in C. cbn in C. lia. Qed.
