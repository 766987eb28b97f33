(** * SmallFacts: the interner, modifier sets, the line map, UTF-8, the tester search *)
From Verif Require Import Base Tokens Ast Interner Lexer Driver Spec.

Lemma str_eqb_eq a b : str_eqb a b = true <-> a = b.
Proof.
  revert b; induction a as [|x a IH]; destruct b as [|y b]; cbn; try (split; congruence).
  rewrite andb_true_iff, N.eqb_eq, IH. split; [intros [-> ->]|intros [= -> ->]]; auto.
Qed.
Lemma str_eqb_refl a : str_eqb a a = true.
Proof. apply str_eqb_eq; reflexivity. Qed.
Lemma str_eqb_neq a b : str_eqb a b = false <-> a <> b.
Proof.
  split; intros H.
  - intros ->. rewrite str_eqb_refl in H. congruence.
  - destruct (str_eqb a b) eqn:E; [apply str_eqb_eq in E; congruence|reflexivity].
Qed.

(** ** Interner *)

Definition iok (i : interner) : Prop :=
  (forall k v, In (k, v) (strs i) -> k = v /\ rc_id v < next i) /\
  (forall v w, In (v, v) (strs i) -> In (w, w) (strs i) -> rc_id v = rc_id w -> v = w) /\
  (forall v w, In (v, v) (strs i) -> In (w, w) (strs i) -> rc_str v = rc_str w -> v = w).

Lemma get_In m s v : (forall k w, In (k, w) m -> k = w) -> get m s = Some v -> In (v, v) m /\ rc_str v = s.
Proof.
  induction m as [|[k w] m IH]; cbn; [discriminate|]. intros H.
  destruct (str_eqb (rc_str k) s) eqn:E.
  - intros [= ->]. apply str_eqb_eq in E. assert (k = v) by (apply H; auto). subst. auto.
  - intros G. destruct IH; auto.
Qed.
Lemma get_None m s v : get m s = None -> In (v, v) m -> rc_str v <> s.
Proof.
  induction m as [|[k w] m IH]; cbn; [tauto|]. destruct (str_eqb (rc_str k) s) eqn:E; [discriminate|].
  apply str_eqb_neq in E. intros G [[= -> ->]|I]; auto.
Qed.

Lemma intern_step i s : iok i ->
  let (r, i') := intern i s in
  iok i' /\ In (r, r) (strs i') /\ rc_str r = s /\ (forall v, In (v, v) (strs i) -> In (v, v) (strs i')).
Proof.
  intros (A & B & C). unfold intern. destruct (get (strs i) s) as [r|] eqn:G.
  - apply get_In in G; [|intros k w I; apply A; auto]. destruct G. split; [unfold iok; auto|]. repeat split; auto.
  - assert (N : forall v, In (v, v) (strs i) -> rc_str v <> s) by (intros; eapply get_None; eauto).
    assert (L : forall v, In (v, v) (strs i) -> rc_id v < next i) by (intros v I; apply (A v v I)).
    split; [|cbn; auto]. unfold iok; cbn. repeat split.
    + destruct H as [[= <- <-]|I]; auto. exact (proj1 (A _ _ I)).
    + destruct H as [[= <- <-]|I]; cbn; [lia|]. destruct (A _ _ I); lia.
    + intros v w [[= <-]|I] [[= <-]|J] E; auto; cbn in *.
      * specialize (L _ J); lia.
      * specialize (L _ I); lia.
    + intros v w [[= <-]|I] [[= <-]|J] E; auto; cbn in *.
      * destruct (N _ J); auto.
      * destruct (N _ I); auto.
Qed.

Lemma intern_all_ok l : forall i, iok i ->
  let (rs, i') := intern_all i l in
  iok i' /\ map rc_str rs = l /\ (forall r, In r rs -> In (r, r) (strs i')) /\
  (forall v, In (v, v) (strs i) -> In (v, v) (strs i')).
Proof.
  induction l as [|s l IH]; intros i H; cbn.
  - split; [auto|]. repeat split; auto; cbn; tauto.
  - pose proof (intern_step i s H) as S1. destruct (intern i s) as [r i1]. destruct S1 as (H1 & I1 & E1 & M1).
    specialize (IH i1 H1). destruct (intern_all i1 l) as [rs i2]. destruct IH as (H2 & E2 & I2 & M2).
    split; [auto|]. cbn. rewrite E1, E2. repeat split; auto.
    intros r' [<-|J]; auto.
Qed.

Lemma interner_history (l : list str) :
  let (rs, i) := intern_all interner_new l in
  map rc_str rs = l /\
  forall r r', In r rs -> In r' rs -> (rc_id r = rc_id r' <-> rc_str r = rc_str r').
Proof.
  pose proof (intern_all_ok l interner_new) as H.
  destruct (intern_all interner_new l) as [rs i].
  destruct H as (H & E & I & _).
  { unfold iok; cbn; tauto. }
  split; [auto|]. intros r r' J K. destruct H as (_ & B & C). split; intros X.
  - erewrite B with (v := r) (w := r'); eauto.
  - erewrite C with (v := r) (w := r'); eauto.
Qed.

(** ** Modifiers *)
Lemma member_fold_has ms : forall acc m,
  member_modifiers_has (fold_left (fun f m => N.lor f (mm_bit m)) ms acc) m = true <->
  member_modifiers_has acc m = true \/ In m ms.
Proof.
  induction ms as [|x ms IH]; intros acc m; cbn [fold_left In]; [tauto|].
  rewrite IH. unfold member_modifiers_has. rewrite N.land_lor_distr_l, !negb_true_iff, !N.eqb_neq.
  rewrite N.lor_eq_0_iff.
  assert (D : N.land (mm_bit x) (mm_bit m) <> 0%N <-> x = m).
  { destruct x, m; cbn; split; congruence. }
  destruct (N.eq_dec (N.land acc (mm_bit m)) 0); destruct (N.eq_dec (N.land (mm_bit x) (mm_bit m)) 0); tauto.
Qed.
Lemma class_fold_has ms : forall acc m,
  class_modifiers_has (fold_left (fun f m => N.lor f (cm_bit m)) ms acc) m = true <->
  class_modifiers_has acc m = true \/ In m ms.
Proof.
  induction ms as [|x ms IH]; intros acc m; cbn [fold_left In]; [tauto|].
  rewrite IH. unfold class_modifiers_has. rewrite N.land_lor_distr_l, !negb_true_iff, !N.eqb_neq.
  rewrite N.lor_eq_0_iff.
  assert (D : N.land (cm_bit x) (cm_bit m) <> 0%N <-> x = m).
  { destruct x, m; cbn; split; congruence. }
  destruct (N.eq_dec (N.land acc (cm_bit m)) 0); destruct (N.eq_dec (N.land (cm_bit x) (cm_bit m)) 0); tauto.
Qed.
Lemma member_has ms m : member_modifiers_has (member_modifiers_new ms) m = true <-> In m ms.
Proof.
  unfold member_modifiers_new. rewrite member_fold_has. split; auto. intros [H|H]; auto.
  unfold member_modifiers_has in H. cbn in H. discriminate.
Qed.
Lemma class_has ms m : class_modifiers_has (class_modifiers_new ms) m = true <-> In m ms.
Proof.
  unfold class_modifiers_new. rewrite class_fold_has. split; auto. intros [H|H]; auto.
  unfold class_modifiers_has in H. cbn in H. discriminate.
Qed.
Lemma member_mods_bits ms i : N.testbit (member_modifiers_new ms) i = true <-> exists m, In m ms /\ mm_bit m = (2 ^ i)%N.
Proof.
  unfold member_modifiers_new.
  assert (G : forall acc, N.testbit (fold_left (fun f m => N.lor f (mm_bit m)) ms acc) i = true <->
     N.testbit acc i = true \/ exists m, In m ms /\ mm_bit m = (2 ^ i)%N).
  { induction ms as [|x ms IH]; intros acc; cbn [fold_left In].
    - split; auto. intros [H|(m & [] & _)]; auto.
    - rewrite IH, N.lor_spec, orb_true_iff.
      assert (D : N.testbit (mm_bit x) i = true <-> mm_bit x = (2 ^ i)%N).
      { assert (P : exists k, mm_bit x = (2 ^ k)%N).
        { destruct x; [exists 0%N|exists 1%N|exists 2%N|exists 3%N|exists 4%N|exists 5%N]; reflexivity. }
        destruct P as (k & ->). rewrite N.pow2_bits_eqb, N.eqb_eq. split; [intros ->; auto|].
        intros E. apply N.pow_inj_r in E; auto. lia. }
      rewrite D. split.
      + intros [[H|H]|(m & I & E)]; auto; right; eauto.
      + intros [H|(m & [->|I] & E)]; auto. right; eauto. }
  rewrite G. cbn. split; auto. intros [H|H]; auto. destruct i; cbn in H; discriminate.
Qed.

Lemma class_mods_bits ms i : N.testbit (class_modifiers_new ms) i = true <-> exists m, In m ms /\ cm_bit m = (2 ^ i)%N.
Proof.
  unfold class_modifiers_new.
  assert (G : forall acc, N.testbit (fold_left (fun f m => N.lor f (cm_bit m)) ms acc) i = true <->
     N.testbit acc i = true \/ exists m, In m ms /\ cm_bit m = (2 ^ i)%N).
  { induction ms as [|x ms IH]; intros acc; cbn [fold_left In].
    - split; auto. intros [H|(m & [] & _)]; auto.
    - rewrite IH, N.lor_spec, orb_true_iff.
      assert (D : N.testbit (cm_bit x) i = true <-> cm_bit x = (2 ^ i)%N).
      { assert (P : exists k, cm_bit x = (2 ^ k)%N).
        { destruct x; [exists 0%N|exists 1%N]; reflexivity. }
        destruct P as (k & ->). rewrite N.pow2_bits_eqb, N.eqb_eq. split; [intros ->; auto|].
        intros E. apply N.pow_inj_r in E; auto. lia. }
      rewrite D. split.
      + intros [[H|H]|(m & I & E)]; auto; right; eauto.
      + intros [H|(m & [->|I] & E)]; auto. right; eauto. }
  rewrite G. cbn. split; auto. intros [H|H]; auto. destruct i; cbn in H; discriminate.
Qed.
Lemma member_mods_ext ms ms' : (forall m, In m ms <-> In m ms') -> member_modifiers_new ms = member_modifiers_new ms'.
Proof.
  intros H. apply N.bits_inj. intros i. apply eq_true_iff_eq. rewrite !member_mods_bits.
  split; intros (m & I & E); exists m; (split; [apply H; exact I|exact E]).
Qed.
Lemma class_mods_ext ms ms' : (forall m, In m ms <-> In m ms') -> class_modifiers_new ms = class_modifiers_new ms'.
Proof.
  intros H. apply N.bits_inj. intros i. apply eq_true_iff_eq. rewrite !class_mods_bits.
  split; intros (m & I & E); exists m; (split; [apply H; exact I|exact E]).
Qed.

(** ** Line map *)

Lemma lfp_loop_ok data pos n : forall a b da,
  nondecreasing data -> a < b -> b <= List.length data -> b - a <= S n ->
  nth_error data a = Some da -> da <= pos ->
  (forall k d, b <= k -> nth_error data k = Some d -> pos < d) ->
  exists l d, lfp_loop n data pos a b = Some l /\ nth_error data l = Some d /\ d <= pos /\
    forall k d', l < k -> nth_error data k = Some d' -> pos < d'.
Proof.
  induction n as [|n IH]; intros a b da ND AB BL F Ea Da Hb; cbn [lfp_loop].
  - destruct (Nat.leb_spec (b - a) 1); [|lia].
    exists a, da. repeat split; auto. intros k d' L Ek. apply (Hb k d'); auto. lia.
  - destruct (Nat.leb_spec (b - a) 1).
    + exists a, da. repeat split; auto. intros k d' L Ek. apply (Hb k d'); auto. lia.
    + assert (M : a < (a + b) / 2 < b).
      { split; [apply Nat.div_le_lower_bound; lia|apply Nat.div_lt_upper_bound; lia]. }
      destruct (nth_error data ((a + b) / 2)) as [d|] eqn:Em.
      2:{ apply nth_error_None in Em. lia. }
      destruct (Nat.ltb_spec pos d).
      * eapply IH; eauto; try lia.
        intros k d' L Ek. pose proof (ND _ _ _ _ L Em Ek). lia.
      * eapply IH; eauto; lia.
Qed.

Lemma line_lookup data pos : nondecreasing data -> nth_error data 0 = Some 0 ->
  exists l d, line_from_position data pos = Some l /\ nth_error data l = Some d /\ d <= pos /\
    forall k d', l < k -> nth_error data k = Some d' -> pos < d'.
Proof.
  intros ND Z. unfold line_from_position.
  assert (L : 0 < List.length data) by (destruct data; cbn in *; [discriminate|lia]).
  eapply lfp_loop_ok; eauto; try lia.
  intros k d Lk Ek. apply nth_error_None in Lk. congruence.
Qed.

Lemma line_lookup_range data pos end_pos : nondecreasing data -> nth_error data 0 = Some 0 -> pos < end_pos ->
  exists l a b, line_from_position data pos = Some l /\ line_range data end_pos l = Some (a, b) /\ a <= pos < b.
Proof.
  intros ND Z E. destruct (line_lookup data pos ND Z) as (l & d & H & D & L & K).
  exists l, d. unfold line_range. rewrite D.
  destruct (nth_error data (l + 1)) as [d'|] eqn:N; eexists; repeat split; eauto.
  eapply K; [|eauto]; lia.
Qed.

(** ** UTF-8 *)
Lemma is_scalar_iff c : is_scalar c = true <-> scalar c.
Proof. unfold is_scalar, scalar. rewrite orb_true_iff, andb_true_iff, !N.ltb_lt, N.leb_le. tauto. Qed.

Ltac Nsplit :=
  repeat match goal with
  | |- context [N.ltb ?a ?b] => destruct (N.ltb_spec a b)
  | |- context [N.leb ?a ?b] => destruct (N.leb_spec a b)
  | H : context [N.ltb ?a ?b] |- _ => destruct (N.ltb_spec a b)
  | H : context [N.leb ?a ?b] |- _ => destruct (N.leb_spec a b)
  end.

Ltac nlia :=
  repeat match goal with
  | |- context [N.modulo ?a ?b] => let x := fresh in set (x := N.modulo a b) in *; clearbody x
  | |- context [N.div ?a ?b] => let x := fresh in set (x := N.div a b) in *; clearbody x
  | H : context [N.modulo ?a ?b] |- _ => let x := fresh in set (x := N.modulo a b) in *; clearbody x
  | H : context [N.div ?a ?b] |- _ => let x := fresh in set (x := N.div a b) in *; clearbody x
  end; lia.

Lemma is_cont_mod c : is_cont (128 + c mod 64) = true.
Proof.
  unfold is_cont. pose proof (N.mod_lt c 64 ltac:(lia)).
  apply andb_true_iff; split; [apply N.leb_le|apply N.ltb_lt]; nlia.
Qed.

Lemma N2 c : (c = 64 * (c / 64) + c mod 64)%N. Proof. apply N.div_mod. nlia. Qed.

Lemma dec1_enc1 c r : scalar c -> dec1 (enc1 c ++ r) = Some (c, r).
Proof.
  intros S. pose proof (proj2 (is_scalar_iff c) S) as IS.
  pose proof (N2 c). pose proof (N.mod_lt c 64 ltac:(lia)) as M0.
  pose proof (N2 (c / 64)) as D1. pose proof (N.mod_lt (c / 64) 64 ltac:(lia)) as M1.
  pose proof (N2 (c / 64 / 64)) as D2. pose proof (N.mod_lt (c / 64 / 64) 64 ltac:(lia)) as M2.
  rewrite N.div_div in D1, D2, M2 by nlia. rewrite N.div_div in D2 by nlia.
  change (64 * 64)%N with 4096%N in *. change (4096 * 64)%N with 262144%N in *.
  assert (Cc := is_cont_mod). unfold scalar in S.
  unfold enc1. destruct (N.ltb_spec c 128).
  { cbn [app dec1]. destruct (N.ltb_spec c 128); [reflexivity|nlia]. }
  destruct (N.ltb_spec c 2048).
  { assert (c / 64 < 32)%N by (apply N.div_lt_upper_bound; nlia).
    cbn [app dec1]. rewrite (proj2 (N.ltb_ge _ _)), (proj2 (N.ltb_ge _ _)), (proj2 (N.ltb_lt _ _)) by nlia.
    rewrite Cc. cbn [andb].
    replace ((192 + c / 64 - 192) * 64 + (128 + c mod 64 - 128))%N with c by nlia.
    rewrite (proj2 (N.leb_le _ _)) by nlia. reflexivity. }
  destruct (N.ltb_spec c 65536).
  { assert (c / 4096 < 16)%N by (apply N.div_lt_upper_bound; nlia).
    cbn [app dec1]. do 3 rewrite (proj2 (N.ltb_ge _ _)) by nlia. rewrite (proj2 (N.ltb_lt _ _)) by nlia.
    rewrite !Cc. cbn [andb].
    replace ((224 + c / 4096 - 224) * 4096 + (128 + (c / 64) mod 64 - 128) * 64 + (128 + c mod 64 - 128))%N with c by nlia.
    rewrite (proj2 (N.leb_le _ _)) by nlia. rewrite IS. reflexivity. }
  { assert (c / 262144 < 8)%N by (apply N.div_lt_upper_bound; nlia).
    cbn [app dec1]. do 4 rewrite (proj2 (N.ltb_ge _ _)) by nlia. rewrite (proj2 (N.ltb_lt _ _)) by nlia.
    rewrite !Cc. cbn [andb].
    replace ((240 + c / 262144 - 240) * 262144 + (128 + (c / 4096) mod 64 - 128) * 4096 +
             (128 + (c / 64) mod 64 - 128) * 64 + (128 + c mod 64 - 128))%N with c by nlia.
    rewrite (proj2 (N.leb_le _ _)) by nlia. rewrite IS. reflexivity. }
Qed.

Lemma is_cont_range b : is_cont b = true -> exists x, (b = 128 + x /\ x < 64)%N.
Proof.
  unfold is_cont. rewrite andb_true_iff, N.leb_le, N.ltb_lt. exists (b - 128)%N. nlia.
Qed.

Lemma dm a b : (b < 64 -> (64 * a + b) / 64 = a /\ (64 * a + b) mod 64 = b)%N.
Proof.
  intros L. split.
  - symmetry. apply N.div_unique with b; nlia.
  - symmetry. apply N.mod_unique with a; nlia.
Qed.

Lemma dec1_sound bs c r : dec1 bs = Some (c, r) -> scalar c /\ bs = enc1 c ++ r.
Proof.
  destruct bs as [|b0 r0]; cbn [dec1]; [discriminate|].
  destruct (N.ltb_spec b0 128).
  { intros [= <- <-]. split; [unfold scalar; nlia|]. unfold enc1. rewrite (proj2 (N.ltb_lt _ _)) by nlia. reflexivity. }
  destruct (N.ltb_spec b0 192); [discriminate|].
  destruct (N.ltb_spec b0 224).
  { destruct r0 as [|b1 r1]; [discriminate|].
    destruct (is_cont b1) eqn:C1; [|discriminate]. apply is_cont_range in C1. destruct C1 as (x1 & -> & L1).
    replace (128 + x1 - 128)%N with x1 by nlia.
    set (d := ((b0 - 192) * 64 + x1)%N). cbn [andb]. destruct (N.leb_spec 128 d); [|discriminate].
    intros [= <- <-].
    assert (D : d = (64 * (b0 - 192) + x1)%N) by (unfold d; nlia). clearbody d. subst d.
    pose proof (dm (b0 - 192) x1 L1) as [Q R].
    split; [unfold scalar; nlia|]. unfold enc1.
    rewrite (proj2 (N.ltb_ge _ _)) by nlia. rewrite (proj2 (N.ltb_lt _ _)) by nlia.
    rewrite Q, R. replace (192 + (b0 - 192))%N with b0 by lia. reflexivity. }
  destruct (N.ltb_spec b0 240).
  { destruct r0 as [|b1 [|b2 r2]]; try discriminate.
    destruct (is_cont b1) eqn:C1; [|discriminate]. apply is_cont_range in C1. destruct C1 as (x1 & -> & L1).
    destruct (is_cont b2) eqn:C2; [|discriminate]. apply is_cont_range in C2. destruct C2 as (x2 & -> & L2).
    replace (128 + x1 - 128)%N with x1 by nlia. replace (128 + x2 - 128)%N with x2 by nlia.
    set (d := ((b0 - 224) * 4096 + x1 * 64 + x2)%N). cbn [andb]. destruct (N.leb_spec 2048 d); [|discriminate].
    destruct (is_scalar d) eqn:IS; [|discriminate]. intros [= <- <-].
    apply is_scalar_iff in IS. split; [auto|].
    assert (D : d = (64 * (64 * (b0 - 224) + x1) + x2)%N) by (unfold d; nlia). clearbody d. subst d.
    pose proof (dm (64 * (b0 - 224) + x1) x2 L2) as [Q R].
    pose proof (dm (b0 - 224) x1 L1) as [Q1 R1].
    unfold enc1.
    do 2 rewrite (proj2 (N.ltb_ge _ _)) by nlia. rewrite (proj2 (N.ltb_lt _ _)) by nlia.
    change 4096%N with (64 * 64)%N. rewrite <- N.div_div by nlia.
    rewrite Q, R, Q1, R1. replace (224 + (b0 - 224))%N with b0 by lia. reflexivity. }
  destruct (N.ltb_spec b0 248); [|discriminate].
  { destruct r0 as [|b1 [|b2 [|b3 r3]]]; try discriminate.
    destruct (is_cont b1) eqn:C1; [|discriminate]. apply is_cont_range in C1. destruct C1 as (x1 & -> & L1).
    destruct (is_cont b2) eqn:C2; [|discriminate]. apply is_cont_range in C2. destruct C2 as (x2 & -> & L2).
    destruct (is_cont b3) eqn:C3; [|discriminate]. apply is_cont_range in C3. destruct C3 as (x3 & -> & L3).
    replace (128 + x1 - 128)%N with x1 by nlia. replace (128 + x2 - 128)%N with x2 by nlia.
    replace (128 + x3 - 128)%N with x3 by nlia.
    set (d := ((b0 - 240) * 262144 + x1 * 4096 + x2 * 64 + x3)%N). cbn [andb]. destruct (N.leb_spec 65536 d); [|discriminate].
    destruct (is_scalar d) eqn:IS; [|discriminate]. intros [= <- <-].
    apply is_scalar_iff in IS. split; [auto|].
    assert (D : d = (64 * (64 * (64 * (b0 - 240) + x1) + x2) + x3)%N) by (unfold d; nlia). clearbody d. subst d.
    pose proof (dm (64 * (64 * (b0 - 240) + x1) + x2) x3 L3) as [Q R].
    pose proof (dm (64 * (b0 - 240) + x1) x2 L2) as [Q1 R1].
    pose proof (dm (b0 - 240) x1 L1) as [Q2 R2].
    unfold enc1.
    do 3 rewrite (proj2 (N.ltb_ge _ _)) by nlia.
    change 262144%N with (64 * 64 * 64)%N. change 4096%N with (64 * 64)%N. rewrite <- !N.div_div by nlia.
    rewrite Q, R, Q1, R1, Q2, R2. replace (240 + (b0 - 240))%N with b0 by lia. reflexivity. }
Qed.

Lemma enc1_len c : 1 <= List.length (enc1 c).
Proof. unfold enc1. Nsplit; cbn; nlia. Qed.
Lemma enc1_clen c : List.length (enc1 c) = clen c.
Proof. unfold enc1, clen. Nsplit; cbn; nlia. Qed.
Lemma encode_blen s : List.length (encode s) = blen s.
Proof. induction s; cbn; [auto|]. rewrite app_length, enc1_clen. unfold encode in IHs. nlia. Qed.

Lemma decode_encode s : Forall scalar s -> forall n, List.length (encode s) <= n -> decode_fuel n (encode s) = Some s.
Proof.
  induction s as [|c s IH]; intros F n L; cbn [encode flat_map].
  - destruct n; reflexivity.
  - inversion_clear F as [|? ? S F']. unfold encode in *. cbn [flat_map] in L. rewrite app_length in L.
    pose proof (enc1_len c) as E1.
    destruct n as [|n]; [nlia|]. cbn [decode_fuel].
    destruct (enc1 c ++ flat_map enc1 s) as [|b l] eqn:E.
    { apply app_eq_nil in E. destruct E as [E _]. rewrite E in E1. cbn in E1. nlia. }
    rewrite <- E, dec1_enc1 by auto. rewrite IH; auto. nlia.
Qed.
Lemma from_utf8_encode s : Forall scalar s -> from_utf8 (encode s) = Some s.
Proof. intros F. apply decode_encode; auto. Qed.
Lemma decode_sound n : forall bs s, decode_fuel n bs = Some s -> Forall scalar s /\ encode s = bs.
Proof.
  induction n as [|n IH]; intros bs s; destruct bs as [|b bs].
  - cbn. intros [= <-]. split; [constructor|reflexivity].
  - cbn. discriminate.
  - cbn. intros [= <-]. split; [constructor|reflexivity].
  - cbn [decode_fuel]. destruct (dec1 (b :: bs)) as [[c r]|] eqn:D; [|discriminate].
    destruct (decode_fuel n r) as [s'|] eqn:E; [|discriminate]. intros [= <-].
    apply dec1_sound in D. destruct D as [S ->]. apply IH in E. destruct E as [F <-].
    split; [constructor; auto|reflexivity].
Qed.
Lemma from_utf8_sound bs s : from_utf8 bs = Some s -> Forall scalar s /\ encode s = bs.
Proof. apply decode_sound. Qed.

(** ** The tester's search *)
Section Search.
Variable run : nat -> bool -> fs -> bool * fs.
Variable src : nat -> str.


Notation touches_own := (touches_own run).
Lemma run_range_touch : touches_own -> forall n low mid i d j,
  j < low + i \/ low + i + n <= j -> snd (run_range run n low mid i d) j = d j.
Proof.
  intros T. induction n as [|n IH]; intros low mid i d j H; cbn [run_range snd]; auto.
  pose proof (T (low + i) (negb (i =? mid - low - 1)) d j ltac:(lia)) as E.
  destruct (run (low + i) _ d) as [ok d']. cbn in E. destruct ok; cbn; auto.
  rewrite IH by lia. auto.
Qed.
Lemma revert_spec : forall n low d j, revert src n low d j = if (low <=? j) && (j <? low + n) then src j else d j.
Proof.
  induction n as [|n IH]; intros low d j; cbn [revert].
  - destruct (Nat.leb_spec low j), (Nat.ltb_spec j (low + 0)); cbn; auto; lia.
  - rewrite IH. unfold fs_set.
    destruct (Nat.leb_spec (S low) j), (Nat.ltb_spec j (S low + n)), (Nat.leb_spec low j), (Nat.ltb_spec j (low + S n));
      cbn; auto; try lia; destruct (Nat.eqb_spec j low); subst; auto; lia.
Qed.
Lemma round_restores : touches_own -> forall low mid d, low <= mid ->
  (forall j, low <= j < mid -> d j = src j) ->
  forall j, revert src (mid - low) low (snd (run_range run (mid - low) low mid 0 d)) j = d j.
Proof.
  intros T low mid d L E j. rewrite revert_spec.
  destruct (Nat.leb_spec low j), (Nat.ltb_spec j (low + (mid - low))); cbn.
  - rewrite E; auto. lia.
  - apply run_range_touch; auto. lia.
  - apply run_range_touch; auto. lia.
  - apply run_range_touch; auto. lia.
Qed.

Lemma search_loop_ok : touches_own -> forall n low high d, high - low <= S n -> low <= high ->
  (forall j, low <= j < high -> d j = src j) ->
  exists l h d', search_loop run src n low high d = Some (l, h, d') /\ low <= l /\ h <= high /\ l <= h /\
    h - l <= 1 /\ (low < high -> h = S l) /\ (forall j, d' j = d j).
Proof.
  intros T. induction n as [|n IH]; intros low high d L LH E; cbn [search_loop].
  - destruct (Nat.leb_spec (high - low) 1); [|lia]. exists low, high, d. repeat split; auto; lia.
  - destruct (Nat.leb_spec (high - low) 1). { exists low, high, d. repeat split; auto; lia. }
    assert (M : low < (low + high) / 2 < high).
    { split; [apply Nat.div_le_lower_bound; lia|apply Nat.div_lt_upper_bound; lia]. }
    set (mid := (low + high) / 2) in *.
    pose proof (round_restores T low mid d ltac:(lia) ltac:(intros; apply E; lia)) as R.
    destruct (run_range run (mid - low) low mid 0 d) as [ok d1]. cbn [snd] in R.
    destruct ok.
    + destruct (IH mid high (revert src (mid - low) low d1)) as (l & h & d' & H1 & A1 & A2 & A3 & A4 & A5 & A6); try lia.
      { intros j J. rewrite R. apply E. lia. }
      exists l, h, d'. rewrite H1. repeat split; auto; try lia. intros j. rewrite A6. auto.
    + destruct (IH low mid (revert src (mid - low) low d1)) as (l & h & d' & H1 & A1 & A2 & A3 & A4 & A5 & A6); try lia.
      { intros j J. rewrite R. apply E. lia. }
      exists l, h, d'. rewrite H1. repeat split; auto; try lia. intros j. rewrite A6. auto.
Qed.

Variable new : nat -> str.
Variable bad : nat -> Prop.
Notation checks := (checks run src new bad).
Notation bad_changes := (bad_changes src new bad).
Lemma checks_touches : checks -> touches_own.
Proof.
  intros C i b d j N. destruct (C i b d) as (E & _). rewrite E. unfold fs_set.
  destruct (Nat.eqb_spec j i); congruence.
Qed.

Lemma run_range_checks : checks -> bad_changes -> forall n low mid i d,
  n + i = mid - low -> 0 < n ->
  (forall j, bad j -> j < low \/ low + i <= j -> d j = src j) ->
  (forall j, low <= j < low + i -> d j = new j) ->
  (fst (run_range run n low mid i d) = true <-> forall j, bad j -> ~ (low <= j < low + i + n)).
Proof.
  intros C BC. induction n as [|n IH]; intros low mid i d L P Ed Ed2; [lia|]. cbn [run_range].
  destruct (C (low + i) (negb (i =? mid - low - 1)) d) as (E & O1 & O2).
  destruct (run (low + i) (negb (i =? mid - low - 1)) d) as [ok d']. cbn [fst snd] in *.
  destruct n as [|n].
  - destruct (Nat.eqb_spec i (mid - low - 1)); [|lia]. cbn in O2. specialize (O2 eq_refl).
    assert (S : ok = true <-> forall j, bad j -> ~ (low <= j < low + i + 1)).
    { rewrite O2. split; intros H j B.
      - intros J. specialize (H j B). rewrite E in H. unfold fs_set in H.
        destruct (Nat.eqb_spec j (low + i)).
        + subst. exact (BC _ B H).
        + rewrite Ed2 in H by lia. exact (BC _ B H).
      - specialize (H j B). rewrite E. unfold fs_set. destruct (Nat.eqb_spec j (low + i)); [lia|].
        apply Ed; auto. lia. }
    destruct ok; cbn [run_range fst]; tauto.
  - destruct (Nat.eqb_spec i (mid - low - 1)); [lia|]. cbn in O1. rewrite (O1 eq_refl).
    rewrite IH; try lia.
    + replace (low + S i + S n) with (low + i + S (S n)) by lia. tauto.
    + intros j B J. rewrite E. unfold fs_set. destruct (Nat.eqb_spec j (low + i)); [lia|]. apply Ed; auto. lia.
    + intros j J. rewrite E. unfold fs_set. destruct (Nat.eqb_spec j (low + i)); [subst; auto|]. apply Ed2. lia.
Qed.

Lemma search_loop_finds : checks -> bad_changes -> forall n low high d b,
  high - low <= S n ->
  (forall j, low <= j < high \/ bad j -> d j = src j) ->
  bad b -> low <= b < high -> (forall j, bad j -> low <= j -> b <= j) ->
  exists d', search_loop run src n low high d = Some (b, S b, d') /\ forall j, d' j = d j.
Proof.
  intros C BC. pose proof (checks_touches C) as T.
  induction n as [|n IH]; intros low high d b L E B BR LB; cbn [search_loop].
  - destruct (Nat.leb_spec (high - low) 1); [|lia].
    assert (b = low) by lia. subst. assert (high = S low) by lia. subst. eauto.
  - destruct (Nat.leb_spec (high - low) 1).
    { assert (b = low) by lia. subst. assert (high = S low) by lia. subst. eauto. }
    assert (M : low < (low + high) / 2 < high).
    { split; [apply Nat.div_le_lower_bound; lia|apply Nat.div_lt_upper_bound; lia]. }
    set (mid := (low + high) / 2) in *.
    pose proof (round_restores T low mid d ltac:(lia) ltac:(intros; apply E; lia)) as R.
    pose proof (run_range_checks C BC (mid - low) low mid 0 d ltac:(lia) ltac:(lia)
                  ltac:(intros j Bj _; apply E; auto) ltac:(intros; lia)) as K.
    destruct (run_range run (mid - low) low mid 0 d) as [ok d1]. cbn [fst snd] in *.
    destruct ok.
    + assert (Nb : forall j, bad j -> ~ low <= j < low + 0 + (mid - low)) by tauto.
      pose proof (Nb b B).
      destruct (IH mid high (revert src (mid - low) low d1) b) as (d' & H1 & H2); auto; try lia.
      { intros j J. rewrite R. apply E. intuition lia. }
      { intros j Bj J. apply LB; auto. lia. }
      exists d'. rewrite H1. split; auto. intros; rewrite H2; auto.
    + assert (b < mid).
      { destruct (Nat.lt_ge_cases b mid); auto. exfalso.
        assert (false = true); [|congruence]. apply K. intros j Bj J.
        assert (b <= j) by (apply LB; auto; lia). lia. }
      destruct (IH low mid (revert src (mid - low) low d1) b) as (d' & H1 & H2); auto; try lia.
      { intros j J. rewrite R. apply E. intuition lia. }
      exists d'. rewrite H1. split; auto. intros; rewrite H2; auto.
Qed.
End Search.
