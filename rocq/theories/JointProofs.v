(** Joint setters, joint transforms, type names. *)
From Coq Require Import List Arith ZArith Bool String Ascii Reals Lra Lia Ring Field.
From Verif Require Import Scalar Base Spatial Joint Body SpecGeo Specs Instances SpatialProofs.
Import ListNotations.

(** ** C25 *)
Definition joint_good (j : @joint RScal) : Prop :=
  bound_le (jqmin j) (jqmax j) /\ bound_le (@Fin RScal 0%R) (jdqmax j) /\
  bound_le (@Fin RScal 0%R) (jfqmax j) /\
  (0 <= jcoulomb j)%R /\ (0 <= jviscous j)%R /\ (0 <= jstiction j)%R /\ jsub j = subspace_of (jtyp j).

Lemma blt_le (a b : @bound RScal) : blt a b = false -> bound_le b a.
Proof.
  destruct a as [|a|], b as [|b|]; cbn; auto; try discriminate.
  - destruct (Reqb b b) eqn:E; [discriminate|]. apply Reqb_neq in E. congruence.
  - apply Rltb_ge.
  - destruct (Reqb a a) eqn:E; [discriminate|]. apply Reqb_neq in E. congruence.
Qed.
Lemma joint_call_good o (j j' : @joint RScal) : joint_good j ->
  settled (joint_call o j) = Some j' -> joint_good j'.
Proof.
  intros (H1&H2&H3&H4&H5&H6&H7). unfold joint_good.
  destruct o; cbn; unfold set_q_min, set_q_max, set_q_limits, set_dq_max, set_fq_max,
    set_f_coulomb, set_f_viscous, set_f_stiction;
  try match goal with |- context [blt ?a ?b] => destruct (blt a b) eqn:E; [|apply blt_le in E] end;
  try match goal with |- context [klt ?a ?b] => destruct (klt a b) eqn:E; [|cbn in E; apply Rltb_ge in E] end;
  cbn; intros H; inversion H; subst; cbn; auto 10.
Qed.
Lemma joint_call_exn {S : Scal} o (j j' : joint) : joint_call o j = Exn j' -> j' = j.
Proof.
  destruct o; cbn; unfold set_q_min, set_q_max, set_q_limits, set_dq_max, set_fq_max,
    set_f_coulomb, set_f_viscous, set_f_stiction;
  try match goal with |- context [blt ?a ?b] => destruct (blt a b) eqn:E end;
  try match goal with |- context [klt ?a ?b] => destruct (klt a b) eqn:E end;
  intros H; inversion H; auto.
Qed.
Lemma joint_call_ok {S : Scal} o (j : joint) : joint_call o j <> Bad.
Proof.
  destruct o; cbn; unfold set_q_min, set_q_max, set_q_limits, set_dq_max, set_fq_max,
    set_f_coulomb, set_f_viscous, set_f_stiction;
  try match goal with |- context [blt ?a ?b] => destruct (blt a b) eqn:E end;
  try match goal with |- context [klt ?a ?b] => destruct (klt a b) eqn:E end;
  discriminate.
Qed.
Lemma joint_run_some {S : Scal} ops (j : joint) : exists j', joint_run ops j = Some j'.
Proof.
  unfold joint_run. revert j. induction ops as [|o ops IH]; cbn; intros j; eauto.
  destruct (joint_call o j) as [s u|s|] eqn:E; cbn; eauto. apply joint_call_ok in E. easy.
Qed.
Lemma joint_run_good ops (j : @joint RScal) j' : joint_good j -> joint_run ops j = Some j' -> joint_good j'.
Proof.
  unfold joint_run. revert j. induction ops as [|o ops IH]; cbn; intros j G H; [inversion H; subst; auto|].
  destruct (settled (joint_call o j)) as [j1|] eqn:E.
  - eapply IH; [|exact H]. eapply joint_call_good; eauto.
  - destruct (joint_call o j) eqn:E2; try discriminate. apply joint_call_ok in E2. easy.
Qed.
Lemma joint_default_good : joint_good joint_default.
Proof. unfold joint_good; cbn. repeat split; auto; lra. Qed.
Lemma joint_default_run ops j' : joint_run ops (@joint_default RScal) = Some j' -> joint_good j'.
Proof. apply joint_run_good, joint_default_good. Qed.

(** Any scalar: type and subspace stay in step. *)
Lemma joint_run_sub {S : Scal} ops (j j' : joint) : jsub j = subspace_of (jtyp j) ->
  joint_run ops j = Some j' -> jsub j' = subspace_of (jtyp j').
Proof.
  unfold joint_run. revert j. induction ops as [|o ops IH]; cbn; intros j G H; [inversion H; subst; auto|].
  destruct (settled (joint_call o j)) as [j1|] eqn:E.
  - apply (IH j1); auto. clear H IH. revert E. destruct o; cbn; unfold set_q_min, set_q_max, set_q_limits, set_dq_max, set_fq_max,
      set_f_coulomb, set_f_viscous, set_f_stiction;
    try match goal with |- context [blt ?a ?b] => destruct (blt a b) eqn:E end;
    try match goal with |- context [klt ?a ?b] => destruct (klt a b) eqn:E end;
    intros H; inversion H; subst; auto.
  - destruct (joint_call o j) eqn:E2; try discriminate. apply joint_call_ok in E2. easy.
Qed.

Lemma joint_default_all ops : exists j, joint_run ops (@joint_default RScal) = Some j /\
  bound_le (jqmin j) (jqmax j) /\ bound_le (@Fin RScal 0%R) (jdqmax j) /\
  bound_le (@Fin RScal 0%R) (jfqmax j) /\
  (0 <= jcoulomb j)%R /\ (0 <= jviscous j)%R /\ (0 <= jstiction j)%R /\ jsub j = subspace_of (jtyp j).
Proof.
  destruct (joint_run_some ops joint_default) as [j H]. exists j. split; auto.
  exact (joint_default_run _ _ H).
Qed.
Lemma joint_call_outcome {S : Scal} o (j : joint) :
  match joint_call o j with Ret _ _ => True | Exn j' => j' = j | Bad => False end.
Proof.
  destruct (joint_call o j) eqn:E; auto.
  - eapply joint_call_exn; eauto.
  - apply joint_call_ok in E; auto.
Qed.
Lemma joint_run_unit {S : Scal} ops j : joint_run ops joint_default = Some j ->
  jsub j = match jtyp j with
           | JRx => Mot v3zero (V3 k1 k0 k0) | JRy => Mot v3zero (V3 k0 k1 k0) | JRz => Mot v3zero (V3 k0 k0 k1)
           | JPx => Mot (V3 k1 k0 k0) v3zero | JPy => Mot (V3 k0 k1 k0) v3zero | JPz => Mot (V3 k0 k0 k1) v3zero
           | JUndef => Mot v3zero v3zero
           end.
Proof. intros H. apply joint_run_sub in H; auto. Qed.
Lemma blt_spec (a b : @bound RScal) : blt a b = true <-> ~ bound_le b a.
Proof.
  destruct a as [|a|], b as [|b|]; cbn; try (split; [discriminate|intros X; exfalso; apply X; exact I]);
    try (split; auto; fail).
  - split; auto. intros _. destruct (Reqb b b) eqn:E; auto. apply Reqb_neq in E. congruence.
  - rewrite Rltb_lt. split; lra.
  - split; auto. intros _. destruct (Reqb a a) eqn:E; auto. apply Reqb_neq in E. congruence.
Qed.
Lemma joint_accepts (j : @joint RScal) x y :
  (set_q_min x j = Exn j <-> ~ bound_le x (jqmax j)) /\ (set_q_max x j = Exn j <-> ~ bound_le (jqmin j) x) /\
  (set_q_limits x y j = Exn j <-> ~ bound_le x y) /\
  (set_dq_max x j = Exn j <-> ~ bound_le (@Fin RScal 0%R) x) /\ (set_fq_max x j = Exn j <-> ~ bound_le (@Fin RScal 0%R) x) /\
  forall c : @K RScal, (set_f_coulomb c j = Exn j <-> (c < 0)%R) /\ (set_f_viscous c j = Exn j <-> (c < 0)%R) /\
            (set_f_stiction c j = Exn j <-> (c < 0)%R).
Proof.
  assert (Y : forall (e : bool) (a b : @joint RScal) (P : Prop), (e = true <-> P) ->
    ((if e then @Exn _ unit b else Ret a tt) = Exn b <-> P)).
  { intros e a b P H. rewrite <- H. destruct e; split; auto; discriminate. }
  repeat match goal with |- _ /\ _ => split | |- forall _, _ => intro end;
    apply Y; try apply blt_spec; apply Rltb_lt.
Qed.
Lemma nan_limit : exists j, joint_run [JSetQMin (@Fin F64 SpecFloat.S754_nan)] (@joint_default F64) = Some j /\
  @ble_spec F64 (jqmin j) (jqmax j) = false.
Proof. eexists. split; [reflexivity|]. reflexivity. Qed.
Lemma joint_run_example : exists j,
  joint_run [JSetType JRz; JSetQLim (@Fin RScal (-1)%R) (@Fin RScal 1%R); JSetQMin (@Fin RScal 2%R); JSetDqMax (@Fin RScal 3%R)]
            (@joint_default RScal) = Some j /\
  jqmin j = @Fin RScal (-1)%R /\ jqmax j = @Fin RScal 1%R /\ jtyp j = JRz.
Proof.
  unfold joint_run; cbn. unfold set_q_limits, set_q_min, set_dq_max; cbn.
  replace (Rltb 1 (-1)) with false by (symmetry; apply Rltb_ge; lra). cbn.
  replace (Rltb 1 2) with true by (symmetry; apply Rltb_lt; lra). cbn.
  replace (Rltb 3 0) with false by (symmetry; apply Rltb_ge; lra). cbn.
  eexists. split; [reflexivity|]. cbn. auto.
Qed.

(** ** C26 *)
Section Rigid.
Context {S : Scal} {L : ScalLaws S}.
Local Open Scope k_scope.
Add Field kfJ : (@kfield S L).

Lemma cos2 x : kcos x * kcos x = 1 - ksin x * ksin x.
Proof. rewrite <- (ktrig x). ring. Qed.

Ltac rot_tac q :=
  unfold is_rot, m3det, angle_axis, m3mul, m3mulv, m3tr, m3id, v3dot, v3cross, v3scale, ex, ey, ez; cbn;
  pose proof (cos2 q) as C; generalize dependent (ksin q); generalize (kcos q); intros c s C;
  split; [apply (f_equal3 (@M3 S)); apply (f_equal3 (@V3 S)); ring [C]|ring [C]].

Lemma angle_axis_x q : is_rot (angle_axis q ex).
Proof. rot_tac q. Qed.
Lemma angle_axis_y q : is_rot (angle_axis q ey).
Proof. rot_tac q. Qed.
Lemma angle_axis_z q : is_rot (angle_axis q ez).
Proof. rot_tac q. Qed.

Lemma T_joint_rigid j q : rigid (T_joint j q).
Proof.
  unfold rigid, T_joint. destruct (jtyp j); cbn; auto using is_rot_id, angle_axis_x, angle_axis_y, angle_axis_z.
Qed.

Ltac comp := unfold mzero, angle_axis, mact, m3mulv, v3sub, v3cross, v3dot, v3scale, iso_id, m3id, v3zero, mzero, ex, ey, ez; cbn.
Ltac split_eq :=
  repeat match goal with
  | |- @Iso _ _ _ = Iso _ _ => apply (f_equal2 (@Iso S))
  | |- @Mot _ _ _ = Mot _ _ => apply (f_equal2 (@Mot S))
  | |- @M3 _ _ _ _ = M3 _ _ _ => apply (f_equal3 (@M3 S))
  | |- @V3 _ _ _ _ = V3 _ _ _ => apply (f_equal3 (@V3 S))
  end.
Lemma T_joint_0 j : T_joint j 0 = iso_id.
Proof.
  unfold T_joint. destruct (jtyp j); comp; rewrite ?kcos0, ?ksin0; split_eq; ring.
Qed.
Lemma T_joint_axis j q : jsub j = subspace_of (jtyp j) -> mact (T_joint j q) (jsub j) = jsub j.
Proof.
  intros ->. unfold T_joint. destruct (jtyp j); unfold subspace_of; comp; split_eq; ring.
Qed.
End Rigid.

(** Over the reals: joint motions compose. *)
Section Group.
Lemma T_joint_add (j : @joint RScal) p q :
  iso_mul (T_joint j p) (T_joint j q) = T_joint j (p + q)%R.
Proof.
  unfold T_joint. destruct (jtyp j);
  unfold angle_axis, iso_mul, m3mul, m3mulv, m3tr, v3add, v3dot, v3scale, iso_id, m3id, v3zero, ex, ey, ez; cbn;
  rewrite ?cos_plus, ?sin_plus;
  repeat match goal with
  | |- @Iso _ _ _ = Iso _ _ => apply (f_equal2 (@Iso RScal))
  | |- @M3 _ _ _ _ = M3 _ _ _ => apply (f_equal3 (@M3 RScal))
  | |- @V3 _ _ _ _ = V3 _ _ _ => apply (f_equal3 (@V3 RScal))
  end; cbn; match goal with |- @eq _ ?a ?b => change (@eq R a b) end; ring.
Qed.
End Group.

(** ** C27 *)
Section Names.

Lemma lower_ascii_same a b : lower_ascii a = lower_ascii b <-> same_char a b.
Proof.
  unfold lower_ascii, same_char, letter. split.
  - assert (Ba := nat_ascii_bounded a). assert (Bb := nat_ascii_bounded b).
    destruct (Nat.leb 65 (nat_of_ascii a) && Nat.leb (nat_of_ascii a) 90)%bool eqn:Ea;
    destruct (Nat.leb 65 (nat_of_ascii b) && Nat.leb (nat_of_ascii b) 90)%bool eqn:Eb; intros H.
    + left. apply (f_equal nat_of_ascii) in H. 
      apply andb_true_iff in Ea. apply andb_true_iff in Eb. destruct Ea as [E1 E2], Eb as [E3 E4].
      apply Nat.leb_le in E1, E2, E3, E4.
      rewrite !nat_ascii_embedding in H by lia.
      rewrite <- (ascii_nat_embedding a), <- (ascii_nat_embedding b). f_equal. lia.
    + right. apply andb_true_iff in Ea. destruct Ea as [E1 E2]. apply Nat.leb_le in E1, E2.
      apply (f_equal nat_of_ascii) in H. rewrite nat_ascii_embedding in H by lia.
      exists (nat_of_ascii a - 65). lia.
    + right. apply andb_true_iff in Eb. destruct Eb as [E1 E2]. apply Nat.leb_le in E1, E2.
      apply (f_equal nat_of_ascii) in H. rewrite nat_ascii_embedding in H by lia.
      exists (nat_of_ascii b - 65). lia.
    + left; auto.
  - intros [->|[k [Hk [Ha Hb]]]]; auto.
    assert (X : forall c, nat_of_ascii c = 65 + k \/ nat_of_ascii c = 97 + k ->
      (if (Nat.leb 65 (nat_of_ascii c) && Nat.leb (nat_of_ascii c) 90)%bool then ascii_of_nat (nat_of_ascii c + 32) else c)
      = ascii_of_nat (97 + k)).
    { intros c [Hc|Hc].
      - rewrite Hc. replace (Nat.leb 65 (65 + k) && Nat.leb (65 + k) 90)%bool with true.
        + f_equal. lia.
        + symmetry. apply andb_true_iff. split; apply Nat.leb_le; lia.
      - replace (Nat.leb (nat_of_ascii c) 90) with false by (symmetry; apply Nat.leb_gt; lia).
        rewrite andb_false_r. rewrite <- Hc. symmetry. apply ascii_nat_embedding. }
    rewrite (X a Ha), (X b Hb). reflexivity.
Qed.
Lemma lower_same s t : lower s = lower t <-> same_ci s t.
Proof.
  split.
  - revert t; induction s; destruct t; cbn; intros H; inversion H; constructor; auto.
    apply lower_ascii_same; auto.
  - induction 1; cbn; auto. f_equal; auto. apply lower_ascii_same; auto.
Qed.

Lemma jtype_roundtrip t : jtype_of_string (token (jtype_to_string t)) = Ok t.
Proof. destruct t; reflexivity. Qed.
Lemma gtype_roundtrip t : gtype_of_string (token (gtype_to_string t)) = Ok t.
Proof. destruct t; reflexivity. Qed.

Lemma jtype_parse s t : jtype_of_string s = Ok t <-> same_ci s (jtype_to_string t).
Proof.
  rewrite <- lower_same. unfold jtype_of_string.
  assert (E : lower (jtype_to_string t) = jtype_to_string t) by (destruct t; reflexivity).
  rewrite E.
  generalize (lower s) as u; intros u;
  repeat match goal with |- context [String.eqb u ?n] => destruct (String.eqb_spec u n); [subst u|] end;
  destruct t; cbn; split; intros; try congruence; try discriminate.
Qed.
Lemma jtype_throw s : (forall t, jtype_of_string s <> Ok t) <-> jtype_of_string s = Throw.
Proof.
  unfold jtype_of_string.
  generalize (lower s) as u; intros u;
  repeat match goal with |- context [String.eqb u ?n] => destruct (String.eqb_spec u n); [subst u|] end;
  cbn; split; intros H; try reflexivity; try (exfalso; eapply H; reflexivity); try discriminate; intros t0 H0; discriminate.
Qed.
Lemma gtype_parse s t : gtype_of_string s = Ok t <-> same_ci s (gtype_to_string t).
Proof.
  rewrite <- lower_same. unfold gtype_of_string.
  assert (E : lower (gtype_to_string t) = gtype_to_string t) by (destruct t; reflexivity).
  rewrite E.
  generalize (lower s) as u; intros u;
  repeat match goal with |- context [String.eqb u ?n] => destruct (String.eqb_spec u n); [subst u|] end;
  destruct t; cbn; split; intros; try congruence; try discriminate.
Qed.
Lemma gtype_throw s : (forall t, gtype_of_string s <> Ok t) <-> gtype_of_string s = Throw.
Proof.
  unfold gtype_of_string.
  generalize (lower s) as u; intros u;
  repeat match goal with |- context [String.eqb u ?n] => destruct (String.eqb_spec u n); [subst u|] end;
  cbn; split; intros H; try reflexivity; try (exfalso; eapply H; reflexivity); try discriminate; intros t0 H0; discriminate.
Qed.
Lemma jtype_parse_all s :
  (forall t, jtype_of_string s = Ok t <-> same_ci s (jtype_to_string t)) /\
  ((forall t, ~ same_ci s (jtype_to_string t)) <-> jtype_of_string s = Throw).
Proof.
  split; [intros; apply jtype_parse|]. rewrite <- jtype_throw. split; intros H t E; apply (H t); apply jtype_parse; auto.
Qed.
Lemma gtype_parse_all s :
  (forall t, gtype_of_string s = Ok t <-> same_ci s (gtype_to_string t)) /\
  ((forall t, ~ same_ci s (gtype_to_string t)) <-> gtype_of_string s = Throw).
Proof.
  split; [intros; apply gtype_parse|]. rewrite <- gtype_throw. split; intros H t E; apply (H t); apply gtype_parse; auto.
Qed.
End Names.
