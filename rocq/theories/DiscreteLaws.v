(** What the discrete impulses are (C47), time reversal and rest (C49). *)
From Coq Require Import List Arith ZArith Bool Lia Field.
From Verif Require Import Scalar Base Spatial SpecGeo SpatialTac SpatialProofs Joint Body Kin InvDyn FwdDyn Opspace OpspaceAba Deriv Sim Ops Discrete Specs SpecCache SpecKin SpecDyn SpecDiscrete TreeProofs CacheProofs CacheOps OpsCache KinProofs WorldProofs DynProofs DynApi AbaLaws BigSum DiscreteCache DiscreteProofs DiscreteTravel.
Import ListNotations.

Section Laws.
Context {S : Scal} {L : ScalLaws S}.
Add Field kf : (@kfield S L).
Variable log6 : iso -> motion.
Variable dlog6 : iso -> i6.
Local Open Scope k_scope.
Local Notation dval := (dval log6 dlog6).
Local Notation impv := (impv log6 dlog6).
Local Notation DID := (q_DiscreteID log6 dlog6).

(** The robot in another configuration. *)
Definition at_q (ab : body) (q : list K) : body :=
  Body (ab_name ab) (ab_graphics ab) (ab_cache ab) (ab_dof ab) (ab_rbs ab) q (ab_dq ab) (ab_g ab)
       (ab_loads ab) (ab_Tbase ab) (ab_Ibase ab) (ab_anc ab) (ab_sub ab).
Lemma tree_at_q ab q : tree_ok ab -> List.length q = ab_dof ab -> tree_ok (at_q ab q).
Proof. intros T H. apply (tree_same ab); auto; cbn; apply T. Qed.
Lemma tra_point (T : iso) : iso_app T v3zero = tra T.
Proof. revert T. vring. Qed.
Lemma posed_at ab q X k : tree_ok ab -> List.length q = ab_dof ab -> posed ab q X -> (k < ab_dof ab)%nat -> X k = twv (at_q ab q) k.
Proof.
  intros T H HX Hk. destruct (HX k Hk) as [H1 H2]. pose proof (tree_at_q ab q T H) as T'.
  pose proof (orientation_stored (at_q ab q) (Z.of_nat k) T') as H3. pose proof (position_stored (at_q ab q) (Z.of_nat k) v3zero T') as H4.
  change (ab_dof (at_q ab q)) with (ab_dof ab) in H3, H4. rewrite idx_nat in H3, H4 by auto.
  change (Orientation_q (at_q ab q) (ab_q (at_q ab q)) (Z.of_nat k)) with (Orientation_q ab q (Z.of_nat k)) in H3.
  change (Position_q (at_q ab q) (ab_q (at_q ab q)) (Z.of_nat k) v3zero) with (Position_q ab q (Z.of_nat k) v3zero) in H4.
  rewrite H1 in H3. rewrite H2 in H4. inversion H3 as [E1]. inversion H4 as [E2].
  destruct (X k) as [R t], (twv (at_q ab q) k) as [R' t']. cbn in *. subst R'. f_equal. rewrite E2. generalize R t'. vring.
Qed.
Lemma posed_ex ab q : tree_ok ab -> List.length q = ab_dof ab -> posed ab q (twv (at_q ab q)).
Proof.
  intros T H k Hk. pose proof (tree_at_q ab q T H) as T'.
  pose proof (orientation_stored (at_q ab q) (Z.of_nat k) T') as H3. pose proof (position_stored (at_q ab q) (Z.of_nat k) v3zero T') as H4.
  change (ab_dof (at_q ab q)) with (ab_dof ab) in H3, H4. rewrite idx_nat in H3, H4 by auto.
  split; [exact H3|]. rewrite <- tra_point. exact H4.
Qed.
Lemma posed_now ab X k : tree_ok ab -> posed ab (ab_q ab) X -> (k < ab_dof ab)%nat -> X k = twv ab k.
Proof. intros T HX Hk. rewrite (posed_at ab (ab_q ab) X k) by (auto; apply T). destruct ab; reflexivity. Qed.

Lemma iso_inv_inv X : rigid X -> iso_inv (iso_inv X) = X.
Proof.
  destruct X as [Q t]. unfold rigid. cbn. intros H. unfold iso_inv. cbn [rot tra]. f_equal; [apply m3tr_tr|].
  rewrite m3mulv_opp, m3tr_tr, rot_mulv_tr by auto. revert t. vring.
Qed.

Section Robot.
Variable ab : body.
Hypothesis T : tree_ok ab.
Hypothesis R : rigid_robot ab.
Let n := ab_dof ab.

Lemma iso_inv_mul A B : rigid A -> rigid B -> iso_inv (iso_mul A B) = iso_mul (iso_inv B) (iso_inv A).
Proof.
  intros HA HB. rewrite <- (iso_mul_id_r (iso_inv (iso_mul A B))).
  assert (E : iso_mul (iso_mul A B) (iso_mul (iso_inv B) (iso_inv A)) = iso_id).
  { rewrite iso_mul_assoc, <- (iso_mul_assoc B), iso_inv_r, iso_mul_id_l, iso_inv_r by auto. auto. }
  rewrite <- E, <- iso_mul_assoc, iso_inv_l, iso_mul_id_l by (apply rigid_mul; auto). auto.
Qed.
Lemma dTp_seen qp k : List.length qp = n -> (k < n)%nat -> dTp ab qp k = seen_from (twv (at_q ab qp) k) (twv ab k).
Proof.
  intros Hl. pose proof (tree_at_q ab qp T Hl) as T'. assert (R' : rigid_robot (at_q ab qp)) by exact R.
  induction k as [k IH] using lt_wf_ind. intros Hk. unfold dTp. rewrite tval_eq by auto. unfold seen_from.
  rewrite (twv_eq ab k) by auto. rewrite (twv_eq (at_q ab qp) k) by auto. change (par (at_q ab qp) k) with (par ab k).
  change (tpv (at_q ab qp) k) with (T_par_q ab k (qk qp k)).
  assert (R1 : rigid (T_par_q ab k (qk qp k))) by (apply T_par_rigid; auto).
  destruct (par ab k) as [p|] eqn:E.
  - pose proof (par_lt ab T k p Hk E) as Hp. fold (dTp ab qp p). rewrite IH by lia. unfold seen_from.
    rewrite iso_inv_mul, !iso_mul_assoc by (auto; apply twv_rigid; auto; cbn; lia). auto.
  - change (ab_Tbase (at_q ab qp)) with (ab_Tbase ab). destruct R as [RB _].
    rewrite iso_inv_mul, !iso_mul_assoc by auto. rewrite <- (iso_mul_assoc (iso_inv (ab_Tbase ab))), iso_inv_l, iso_mul_id_l by auto. auto.
Qed.
Lemma dTn_seen qn k : List.length qn = n -> (k < n)%nat -> dTn ab qn k = seen_from (twv ab k) (twv (at_q ab qn) k).
Proof.
  intros Hl. pose proof (tree_at_q ab qn T Hl) as T'. assert (R' : rigid_robot (at_q ab qn)) by exact R.
  induction k as [k IH] using lt_wf_ind. intros Hk. unfold dTn. rewrite tval_eq by auto. unfold seen_from.
  rewrite (twv_eq ab k) by auto. rewrite (twv_eq (at_q ab qn) k) by auto. change (par (at_q ab qn) k) with (par ab k).
  change (tpv (at_q ab qn) k) with (T_par_q ab k (qk qn k)).
  assert (R1 : rigid (tpv ab k)) by (apply T_par_rigid; auto).
  destruct (par ab k) as [p|] eqn:E.
  - pose proof (par_lt ab T k p Hk E) as Hp. fold (dTn ab qn p). rewrite IH by lia. unfold seen_from.
    rewrite iso_inv_mul, !iso_mul_assoc by (auto; apply twv_rigid; auto; lia). auto.
  - change (ab_Tbase (at_q ab qn)) with (ab_Tbase ab). destruct R as [RB _].
    rewrite iso_inv_mul, !iso_mul_assoc by auto. rewrite <- (iso_mul_assoc (iso_inv (ab_Tbase ab))), iso_inv_l, iso_mul_id_l by auto. auto.
Qed.
Lemma dTp_rigid qp k : List.length qp = n -> (k < n)%nat -> rigid (dTp ab qp k).
Proof.
  intros Hl Hk. rewrite dTp_seen by auto. apply rigid_mul; [apply rigid_inv|]; apply twv_rigid; auto. apply tree_at_q; auto.
Qed.

Lemma mdot_tmul A m f : mdot m (i6tmul A f) = mdot (apply6 A m) f.
Proof. unfold i6tmul, apply6. revert A m f. vring. Qed.
Lemma momentum_action dt k X d : mdot d (momentum log6 dlog6 ab dt k X) = action log6 dlog6 (rb_inertia (rb_at ab k)) dt X d.
Proof. unfold momentum, action. rewrite mdot_tmul. reflexivity. Qed.
Lemma apply6_zero A : apply6 A mzero = mzero.
Proof. unfold apply6. revert A. vring. Qed.
Lemma action_zero B dt X : action log6 dlog6 B dt X mzero = 0.
Proof. unfold action. rewrite apply6_zero, mdot_zero_l. auto. Qed.

(** A joint's motion of link [k], in the link's axes. *)
Definition dir (j k : nat) : motion := in_axes (twv ab k) (col (Jall ab k v3zero) j).
Lemma dir_eq j k : (j < n)%nat -> (k < n)%nat -> dir j k = if ancb ab j k then mact (iso_inv (twv ab k)) (Sw ab j) else mzero.
Proof.
  intros Hj Hk. unfold dir. rewrite col_Jall by auto. pose proof (twv_rigid ab k R T Hk) as RX. destruct (ancb ab j k).
  - unfold Pall. destruct (twv ab k) as [Q t]. unfold rigid in RX. cbn in RX. destruct (Sw ab j) as [v w].
    unfold in_axes, mact, iso_inv, iso_app. cbn [mlin mang rot tra]. f_equal.
    assert (E : v3cross (m3mulv (m3tr Q) w) (v3opp (m3mulv (m3tr Q) t)) = v3opp (m3mulv (m3tr Q) (v3cross w t))).
    { rewrite <- (rot_cross (m3tr Q) w t) by (apply is_rot_tr; auto). generalize (m3mulv (m3tr Q) t) (m3mulv (m3tr Q) w). vring. }
    rewrite E. clear E RX. revert Q t v w. vring.
  - unfold in_axes. generalize (twv ab k). vring.
Qed.
Lemma power_dir j k f : (j < n)%nat -> (k < n)%nat ->
  power_at (tra (twv ab k)) f (col (Jall ab k v3zero) j) = if ancb ab j k then mdot (Sw ab j) f else 0.
Proof.
  intros Hj Hk. rewrite col_Jall by auto. destruct (ancb ab j k).
  - unfold Pall, power_at. cbn [mlin mang]. assert (E : iso_app (twv ab k) v3zero = tra (twv ab k)).
    { generalize (twv ab k). intros [Q t]. revert Q t. vring. }
    rewrite E. generalize (Sw ab j) (tra (twv ab k)). vring.
  - unfold power_at. generalize (tra (twv ab k)). vring.
Qed.

Definition inert (k : nat) (dt : K) (qp qn : list K) (d : motion) : K :=
  action log6 dlog6 (rb_inertia (rb_at ab k)) dt (dTn ab qn k) d -
  action log6 dlog6 (rb_inertia (rb_at ab k)) dt (dTp ab qp k) (mact (dTp ab qp k) d).
Lemma dval_eq qp qn dt fe grav j : List.length qp = n -> List.length qn = n -> (j < n)%nat ->
  dval ab qp qn dt fe grav j = ksum n (fun k => inert k dt qp qn (dir j k) -
     match fe k with Some f => dt * power_at (tra (twv ab k)) f (col (Jall ab k v3zero) j) | None => 0 end) +
     (if grav then dt * Gv ab j else 0).
Proof.
  intros Hp Hn Hj. unfold DiscreteProofs.dval. rewrite (back_world ab T R) by auto.
  assert (E : ksum (ab_dof ab) (fun k => if ancb ab j k then mdot (Sw ab j) (fact (twv ab k) (impv ab qp qn dt fe k)) else 0) =
    ksum n (fun k => inert k dt qp qn (dir j k) - match fe k with Some f => dt * power_at (tra (twv ab k)) f (col (Jall ab k v3zero) j) | None => 0 end)).
  { apply ksum_ext. intros k Hk. pose proof (twv_rigid ab k R T Hk) as RX. unfold inert.
    assert (PD : forall f, dt * power_at (tra (twv ab k)) f (col (Jall ab k v3zero) j) = if ancb ab j k then dt * mdot (Sw ab j) f else 0).
    { intros f. rewrite power_dir by auto. destruct (ancb ab j k); ring. }
    rewrite dir_eq by auto. destruct (ancb ab j k) eqn:EA.
    - unfold DiscreteProofs.impv, impulse. rewrite mdot_act_r by auto.
      assert (X : mdot (mact (iso_inv (twv ab k)) (Sw ab j)) (fsub (momentum log6 dlog6 ab dt k (dTn ab qn k)) (fact (iso_inv (dTp ab qp k)) (momentum log6 dlog6 ab dt k (dTp ab qp k)))) =
                  inert k dt qp qn (mact (iso_inv (twv ab k)) (Sw ab j))).
      { unfold inert. rewrite mdot_sub_r, !momentum_action. f_equal. rewrite mdot_act_r by (apply rigid_inv, dTp_rigid; auto).
        rewrite momentum_action, iso_inv_inv by (apply dTp_rigid; auto). auto. }
      fold (inert k dt qp qn (mact (iso_inv (twv ab k)) (Sw ab j))).
      destruct (fe k) as [f|]; [|rewrite X; ring].
      rewrite PD, mdot_sub_r, X. f_equal. rewrite mdot_scale_r. f_equal.
      rewrite mdot_act by (apply rigid_inv; auto). auto.
    - rewrite mact_zero, !action_zero. destruct (fe k); [rewrite PD|]; ring. }
  rewrite E. destruct grav; ring.
Qed.
End Robot.

(** ** Time reversal *)
Section Reverse.
Variable ab : body.
Hypothesis T : tree_ok ab.
Hypothesis R : rigid_robot ab.
Hypothesis V : reversible log6 dlog6.
Let n := ab_dof ab.
Lemma seen_back A B : rigid A -> rigid B -> seen_from B A = iso_inv (seen_from A B).
Proof. intros HA HB. unfold seen_from. rewrite iso_inv_mul, iso_inv_inv by (auto; apply rigid_inv; auto). auto. Qed.
Lemma action_back B dt X d : rigid X -> action log6 dlog6 B dt (iso_inv X) d = - action log6 dlog6 B dt X (mact X d).
Proof.
  intros HX. unfold action. rewrite (rv_dlog _ _ V), (rv_log _ _ V) by auto. rewrite <- mdot_opp_r, <- imul_opp. f_equal. f_equal.
  destruct (log6 X) as [[] []]. cbn. unfold mopp, v3opp, v3div. cbn. f_equal; f_equal; rewrite !(Fdiv_def kfield); ring.
Qed.
Lemma dval_back qp qn dt fe grav j : List.length qp = n -> List.length qn = n -> (j < n)%nat ->
  dval ab qp qn dt fe grav j = dval ab qn qp dt fe grav j.
Proof.
  intros Hp Hn Hj. rewrite !(dval_eq ab T R) by auto. f_equal. apply ksum_ext. intros k Hk. f_equal. unfold inert.
  pose proof (twv_rigid ab k R T Hk) as RX.
  assert (RP : rigid (twv (at_q ab qp) k)) by (apply twv_rigid; auto; apply tree_at_q; auto).
  assert (RN : rigid (twv (at_q ab qn) k)) by (apply twv_rigid; auto; apply tree_at_q; auto).
  rewrite !(dTn_seen ab T R), !(dTp_seen ab T R) by auto.
  rewrite (seen_back (twv (at_q ab qp) k) (twv ab k)) by auto. rewrite (seen_back (twv ab k) (twv (at_q ab qn) k)) by auto.
  assert (S1 : rigid (seen_from (twv (at_q ab qp) k) (twv ab k))) by (apply rigid_mul; [apply rigid_inv|]; auto).
  assert (S2 : rigid (seen_from (twv ab k) (twv (at_q ab qn) k))) by (apply rigid_mul; [apply rigid_inv|]; auto).
  rewrite !action_back by auto. rewrite mact_inv_r by auto. ring.
Qed.
End Reverse.
End Laws.
