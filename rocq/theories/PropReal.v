(** C09, C15 (potential), C23, C42: theorems over the reals *)
From Coq Require Import List Arith ZArith Bool String Reals Lra Lia.
From Verif Require Import Scalar Base Spatial SpecGeo Joint Body Kin InvDyn FwdDyn Opspace OpspaceAba Deriv Sim Ops Instances Specs SpecCache SpecKin SpecDyn SpecReal Samples RealCalc RealMotion RealEnergy HessProofs CacheOps DynApi PropCache PropDyn.
Import ListNotations.
Local Existing Instance RScal.
Local Open Scope R_scope.
Local Notation solve0 := (@solve0 RScal).
Local Notation pinv0 := (@pinv0 RScal).

(** A robot over the reals: a revolute joint about z and, one metre out, a joint
    about x, with a load on the second link. *)
Definition r_link_x : @rigid_body RScal := Rb "b" [] (-1) (-1) (Iso m3id (V3 1 0 0)) r_inertia (joint_of JRx).
Definition r_history : list (@op RScal) := [OAdd r_link (-1); OAdd r_link_x 0; OAddLoad r_inertia 1].
Lemma rigid_shift v : rigid (@Iso RScal m3id v).
Proof. split; [|cbn; ring]. cbn. unfold m3mul, m3tr, m3mulv, m3id, v3dot. cbn. f_equal; f_equal; ring. Qed.
Definition r_meets (h : list (@op RScal)) (ab : @body RScal) : Prop :=
  reached solve0 pinv0 h ab /\ base_fixed false h = true /\ proper ab /\ proper_joints ab.
Definition r_ab : @body RScal :=
  match run solve0 pinv0 r_history (body_new "r" (@junk RScal 0)) with Some ab => ab | None => body_new "none" (@junk RScal 0) end.
Lemma r_robot : r_meets r_history r_ab /\ ab_dof r_ab = 2%nat.
Proof.
  split; [split; [exists "r"%string, (@junk RScal 0%R); reflexivity|]|reflexivity]. split; [reflexivity|].
  assert (X : forall k, (k < 2)%nat -> k = 0%nat \/ k = 1%nat) by lia.
  assert (SY : isym r_inertia) by reflexivity.
  split; [|repeat constructor].
  constructor; [split; [apply rigid_shift|constructor; [apply rigid_shift|constructor; [apply rigid_shift|constructor]]]| |]; intros k Hk; apply X in Hk; destruct Hk as [->| ->];
      try (cbn; apply Rltb_lt; lra); repeat constructor.
Qed.

(** The robot [ab] after set_q and set_dq. *)
Definition place (ab : @body RScal) (q dq : list R) : @body RScal :=
  match set_q q ab with Ret a _ => match set_dq dq a with Ret b _ => b | _ => a end | _ => ab end.
Lemma place_placed solve pinv h ab q dq : reached solve pinv h ab -> List.length q = ab_dof ab -> List.length dq = ab_dof ab -> placed ab q dq (place ab q dq).
Proof.
  intros R0 Hq Hd. destruct (placed_exists solve pinv h ab q dq R0 Hq Hd) as (ab' & ab1 & E1 & E2).
  exists ab1. unfold place. rewrite E1, E2. auto.
Qed.

(** C09.  Along any differentiable motion q(u) the point [off] of link [z] moves with
    the linear velocity, and the link turns with the angular velocity, that the
    Jacobian gives. *)
Theorem C09_motion : forall solve pinv h (ab : @body RScal) (q : R -> list R) t dq z k off,
  reached solve pinv h ab -> rigid_robot ab -> proper_joints ab ->
  (forall u, List.length (q u) = ab_dof ab) -> List.length dq = ab_dof ab -> vec_deriv (ab_dof ab) q t dq -> idx (ab_dof ab) z = Some k ->
  exists P O J, (forall u, Position_q ab (q u) z off = Ok (P u)) /\ (forall u, Orientation_q ab (q u) z = Ok (O u)) /\
    Jacobian_q ab (q t) z off = Ok J /\ List.length J = ab_dof ab /\
    v3_deriv P t (mlin (velocity J dq)) /\ m3_deriv O t (m3mul (skew (mang (velocity J dq))) (O t)).
Proof. exact c09_motion. Qed.
Print Assumptions C09_motion.

(** C09, one joint at a time: column [j]. *)
Theorem C09_columns : forall solve pinv h (ab : @body RScal) q z k off j,
  reached solve pinv h ab -> rigid_robot ab -> proper_joints ab ->
  List.length q = ab_dof ab -> idx (ab_dof ab) z = Some k -> (j < ab_dof ab)%nat ->
  exists P O J, (forall x, Position_q ab (replaced q j x) z off = Ok (P x)) /\
    (forall x, Orientation_q ab (replaced q j x) z = Ok (O x)) /\ Jacobian_q ab q z off = Ok J /\
    v3_deriv P (@coef RScal q j) (mlin (col J j)) /\
    m3_deriv O (@coef RScal q j) (m3mul (skew (mang (col J j))) (O (@coef RScal q j))).
Proof. exact c09. Qed.
Print Assumptions C09_columns.
Example C09_example : exists h (ab : @body RScal) (q : R -> list R) dq, reached solve0 pinv0 h ab /\ rigid_robot ab /\ proper_joints ab /\
  (forall u, List.length (q u) = ab_dof ab) /\ List.length dq = ab_dof ab /\ vec_deriv (ab_dof ab) q 3 dq /\ idx (ab_dof ab) (-1) = Some 1%nat /\ dq = [1; 6].
Proof.
  destruct r_robot as ((R0 & B0 & P0 & J0) & D). exists r_history, r_ab, (fun u => [u; u * u]), [1; 6]. rewrite D.
  split; auto. split; [apply P0|]. repeat split; auto.
  intros i Hi. destruct i as [|[|i]]; [| |lia].
  - exact (derivable_pt_lim_id 3).
  - eapply d_eq; [apply d_mul; apply d_id|]. cbn. lra.
Qed.

(** C15, second part.  The gravity torque of joint [j] is the derivative of the
    potential energy with respect to q_j. *)
Theorem C15_potential : forall solve pinv h (ab : @body RScal) j,
  reached solve pinv h ab -> base_fixed false h = true -> proper ab -> proper_joints ab -> (j < ab_dof ab)%nat ->
  exists U G, (forall x, potential ab (replaced (ab_q ab) j x) (U x)) /\ outcome (ask solve pinv QGrav ab) = Ok (AVec G) /\
    derivable_pt_lim U (@coef RScal (ab_q ab) j) (@coef RScal G j).
Proof. exact c15_potential. Qed.
Print Assumptions C15_potential.
Example C15_potential_example : exists h (ab : @body RScal), reached solve0 pinv0 h ab /\ base_fixed false h = true /\ proper ab /\ proper_joints ab /\
  (1 < ab_dof ab)%nat /\ h = r_history.
Proof. destruct r_robot as ((R0 & B0 & P0 & J0) & D). exists r_history, r_ab. rewrite D. auto 10. Qed.

(** C23.  Without gravity, the power of the torques InverseDynamics returns is the rate
    of change of the kinetic energy. *)
Theorem C23_kinetic : forall solve pinv h (ab : @body RScal) q dq rob t ddq o,
  reached solve pinv h ab -> base_fixed false h = true -> proper ab -> proper_joints ab ->
  moving ab q dq rob t ddq -> o_grav o = false -> o_cc o = true -> o_fric o = false ->
  exists E tau, (forall u, kinetic_energy solve pinv (rob u) (dq u) (E u)) /\
    outcome (ask solve pinv (QID ddq (fun _ => None) o) (rob t)) = Ok (AVec tau) /\
    derivable_pt_lim E t (inner (dq t) tau).
Proof. exact c23_kinetic. Qed.
Print Assumptions C23_kinetic.

(** C23 with gravity and external forces: the rate of change of the total energy is
    the power of the torques plus that of the external forces (whose joint torques
    enter InverseDynamics negated). *)
Theorem C23_total : forall solve pinv h (ab : @body RScal) q dq rob t ddq o fe,
  reached solve pinv h ab -> base_fixed false h = true -> proper ab -> proper_joints ab ->
  moving ab q dq rob t ddq -> o_grav o = true -> o_cc o = true -> o_fric o = false ->
  exists E tau X, (forall u, energy solve pinv (rob u) (E u)) /\
    outcome (ask solve pinv (QID ddq fe o) (rob t)) = Ok (AVec tau) /\
    outcome (ask solve pinv (QExt fe) (rob t)) = Ok (AVec X) /\
    derivable_pt_lim E t (inner (dq t) tau - inner (dq t) X).
Proof. exact c23_total. Qed.
Print Assumptions C23_total.
Example C23_example : exists h (ab : @body RScal) q dq rob ddq, reached solve0 pinv0 h ab /\ base_fixed false h = true /\ proper ab /\ proper_joints ab /\
  moving ab q dq rob 3 ddq /\ ddq = [0; 2] /\ dq 3 = [1; 2 * 3].
Proof.
  destruct r_robot as ((R0 & B0 & P0 & J0) & D).
  exists r_history, r_ab, (fun u => [u; u * u]), (fun u => [1; 2 * u]), (fun u => place r_ab [u; u * u] [1; 2 * u]), [0; 2].
  do 4 (split; [assumption || reflexivity|]). split; [|auto]. constructor; try rewrite D; auto.
  - intros u. apply (place_placed solve0 pinv0 r_history); auto.
  - intros i Hi. destruct i as [|[|i]]; [| |lia].
    + exact (derivable_pt_lim_id 3).
    + eapply d_eq; [apply d_mul; apply d_id|]. cbn. lra.
  - intros i Hi. destruct i as [|[|i]]; [| |lia].
    + exact (d_const 1 3).
    + eapply d_eq; [apply d_mul; [apply d_const|apply d_id]|]. cbn. lra.
Qed.

(** C23, consequence.  A motion whose accelerations are those ForwardDynamics returns for
    zero torque conserves the total energy, or, computed without gravity, the
    kinetic energy. *)
Theorem C23_conserved : forall solve pinv h (ab : @body RScal) q dq ddq rob o,
  reached solve pinv h ab -> base_fixed false h = true -> proper ab -> proper_joints ab ->
  (forall t, moving ab q dq rob t (ddq t)) -> o_cc o = true -> o_fric o = false ->
  (forall t A, outcome (ask solve pinv QInertia (rob t)) = Ok (AMat A) -> solver_ok solve (ab_dof ab) A) ->
  (forall t, outcome (ask solve pinv (QFD (zeros (ab_dof ab)) (fun _ => None) o) (rob t)) = Ok (AVec (ddq t))) ->
  (o_grav o = true -> exists E, forall t, energy solve pinv (rob t) E) /\
  (o_grav o = false -> exists E, forall t, kinetic_energy solve pinv (rob t) (dq t) E).
Proof. exact c23_conserved. Qed.
Print Assumptions C23_conserved.

(** Non-vacuity: a single link falling along a vertical prismatic joint. *)
Definition slider : @rigid_body RScal := Rb "s" [] (-1) (-1) iso_id r_inertia (joint_of JPz).
Definition slider_solve (A : list (list R)) (b : list R) : list R := [nth 0 b 0 / nth 0 (nth 0 A []) 0].
Definition slider_robot : @body RScal :=
  match run slider_solve pinv0 [OAdd slider (-1)] (body_new "r" (@junk RScal 0)) with Some ab => ab | None => body_new "none" (@junk RScal 0) end.
Definition vec_of (r : res (@answer RScal)) : list R := match r with Ok (AVec v) => v | Ok (AMat A) => List.concat A | _ => [] end.
Lemma one_by_one (A : list (list R)) a : @square RScal 1 A -> List.concat A = [a] -> A = [[a]].
Proof.
  intros [L1 L2] E. destruct A as [|row [|? ?]]; try discriminate L1. inversion L2 as [|? ? L3 _]. destruct row as [|b [|? ?]]; try discriminate L3.
  cbn in E. congruence.
Qed.
Example C23_conserved_example : exists h (ab : @body RScal) q dq ddq rob,
  let o := IdOpts true true false (1 / 100) in
  reached slider_solve pinv0 h ab /\ base_fixed false h = true /\ proper ab /\ proper_joints ab /\
  (forall t, moving ab q dq rob t (ddq t)) /\
  (forall t A, outcome (ask slider_solve pinv0 QInertia (rob t)) = Ok (AMat A) -> solver_ok slider_solve (ab_dof ab) A) /\
  (forall t, outcome (ask slider_solve pinv0 (QFD (zeros (ab_dof ab)) (fun _ => None) o) (rob t)) = Ok (AVec (ddq t))) /\
  (forall t, ddq t <> [0]).
Proof.
  exists [OAdd slider (-1)], slider_robot, (fun u => [u * u * (-981 / 200)]), (fun u => [u * (-981 / 100)]), (fun u => [-981 / 100]),
    (fun u => place slider_robot [u * u * (-981 / 200)] [u * (-981 / 100)]). cbv zeta.
  assert (R0 : reached slider_solve pinv0 [OAdd slider (-1)] slider_robot) by (exists "r"%string, (@junk RScal 0%R); reflexivity).
  split; [exact R0|]. split; [reflexivity|].
  assert (X : forall k, (k < 1)%nat -> k = 0%nat) by lia.
  assert (P0 : proper slider_robot).
  { constructor; [split; [apply rigid_shift|constructor; [apply rigid_shift|constructor]]| |]; intros k Hk; apply X in Hk; subst k;
      [cbn; apply Rltb_lt; lra|repeat constructor]. }
  split; [exact P0|]. split; [repeat constructor|].
  assert (CO : forall t mem, let ab' := place slider_robot [t * t * (-981 / 200)] [t * (-981 / 100)] in
    cold ab' mem = cold (at_ slider_robot [t * t * (-981 / 200)] [t * (-981 / 100)]) mem /\ reached slider_solve pinv0 ([OAdd slider (-1)] ++ [OSetQ [t * t * (-981 / 200)]; OSetDq [t * (-981 / 100)]]) ab' /\ proper ab').
  { intros t mem. cbv zeta. pose proof (place_placed _ _ _ _ [t * t * (-981 / 200)] [t * (-981 / 100)] R0 eq_refl eq_refl) as Hp.
    pose proof (placed_reached _ _ _ _ _ _ _ R0 Hp) as Hr. destruct (placed_at _ _ _ _ Hp) as (_ & _ & E). rewrite E in *. split; [reflexivity|]. split; [exact Hr|]. apply at_proper; auto. }
  split.
  { intros t. constructor.
    - intros u. apply (place_placed _ _ _ _ _ _ R0); reflexivity.
    - reflexivity.
    - intros i Hi. apply X in Hi. subst i. eapply d_eq; [apply d_mul; [apply d_mul; apply d_id|apply d_const]|]. cbn. lra.
    - intros i Hi. apply X in Hi. subst i. eapply d_eq; [apply d_mul; [apply d_id|apply d_const]|]. cbn. lra. }
  assert (V : forall t, let ab' := place slider_robot [t * t * (-981 / 200)] [t * (-981 / 100)] in
    vec_of (outcome (ask slider_solve pinv0 QInertia ab')) = [2] /\ vec_of (outcome (ask slider_solve pinv0 QCC ab')) = [0] /\
    vec_of (outcome (ask slider_solve pinv0 QGrav ab')) = [2 * (981 / 100)] /\ vec_of (outcome (ask slider_solve pinv0 (QExt (fun _ => None)) ab')) = [0]).
  { intros t. cbv zeta. destruct (CO t (@junk RScal 0)) as (E & Hr & Hp). 
    rewrite !(fun q => @C04_dynamics RScal _ _ (@laws_comm RScal RLaws) _ _ (@junk RScal 0) q Hr eq_refl) by reflexivity. rewrite E.
    repeat split; cbv -[Rplus Rmult Rminus Ropp Rinv Rdiv IZR cos sin]; apply f_equal2; auto.
    - ring.
    - ring.
    - field.
    - ring. }
  split; [|split].
  - intros t A HA. destruct (V t) as (V1 & _). cbv zeta in V1. rewrite HA in V1. cbn [vec_of] in V1.
    destruct (CO t (@junk RScal 0)) as (E & Hr & Hp).
    destruct (@C12_inertia RScal RLaws RPos _ _ _ _ Hr eq_refl Hp) as (_ & _ & A' & _ & _ & HA' & SQ & _). rewrite HA in HA'. injection HA' as <-.
    assert (D' : ab_dof (place slider_robot [t * t * (-981 / 200)] [t * (-981 / 100)]) = 1%nat) by (exact (f_equal ab_dof E)). rewrite D' in SQ.
    apply one_by_one in V1; [|exact SQ]. subst A.
    intros b Hb. destruct b as [|b [|? ?]]; try discriminate Hb. split; [reflexivity|]. intros i Hi. apply X in Hi. subst i. cbn. field.
  - intros t. destruct (V t) as (V1 & V2 & V3 & V4). cbv zeta in V1, V2, V3, V4.
    destruct (CO t (@junk RScal 0)) as (E & Hr & Hp). set (ab' := place slider_robot [t * t * (-981 / 200)] [t * (-981 / 100)]) in *.
    assert (D' : ab_dof ab' = 1%nat) by (exact (f_equal ab_dof E)).
    destruct (@c17 RScal RLaws RPos slider_solve pinv0 _ ab' (fun _ => None) (@IdOpts RScal true true false (1 / 100)%R) Hr eq_refl Hp eq_refl) as (A & HA & HF).
    destruct (@c14 RScal RLaws RPos slider_solve pinv0 _ ab' [-981 / 100] (fun _ => None) (@IdOpts RScal true true false (1 / 100)%R) Hr eq_refl Hp) as (A' & C & G & Ex & tau & H1 & H2 & H3 & H4 & H5 & H6 & _); [rewrite D'; reflexivity|].
    rewrite HA in H1. injection H1 as <-. rewrite HA in V1. rewrite H2 in V2. rewrite H3 in V3. rewrite H4 in V4. cbn [vec_of] in V1, V2, V3, V4.
    destruct (@C12_inertia RScal RLaws RPos _ _ _ _ Hr eq_refl Hp) as (_ & _ & A' & _ & _ & HA' & SQ & _). rewrite HA in HA'. injection HA' as <-. rewrite D' in SQ.
    apply one_by_one in V1; [|exact SQ]. subst A. rewrite D' in *.
    destruct HF as (_ & HF).
    { intros b Hb. destruct b as [|b [|? ?]]; try discriminate Hb. split; [reflexivity|]. intros i Hi. apply X in Hi. subst i. cbn. field. }
    destruct (HF) with (ddq := [-981 / 100]) as (tau' & T1 & T2); [|reflexivity|].
    { intros x Hx HI i Hi. apply X in Hi. subst i. specialize (HI 0%nat (Nat.lt_0_1)). destruct x as [|x [|? ?]]; try discriminate Hx. cbn in HI |- *. lra. }
    rewrite T1 in H5. injection H5 as <-. rewrite (H6 eq_refl) in T2. rewrite <- T2. do 3 f_equal.
    subst C G Ex. unfold over_links, zeros. rewrite D'. cbn. f_equal. field.
  - intros t E. injection E. lra.
Qed.

(** C42.  Linear part of the Hessian; the angular part for i <= j; the symmetry. *)
Theorem C42_hessian : forall solve pinv h (ab : @body RScal) z l off,
  reached solve pinv h ab -> base_fixed false h = true -> rigid_robot ab -> proper_joints ab -> idx (ab_dof ab) z = Some l ->
  exists H, outcome (ask solve pinv (QHess z off) ab) = Ok (AHess H) /\
    forall i, (i < ab_dof ab)%nat -> exists J, (forall x, Jacobian_q ab (replaced (ab_q ab) i x) z off = Ok (J x)) /\
    forall j, (j < ab_dof ab)%nat ->
      v3_deriv (fun x => mlin (col (J x) j)) (@coef RScal (ab_q ab) i) (mlin (hess_entry H i j)) /\
      v3_deriv (fun x => mang (col (J x) j)) (@coef RScal (ab_q ab) i) (if Nat.leb i j then mang (hess_entry H i j) else v3zero) /\
      hess_entry H i j = hess_entry H j i.
Proof. exact c42. Qed.
Print Assumptions C42_hessian.

Definition ang_y (r : res (@answer RScal)) (i j : nat) : R := match r with Ok (AHess H) => vy (mang (hess_entry H i j)) | _ => 0 end.
(** C42, the defect: the angular part is not the derivative of the angular Jacobian
    for every pair of joints. *)
Theorem C42_angular_refuted : exists solve pinv h (ab : @body RScal) z off H i j J,
  reached solve pinv h ab /\ base_fixed false h = true /\ rigid_robot ab /\ proper_joints ab /\
  outcome (ask solve pinv (QHess z off) ab) = Ok (AHess H) /\ (i < ab_dof ab)%nat /\ (j < ab_dof ab)%nat /\
  (forall x, Jacobian_q ab (replaced (ab_q ab) i x) z off = Ok (J x)) /\
  ~ v3_deriv (fun x => mang (col (J x) j)) (@coef RScal (ab_q ab) i) (mang (hess_entry H i j)).
Proof.
  destruct r_robot as ((R0 & B0 & P0 & J0) & D).
  destruct (c42 solve0 pinv0 r_history r_ab 1 1%nat v3zero R0 B0 (pr_rigid _ P0) J0) as (H & HH & HD); [rewrite D; reflexivity|].
  destruct (HD 1%nat) as (J & HJ & HX); [lia|].
  exists solve0, pinv0, r_history, r_ab, 1%Z, v3zero, H, 1%nat, 0%nat, J.
  repeat (split; [first [assumption|apply P0|lia]|]).
  destruct (HX 0%nat) as (_ & X2 & X3); [lia|]. cbn [Nat.leb] in X2. intros F.
  destruct F as (_ & F & _). destruct X2 as (_ & X2 & _). pose proof (uniqueness_limite _ _ _ _ F X2) as U.
  assert (Y : ang_y (outcome (ask solve0 pinv0 (QHess 1 v3zero) r_ab)) 1 0 = 1).
  { cbv -[Rplus Rmult Rminus Ropp Rinv Rdiv IZR cos sin]. rewrite ?cos_0, ?sin_0. ring. }
  rewrite HH in Y. cbn [ang_y] in Y. rewrite Y in U. cbn in U. lra.
Qed.
Print Assumptions C42_angular_refuted.
Example C42_example : reached solve0 pinv0 r_history r_ab /\ base_fixed false r_history = true /\ rigid_robot r_ab /\ proper_joints r_ab /\
  idx (ab_dof r_ab) (-1) = Some 1%nat.
Proof. destruct r_robot as ((R0 & B0 & P0 & J0) & D). rewrite D. repeat (split; [first [assumption|apply P0]|]). reflexivity. Qed.
