(** C62: Lagrange's equations and conserved joint momenta *)
From Coq Require Import List Arith ZArith Bool String Reals Lra Lia.
From Verif Require Import Scalar Base Spatial SpecGeo Joint Body Kin InvDyn FwdDyn Opspace OpspaceAba Deriv Sim Ops Instances Specs SpecCache SpecKin SpecDyn SpecReal SpecLag Samples RealCalc RealMotion RealEnergy LagProofs CacheOps DynApi PropCache PropDyn PropReal.
Import ListNotations.
Local Existing Instance RScal.
Local Open Scope R_scope.

(** C62.  Along any motion, the torque InverseDynamics returns for joint [i] (velocity
    terms on, no friction) is d/dt (dL/d dq_i) - dL/d q_i plus the external torque, where
    L is the kinetic energy from Inertia() minus, with gravity on, the potential energy
    from Position(). *)
Theorem C62_lagrange : forall solve pinv h (ab : @body RScal) q dq rob t ddq o fe i,
  reached solve pinv h ab -> base_fixed false h = true -> proper ab -> proper_joints ab ->
  moving ab q dq rob t ddq -> o_cc o = true -> o_fric o = false -> (i < ab_dof ab)%nat ->
  exists Lag p F P tau X,
    (forall q' x r, placed ab q' x r -> lagrangian solve pinv (o_grav o) r (Lag q' x)) /\
    (forall u, derivable_pt_lim (fun y => Lag (q u) (replaced (dq u) i y)) (@coef RScal (dq u) i) (p u)) /\
    derivable_pt_lim (fun y => Lag (replaced (q t) i y) (dq t)) (@coef RScal (q t) i) F /\
    derivable_pt_lim p t P /\
    outcome (ask solve pinv (QID ddq fe o) (rob t)) = Ok (AVec tau) /\
    outcome (ask solve pinv (QExt fe) (rob t)) = Ok (AVec X) /\
    @coef RScal tau i = P - F + @coef RScal X i.
Proof. exact c62_lagrange. Qed.
Print Assumptions C62_lagrange.

(** C62, joints attached to the base: the momentum of the joint changes at the rate of
    the torque, less gravity and the external torque; nothing else in the robot, however
    it moves, changes it. *)
Theorem C62_root : forall solve pinv h (ab : @body RScal) q dq rob t ddq o fe i,
  reached solve pinv h ab -> base_fixed false h = true -> proper ab -> proper_joints ab ->
  moving ab q dq rob t ddq -> o_cc o = true -> o_fric o = false -> (i < ab_dof ab)%nat ->
  rb_parent (rb_at ab i) = (-1)%Z ->
  exists p tau X G, (forall u, momentum solve pinv (rob u) i (p u)) /\
    outcome (ask solve pinv (QID ddq fe o) (rob t)) = Ok (AVec tau) /\
    outcome (ask solve pinv (QExt fe) (rob t)) = Ok (AVec X) /\
    outcome (ask solve pinv QGrav (rob t)) = Ok (AVec G) /\
    derivable_pt_lim p t (@coef RScal tau i - (if o_grav o then @coef RScal G i else 0) - @coef RScal X i).
Proof. exact c62_root. Qed.
Print Assumptions C62_root.
(** Non-vacuity: the two-link robot of C23 turning about a vertical base joint while its
    second joint speeds up. *)
Example C62_example : exists h (ab : @body RScal) q dq rob ddq i,
  reached (@solve0 RScal) (@pinv0 RScal) h ab /\ base_fixed false h = true /\ proper ab /\ proper_joints ab /\
  moving ab q dq rob 3 ddq /\ (i < ab_dof ab)%nat /\ rb_parent (rb_at ab i) = (-1)%Z /\ ddq = [0; 2] /\ dq 3 = [1; 2 * 3].
Proof.
  destruct r_robot as ((R0 & B0 & P0 & J0) & D).
  exists r_history, r_ab, (fun u => [u; u * u]), (fun u => [1; 2 * u]), (fun u => place r_ab [u; u * u] [1; 2 * u]), [0; 2], 0%nat.
  do 4 (split; [assumption || reflexivity|]). split; [|repeat split; auto; rewrite D; lia]. constructor; try rewrite D; auto.
  - intros u. apply (place_placed (@solve0 RScal) (@pinv0 RScal) r_history); auto.
  - intros i Hi. destruct i as [|[|i]]; [| |lia].
    + exact (derivable_pt_lim_id 3).
    + eapply d_eq; [apply d_mul; apply d_id|]. cbn. lra.
  - intros i Hi. destruct i as [|[|i]]; [| |lia].
    + exact (d_const 1 3).
    + eapply d_eq; [apply d_mul; [apply d_const|apply d_id]|]. cbn. lra.
Qed.

(** C62, consequence.  A motion whose accelerations are those ForwardDynamics returns for
    torques that are zero at a joint attached to the base, gravity not acting on that
    joint, keeps the momentum of the joint, whatever the torques at the other joints. *)
Theorem C62_conserved : forall solve pinv h (ab : @body RScal) q dq ddq rob tau o i,
  reached solve pinv h ab -> base_fixed false h = true -> proper ab -> proper_joints ab ->
  (forall t, moving ab q dq rob t (ddq t)) -> o_cc o = true -> o_fric o = false -> (i < ab_dof ab)%nat ->
  rb_parent (rb_at ab i) = (-1)%Z ->
  (forall t A, outcome (ask solve pinv QInertia (rob t)) = Ok (AMat A) -> solver_ok solve (ab_dof ab) A) ->
  (forall t, List.length (tau t) = ab_dof ab /\ @coef RScal (tau t) i = 0) ->
  (o_grav o = true -> forall t G, outcome (ask solve pinv QGrav (rob t)) = Ok (AVec G) -> @coef RScal G i = 0) ->
  (forall t, outcome (ask solve pinv (QFD (tau t) (fun _ => None) o) (rob t)) = Ok (AVec (ddq t))) ->
  exists p, forall t, momentum solve pinv (rob t) i p.
Proof. exact c62_conserved. Qed.
Print Assumptions C62_conserved.

(** Non-vacuity: a slider riding on a slider, both horizontal, the upper one driven. *)
Definition rail (name : string) : @rigid_body RScal := Rb name [] (-1) (-1) iso_id r_inertia (joint_of JPx).
Definition rail_history : list (@op RScal) := [OAdd (rail "a") (-1); OAdd (rail "b") 0].
Definition rail_solve (A : list (list R)) (b : list R) : list R :=
  let a i j := nth j (nth i A []) 0 in let d := a 0%nat 0%nat * a 1%nat 1%nat - a 0%nat 1%nat * a 1%nat 0%nat in
  [(a 1%nat 1%nat * nth 0 b 0 - a 0%nat 1%nat * nth 1 b 0) / d; (a 0%nat 0%nat * nth 1 b 0 - a 1%nat 0%nat * nth 0 b 0) / d].
Definition rail_robot : @body RScal :=
  match run rail_solve (@pinv0 RScal) rail_history (body_new "r" (@junk RScal 0)) with Some ab => ab | None => body_new "none" (@junk RScal 0) end.
Lemma two_by_two (A : list (list R)) a b c d : @square RScal 2 A -> List.concat A = [a; b; c; d] -> A = [[a; b]; [c; d]].
Proof.
  intros [L1 L2] E. destruct A as [|r1 [|r2 [|? ?]]]; try discriminate L1. inversion L2 as [|? ? L3 L4]. inversion L4 as [|? ? L5 _].
  destruct r1 as [|x1 [|y1 [|? ?]]]; try discriminate L3. destruct r2 as [|z [|w [|? ?]]]; try discriminate L5. cbn in E. congruence.
Qed.
Example C62_conserved_example : exists h (ab : @body RScal) q dq ddq rob tau,
  let o := IdOpts true true false (1 / 100) in
  reached rail_solve (@pinv0 RScal) h ab /\ base_fixed false h = true /\ proper ab /\ proper_joints ab /\
  (forall t, moving ab q dq rob t (ddq t)) /\ (0 < ab_dof ab)%nat /\ rb_parent (rb_at ab 0) = (-1)%Z /\
  (forall t A, outcome (ask rail_solve (@pinv0 RScal) QInertia (rob t)) = Ok (AMat A) -> solver_ok rail_solve (ab_dof ab) A) /\
  (forall t, List.length (tau t) = ab_dof ab /\ @coef RScal (tau t) 0 = 0) /\
  (forall t G, outcome (ask rail_solve (@pinv0 RScal) QGrav (rob t)) = Ok (AVec G) -> @coef RScal G 0 = 0) /\
  (forall t, outcome (ask rail_solve (@pinv0 RScal) (QFD (tau t) (fun _ => None) o) (rob t)) = Ok (AVec (ddq t))) /\
  (forall t, tau t = [0; 2] /\ ddq t = [-1; 2] /\ momentum rail_solve (@pinv0 RScal) (rob t) 0 4).
Proof.
  pose (q := fun u => [u - u * u * (1 / 2); u * u]). pose (dq := fun u => [1 - u; 2 * u]).
  exists rail_history, rail_robot, q, dq, (fun u => [-1; 2]), (fun u => place rail_robot (q u) (dq u)), (fun _ => [0; 2]). cbv zeta.
  assert (R0 : reached rail_solve (@pinv0 RScal) rail_history rail_robot) by (exists "r"%string, (@junk RScal 0%R); reflexivity).
  split; [exact R0|]. split; [reflexivity|].
  assert (X : forall k, (k < 2)%nat -> k = 0%nat \/ k = 1%nat) by lia.
  assert (P0 : proper rail_robot).
  { constructor; [split; [apply rigid_shift|constructor; [apply rigid_shift|constructor; [apply rigid_shift|constructor]]]| |]; intros k Hk; apply X in Hk; destruct Hk as [->| ->];
      try (cbn; apply Rltb_lt; lra); repeat constructor. }
  split; [exact P0|]. split; [repeat constructor|].
  assert (CO : forall t mem, let ab' := place rail_robot (q t) (dq t) in
    cold ab' mem = cold (at_ rail_robot (q t) (dq t)) mem /\ reached rail_solve (@pinv0 RScal) (rail_history ++ [OSetQ (q t); OSetDq (dq t)]) ab' /\ proper ab' /\ ab_dq ab' = dq t).
  { intros t mem. cbv zeta. pose proof (place_placed _ _ _ _ (q t) (dq t) R0 eq_refl eq_refl) as Hp.
    pose proof (placed_reached _ _ _ _ _ _ _ R0 Hp) as Hr. destruct (placed_at _ _ _ _ Hp) as (_ & _ & E). rewrite E in *. split; [reflexivity|]. split; [exact Hr|]. split; [apply at_proper; auto|reflexivity]. }
  split.
  { intros t. constructor.
    - intros u. apply (place_placed _ _ _ _ _ _ R0); reflexivity.
    - reflexivity.
    - intros i Hi. apply X in Hi. destruct Hi as [->| ->].
      + eapply d_eq; [apply d_sub; [apply d_id|apply d_mul; [apply d_mul; apply d_id|apply d_const]]|]. cbn. lra.
      + eapply d_eq; [apply d_mul; apply d_id|]. cbn. lra.
    - intros i Hi. apply X in Hi. destruct Hi as [->| ->].
      + eapply d_eq; [apply d_sub; [apply d_const|apply d_id]|]. cbn. lra.
      + eapply d_eq; [apply d_mul; [apply d_const|apply d_id]|]. cbn. lra. }
  assert (V : forall t, let ab' := place rail_robot (q t) (dq t) in
    vec_of (outcome (ask rail_solve (@pinv0 RScal) QInertia ab')) = [4; 2; 2; 2] /\ vec_of (outcome (ask rail_solve (@pinv0 RScal) QCC ab')) = [0; 0] /\
    vec_of (outcome (ask rail_solve (@pinv0 RScal) QGrav ab')) = [0; 0] /\ vec_of (outcome (ask rail_solve (@pinv0 RScal) (QExt (fun _ => None)) ab')) = [0; 0]).
  { intros t. cbv zeta. destruct (CO t (@junk RScal 0)) as (E & Hr & Hp & _).
    rewrite !(fun q => @C04_dynamics RScal _ _ (@laws_comm RScal RLaws) _ _ (@junk RScal 0) q Hr eq_refl) by reflexivity. rewrite E. unfold q, dq.
    repeat split; cbv -[Rplus Rmult Rminus Ropp Rinv Rdiv IZR cos sin]; repeat (apply (f_equal2 (@cons R))); try reflexivity; try ring; field. }
  assert (AV : forall t A, outcome (ask rail_solve (@pinv0 RScal) QInertia (place rail_robot (q t) (dq t))) = Ok (AMat A) -> A = [[4; 2]; [2; 2]]).
  { intros t A HA. destruct (V t) as (V1 & _). cbv zeta in V1. rewrite HA in V1. cbn [vec_of] in V1.
    destruct (CO t (@junk RScal 0)) as (E & Hr & Hp & _).
    destruct (@C12_inertia RScal RLaws RPos _ _ _ _ Hr eq_refl Hp) as (_ & _ & A' & _ & _ & HA' & SQ & _). rewrite HA in HA'. injection HA' as <-.
    assert (D' : ab_dof (place rail_robot (q t) (dq t)) = 2%nat) by (exact (f_equal ab_dof E)). rewrite D' in SQ.
    apply two_by_two; auto. }
  assert (SO : solver_ok rail_solve 2 [[4; 2]; [2; 2]]).
  { intros b Hb. destruct b as [|b0 [|b1 [|? ?]]]; try discriminate Hb. split; [reflexivity|]. intros i Hi. apply X in Hi. destruct Hi as [->| ->]; cbn; field. }
  split; [cbn; lia|]. split; [reflexivity|]. split; [intros t A HA; rewrite (AV t A HA); exact SO|].
  split; [intros; split; reflexivity|]. split.
  { intros t G HG. destruct (V t) as (_ & _ & V3 & _). cbv zeta in V3. rewrite HG in V3. cbn [vec_of] in V3. subst G. reflexivity. }
  split; [|intros t; split; [reflexivity|split; [reflexivity|]]].
  - intros t. destruct (V t) as (_ & V2 & V3 & V4). cbv zeta in V2, V3, V4.
    destruct (CO t (@junk RScal 0)) as (E & Hr & Hp & _). set (ab' := place rail_robot (q t) (dq t)) in *.
    assert (D' : ab_dof ab' = 2%nat) by (exact (f_equal ab_dof E)).
    destruct (@c17 RScal RLaws RPos rail_solve (@pinv0 RScal) _ ab' (fun _ => None) (@IdOpts RScal true true false (1 / 100)%R) Hr eq_refl Hp eq_refl) as (A & HA & HF).
    destruct (@c14 RScal RLaws RPos rail_solve (@pinv0 RScal) _ ab' [-1; 2] (fun _ => None) (@IdOpts RScal true true false (1 / 100)%R) Hr eq_refl Hp) as (A' & C & G & Ex & tau & H1 & H2 & H3 & H4 & H5 & H6 & _); [rewrite D'; reflexivity|].
    rewrite HA in H1. injection H1 as <-. pose proof (AV t A HA) as EA. rewrite H2 in V2. rewrite H3 in V3. rewrite H4 in V4. cbn [vec_of] in V2, V3, V4.
    subst A. rewrite D' in *.
    destruct (HF SO) as (_ & HF').
    destruct HF' with (ddq := [-1; 2]) as (tau' & T1 & T2); [|reflexivity|].
    { intros x Hx HI i Hi. destruct x as [|x0 [|x1 [|? ?]]]; try discriminate Hx. pose proof (HI 0%nat ltac:(lia)) as I0. pose proof (HI 1%nat ltac:(lia)) as I1.
      cbn in I0, I1. apply X in Hi. destruct Hi as [->| ->]; cbn; lra. }
    rewrite T1 in H5. injection H5 as <-. rewrite (H6 eq_refl) in T2. rewrite <- T2. do 3 f_equal.
    subst C G Ex. unfold over_links. rewrite D'. cbn. f_equal; [field|f_equal; field].
  - destruct (CO t (@junk RScal 0)) as (E & Hr & Hp & Ed).
    destruct (@C12_inertia RScal RLaws RPos _ _ _ _ Hr eq_refl Hp) as (_ & _ & A & _ & _ & HA & _).
    exists A. split; [exact HA|]. rewrite (AV t A HA), Ed. assert (D' : ab_dof (place rail_robot (q t) (dq t)) = 2%nat) by (exact (f_equal ab_dof E)). rewrite D'. cbn. field.
Qed.
