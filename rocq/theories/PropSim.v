(** C24, C28: friction and simulation, over the reals *)
From Coq Require Import List Arith ZArith Bool String Reals Lra Lia.
From Verif Require Import Scalar Base Spatial SpecGeo Joint Body Kin InvDyn FwdDyn Opspace OpspaceAba Deriv Sim Ops Instances Specs SpecCache SpecKin SpecDyn SpecAba SpecReal SpecSim Samples RealEnergy SimProofs PropDyn PropReal.
Import ListNotations.
Local Existing Instance RScal.
Local Open Scope R_scope.
Local Notation solve0 := (@solve0 RScal).
Local Notation pinv0 := (@pinv0 RScal).

(** C24.  Outside the stiction band (and with Coulomb friction) friction is viscous plus
    Coulomb and dissipates; inside, the static part holds against the torque [tau]
    without overshooting it.  A torque vector that is too short is read out of
    bounds. *)
Theorem C24_friction : forall (ab : @body RScal) tau comp eps i,
  (i < ab_dof ab)%nat -> (ab_dof ab <= List.length tau)%nat -> 0 <= eps -> friction_coefficients (joint_i ab i) ->
  exists F, Friction ab tau comp eps = Ok F /\ List.length F = ab_dof ab /\
  let j := joint_i ab i in let dq := @coef RScal (ab_dq ab) i in let t := @coef RScal tau i in let f := @coef RScal F i in
  (eps < Rabs dq -> 0 < jcoulomb j -> f = jviscous j * dq + jcoulomb j * sign dq /\ f * dq = jviscous j * (dq * dq) + jcoulomb j * Rabs dq /\ 0 <= f * dq) /\
  (Rabs dq <= eps \/ jcoulomb j = 0 -> exists s, f = jviscous j * dq + s /\
     if comp then s = (jcoulomb j + jstiction j) * sign t
     else s = Rmin (jcoulomb j + jstiction j) (Rabs t) * sign t /\ 0 <= s * t /\ Rabs s <= Rabs t /\ Rabs s <= jcoulomb j + jstiction j /\
          0 <= (t - s) * t /\ (Rabs t <= jcoulomb j + jstiction j -> s = t)).
Proof. exact c24. Qed.
Print Assumptions C24_friction.
Theorem C24_short_torque : forall (ab : @body RScal) tau comp eps, (List.length tau < ab_dof ab)%nat -> Friction ab tau comp eps = UB.
Proof. exact c24_out. Qed.
Print Assumptions C24_short_torque.

(** C24, defect.  A joint without Coulomb friction but with stiction is treated as
    standing still at any velocity: when the torque brakes the motion, friction pushes
    along it. *)
Theorem C24_stiction_drives : forall (ab : @body RScal) tau comp eps i,
  (i < ab_dof ab)%nat -> (ab_dof ab <= List.length tau)%nat -> 0 <= eps ->
  jcoulomb (joint_i ab i) = 0 -> jviscous (joint_i ab i) = 0 -> 0 < jstiction (joint_i ab i) -> @coef RScal tau i * @coef RScal (ab_dq ab) i < 0 ->
  exists F, Friction ab tau comp eps = Ok F /\ @coef RScal F i * @coef RScal (ab_dq ab) i < 0.
Proof. exact c24_drives. Qed.
Print Assumptions C24_stiction_drives.

(** Two robots of one joint: with Coulomb friction, and with stiction only. *)
Definition rubbing (c s : R) : @rigid_body RScal :=
  Rb "f" [] (-1) (-1) iso_id r_inertia (Jnt JRz (subspace_of JRz) NInf PInf PInf PInf c 0 s).
Lemma rubbing_robot c s dq : exists ab, reached solve0 pinv0 ([OAdd (rubbing c s) (-1)] ++ [@OSetQ RScal [0]; @OSetDq RScal [dq]]) ab /\ ab_dof ab = 1%nat /\
  ab_dq ab = [dq] /\ jcoulomb (joint_i ab 0) = c /\ jviscous (joint_i ab 0) = 0 /\ jstiction (joint_i ab 0) = s.
Proof.
  assert (R0 : exists ab0, reached solve0 pinv0 [OAdd (rubbing c s) (-1)] ab0 /\ ab_dof ab0 = 1%nat /\ joint_i ab0 0 = rb_joint (rubbing c s)).
  { eexists. split; [exists "r"%string, (@junk RScal 0); reflexivity|]. split; reflexivity. }
  destruct R0 as (ab0 & R0 & D & J). pose proof (place_placed _ _ _ ab0 [0] [dq] R0) as Hp. rewrite D in Hp. specialize (Hp eq_refl eq_refl).
  pose proof (placed_reached _ _ _ _ _ _ _ R0 Hp) as R1. destruct (placed_at _ _ _ _ Hp) as (_ & _ & E). exists (place ab0 [0] [dq]). split; [exact R1|].
  rewrite E. split; [exact D|]. split; [reflexivity|].
  match goal with |- jcoulomb (joint_i ?x 0) = _ /\ _ => change (joint_i x 0) with (joint_i ab0 0) end. rewrite J. auto.
Qed.
Example C24_example : exists h (ab : @body RScal), reached solve0 pinv0 h ab /\ (0 < ab_dof ab)%nat /\ friction_coefficients (joint_i ab 0) /\
  1 / 100 < Rabs (@coef RScal (ab_dq ab) 0) /\ 0 < jcoulomb (joint_i ab 0).
Proof.
  destruct (rubbing_robot 3 1 (-5)) as (ab & R0 & D & E & C & V & ST). eexists _, ab. split; [exact R0|]. rewrite D, E. unfold friction_coefficients. rewrite C, V, ST.
  cbn. rewrite Rabs_left by lra. repeat split; try lra; lia.
Qed.
Example C24_drives_example : exists h (ab : @body RScal), reached solve0 pinv0 h ab /\ (0 < ab_dof ab)%nat /\ jcoulomb (joint_i ab 0) = 0 /\
  jviscous (joint_i ab 0) = 0 /\ 0 < jstiction (joint_i ab 0) /\ @coef RScal [-2] 0 * @coef RScal (ab_dq ab) 0 < 0.
Proof.
  destruct (rubbing_robot 0 1 5) as (ab & R0 & D & E & C & V & ST). eexists _, ab. split; [exact R0|]. rewrite D, E, C, V, ST. cbn. repeat split; try lra; lia.
Qed.

(** C28, any forward dynamics function.  With joint limits on. *)
Theorem C28_limits_any : forall (ab0 : @body RScal) P fd acc, dynamics_of ab0 P fd acc -> forall o,
  (i_limits o = true -> forall i, (i < ab_dof ab0)%nat -> sane_limits (joint_i ab0 i)) -> forall dt ab, P ab -> i_limits o = true ->
  exists ab', integrate fd o dt ab = Ok ab' /\ P ab' /\
    forall i, (i < ab_dof ab0)%nat -> within (joint_i ab0 i) (@coef RScal (ab_q ab') i) (@coef RScal (ab_dq ab') i).
Proof. exact integrate_limits. Qed.
Print Assumptions C28_limits_any.
(** With joint limits off: the textbook step. *)
Theorem C28_formulas_any : forall (ab0 : @body RScal) P fd acc, dynamics_of ab0 P fd acc -> forall o,
  (i_limits o = true -> forall i, (i < ab_dof ab0)%nat -> sane_limits (joint_i ab0 i)) -> forall dt ab, P ab -> i_limits o = false ->
  exists ab', integrate fd o dt ab = Ok ab' /\ P ab' /\ state_of ab' = textbook (i_method o) (ab_dof ab0) acc dt (state_of ab).
Proof. exact integrate_formula. Qed.
Print Assumptions C28_formulas_any.
(** All three methods are exact when the acceleration is constant. *)
Theorem C28_constant : forall m n a dt y, textbook m n (fun _ _ => a) dt y = ballistic n a dt y.
Proof. exact constant_exact. Qed.
Print Assumptions C28_constant.

(** C28 for Integrate as it is called, with ForwardDynamics or ForwardDynamicsAba. *)
Theorem C28_limits : forall solve pinv h (ab : @body RScal) aba tau fe o,
  reached solve pinv h ab -> base_fixed false h = true -> (aba = true -> unmixed h = true) -> (aba = false -> proper ab) ->
  List.length tau = ab_dof ab -> forall io dt, i_limits io = true -> (forall i, (i < ab_dof ab)%nat -> sane_limits (joint_i ab i)) ->
  exists ab', step solve pinv (OIntegrate aba tau fe o io dt) ab = Some ab' /\
    forall i, (i < ab_dof ab)%nat -> within (joint_i ab i) (@coef RScal (ab_q ab') i) (@coef RScal (ab_dq ab') i).
Proof. exact c28_limits. Qed.
Print Assumptions C28_limits.
Theorem C28_formulas : forall solve pinv h (ab : @body RScal) aba tau fe o,
  reached solve pinv h ab -> base_fixed false h = true -> (aba = true -> unmixed h = true) -> (aba = false -> proper ab) ->
  List.length tau = ab_dof ab -> forall io dt, i_limits io = false ->
  exists ab', step solve pinv (OIntegrate aba tau fe o io dt) ab = Some ab' /\
    state_of ab' = textbook (i_method io) (ab_dof ab) (accel solve pinv ab (sim_query aba tau fe o)) dt (state_of ab).
Proof. exact c28_formula. Qed.
Print Assumptions C28_formulas.
Example C28_example : reached solve0 pinv0 r_history r_ab /\ base_fixed false r_history = true /\ unmixed r_history = true /\ proper r_ab /\
  List.length [1; 2] = ab_dof r_ab /\ (forall i, (i < ab_dof r_ab)%nat -> sane_limits (joint_i r_ab i)).
Proof.
  destruct r_robot as ((R0 & B0 & P0 & J0) & D). rewrite D. repeat (split; [first [assumption|reflexivity|apply P0]|]).
  intros i Hi. destruct i as [|[|i]]; [| |lia]; repeat split; discriminate.
Qed.
Example C28_any_example : exists P fd acc, dynamics_of r_ab P fd acc /\ P r_ab.
Proof.
  destruct r_robot as ((R0 & B0 & P0 & J0) & D).
  assert (X : dynamics_of r_ab (Pc solve0 pinv0 r_history r_ab) (sim_fd solve0 false [1; 2] (fun _ => None) (@IdOpts RScal true true true 1))
    (accel solve0 pinv0 r_ab (sim_query false [1; 2] (fun _ => None) (@IdOpts RScal true true true 1)))).
  { apply robot_dynamics; auto; discriminate. }
  eexists _, _, _. split; [exact X|]. exists nil. rewrite app_nil_r. split; [reflexivity|]. split; [exact R0|]. destruct r_ab; reflexivity.
Qed.
