(** Specifications: friction in the dynamics (C60). *)
From Coq Require Import List Arith ZArith Bool Reals.
From Verif Require Import Scalar Base Spatial SpecGeo Joint Body Kin InvDyn FwdDyn Ops Instances Specs SpecCache SpecKin SpecDyn SpecAba SpecReal SpecSim.
Import ListNotations.

Section SpecFric.
Context {S : Scal}.
Local Open Scope k_scope.
(** The same options without friction. *)
Definition frictionless (o : id_opts) : id_opts := IdOpts (o_grav o) (o_cc o) false (o_stic o).
(** The difference of two vectors of [n] coefficients. *)
Definition less (n : nat) (x y : list K) : list K := map (fun i => coef x i - coef y i) (seq 0 n).
End SpecFric.

Local Open Scope R_scope.
(** At velocity [dq] the joint slides (Coulomb friction, and a velocity above the
    stiction threshold) or has neither Coulomb friction nor stiction. *)
Definition slips (j : @joint RScal) (eps dq : R) : Prop :=
  (0 < jcoulomb j /\ eps < Rabs dq) \/ (jcoulomb j = 0 /\ jstiction j = 0).
(** Viscous and Coulomb friction. *)
Definition rubbing_torque (j : @joint RScal) (dq : R) : R := jviscous j * dq + jcoulomb j * sign dq.
(** All joints slip at the joint velocities of the robot. *)
Definition slipping (ab : @body RScal) (eps : R) : Prop :=
  forall i, (i < ab_dof ab)%nat -> slips (joint_i ab i) eps (@coef RScal (ab_dq ab) i).
(** The friction torques of a slipping robot. *)
Definition rubbing_torques (ab : @body RScal) : list R :=
  map (fun i => rubbing_torque (joint_i ab i) (@coef RScal (ab_dq ab) i)) (seq 0 (ab_dof ab)).
(** The power lost to friction by the joints of [ab] at the velocities [dq]. *)
Definition lost (ab : @body RScal) (dq : list R) : R :=
  @total RScal (map (fun i => jviscous (joint_i ab i) * (@coef RScal dq i * @coef RScal dq i) + jcoulomb (joint_i ab i) * Rabs (@coef RScal dq i)) (seq 0 (ab_dof ab))).
