(** Specification of Lagrange's equations and of joint momenta (C62). *)
From Coq Require Import List Arith ZArith Bool Reals.
From Verif Require Import Scalar Base Spatial SpecGeo Joint Body Kin Ops Instances Specs SpecCache SpecKin SpecDyn SpecReal.
Import ListNotations.
Local Existing Instance RScal.
Local Open Scope R_scope.

(** Kinetic minus potential energy of the robot in its current state; without gravity,
    the kinetic energy alone. *)
Definition lagrangian solve pinv (grav : bool) (r : @body RScal) (l : R) : Prop :=
  exists E U, kinetic_energy solve pinv r (ab_dq r) E /\ potential r (ab_q r) U /\ l = E - (if grav then U else 0).
(** The momentum of joint [i]: row [i] of the inertia matrix the robot reports, times its
    joint velocities. *)
Definition momentum solve pinv (r : @body RScal) (i : nat) (p : R) : Prop :=
  exists A, outcome (ask solve pinv QInertia r) = Ok (AMat A) /\ p = @row_times RScal (ab_dof r) A (ab_dq r) i.
