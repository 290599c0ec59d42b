(** Specifications over the reals: derivatives of vectors and matrices, motions
    (C09, C15, C23, C42). *)
From Coq Require Import List Arith ZArith Bool Reals.
From Verif Require Import Scalar Base Spatial SpecGeo Joint Body Kin Ops Instances Specs SpecCache SpecKin SpecDyn.
Import ListNotations.
Local Existing Instance RScal.
Local Open Scope R_scope.

(** [f] has derivative [d] at [t], component by component. *)
Definition v3_deriv (f : R -> v3) (t : R) (d : v3) : Prop :=
  derivable_pt_lim (fun u => vx (f u)) t (vx d) /\ derivable_pt_lim (fun u => vy (f u)) t (vy d) /\
  derivable_pt_lim (fun u => vz (f u)) t (vz d).
Definition m3_deriv (f : R -> m3) (t : R) (d : m3) : Prop :=
  v3_deriv (fun u => r0 (f u)) t (r0 d) /\ v3_deriv (fun u => r1 (f u)) t (r1 d) /\ v3_deriv (fun u => r2 (f u)) t (r2 d).
(** The matrix of [w x .] *)
Definition skew (w : v3) : m3 :=
  M3 (V3 0 (- vz w) (vy w)) (V3 (vz w) 0 (- vx w)) (V3 (- vy w) (vx w) 0).
(** The vector function [q] (of [n] coefficients) has derivative [dq] at [t]. *)
Definition vec_deriv (n : nat) (q : R -> list R) (t : R) (dq : list R) : Prop :=
  forall i, (i < n)%nat -> derivable_pt_lim (fun u => @coef RScal (q u) i) t (@coef RScal dq i).
(** [q] with coefficient [j] replaced by [x]. *)
Definition replaced (q : list R) (j : nat) (x : R) : list R :=
  map (fun i => if Nat.eqb i j then x else @coef RScal q i) (seq 0 (List.length q)).
(** The robot is put in the state ([q], [dq]) through the API. *)
Definition placed (ab : @body RScal) (q dq : list R) (ab' : @body RScal) : Prop :=
  exists ab1, set_q q ab = Ret ab1 tt /\ set_dq dq ab1 = Ret ab' tt.
(** Potential energy of all links and loads in the gravity field, at configuration
    [q], from the positions of their centres of mass. *)
Definition potential (ab : @body RScal) (q : list R) (U : R) : Prop :=
  exists P, (forall k off, (k < ab_dof ab)%nat -> Position_q ab q (Z.of_nat k) off = Ok (P k off)) /\
    U = - over_bodies ab (fun k B => imass B * v3dot (mlin (ab_g ab)) (P k (icom B))).
(** Kinetic energy at joint velocity [dq], from the inertia matrix the robot
    reports. *)
Definition kinetic_energy solve pinv (ab : @body RScal) (dq : list R) (E : R) : Prop :=
  exists A, outcome (ask solve pinv QInertia ab) = Ok (AMat A) /\ E = @quad RScal A dq dq / 2.
(** Kinetic plus potential energy of the robot in its current state. *)
Definition energy solve pinv (ab : @body RScal) (E : R) : Prop :=
  exists E1 E2, kinetic_energy solve pinv ab (ab_dq ab) E1 /\ potential ab (ab_q ab) E2 /\ E = E1 + E2.
(** x . y *)
Definition inner (x y : list R) : R := @total RScal (map (fun i => @coef RScal x i * @coef RScal y i) (seq 0 (List.length x))).
(** A motion of the robot [ab]: [rob u] is the robot put, through set_q and set_dq, in
    the state at time [u], and [dq] is the derivative of [q], [ddq] that of [dq], at
    time [t]. *)
Record moving (ab : @body RScal) (q dq : R -> list R) (rob : R -> @body RScal) (t : R) (ddq : list R) : Prop := {
  mv_placed : forall u, placed ab (q u) (dq u) (rob u);
  mv_acc : List.length ddq = ab_dof ab;
  mv_q : vec_deriv (ab_dof ab) q t (dq t);
  mv_dq : vec_deriv (ab_dof ab) dq t ddq
}.
(** All joint torques zero. *)
Definition zeros (n : nat) : list R := repeat 0 n.
(** H(i,j) of a Hessian. *)
Definition hess_entry (H : list (list (@motion RScal))) (i j : nat) : motion := nth j (nth i H nil) mzero.
