(** Specifications: loops around the task controller of the Python module (C64). *)
From Coq Require Import List Arith ZArith Bool Reals.
From Verif Require Import Scalar Base Spatial Joint Body Kin InvDyn FwdDyn Opspace OpspaceAba Deriv Sim Ops Control Instances Specs SpecCache SpecSim.
Import ListNotations.

(** What one call shows: the torques, the status, and the positions and velocities the
    robot is left in. *)
Definition shown_by {S : Scal} : Type := (list K * Z * list K * list K)%type.
(** The controllers [ks] called one after the other on the same robot; before call i,
    [prep i] is done to the robot. *)
Fixpoint drive {S : Scal} solve pinv (prep : nat -> body -> body) (ks : list controller) (ab : body) : res (list shown_by) :=
  match ks with
  | nil => Ok nil
  | k :: ks =>
    match compute_opspace_control solve pinv k (prep O ab) with
    | Ok (ab', (tau, st)) =>
      match drive solve pinv (fun i => prep (Datatypes.S i)) ks ab' with
      | Ok l => Ok ((tau, st, ab_q ab', ab_dq ab') :: l)
      | Throw => Throw
      | UB => UB
      end
    | Throw => Throw
    | UB => UB
    end
  end.
(** The controllers return vectors of the right sizes for a robot of [n] joints. *)
Definition sized_for {S : Scal} (n : nat) (k : controller) : Prop :=
  (forall x dx, List.length (fst (c_pos k x dx)) = 3) /\ (forall Q w, List.length (fst (c_ori k Q w)) = 3) /\ (forall q dq, List.length (c_joint k q dq) = n).
(** Each state follows from the one before by a fourth-order Runge-Kutta step of the
    robot [ab] moving freely under gravity, friction off, with the torques shown; with no
    time step it is kept. *)
Fixpoint follows solve pinv (ab : @body RScal) (ks : list (@controller RScal)) (y : list R * list R) (l : list (@shown_by RScal)) : Prop :=
  match ks, l with
  | nil, nil => True
  | k :: ks, (tau, _, q, dq) :: l =>
    (q, dq) = (if Rlt_dec 0 (c_dt k)
               then textbook MRk4 (ab_dof ab) (accel solve pinv ab (sim_query false tau (fun _ => None) (@IdOpts RScal true true false (1 / 100)%R))) (c_dt k) y
               else y) /\
    follows solve pinv ab ks (q, dq) l
  | _, _ => False
  end.
