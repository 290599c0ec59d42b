(** Specifications: the torques of the simulator application (C63). *)
From Coq Require Import List Arith ZArith Bool.
From Verif Require Import Scalar Base Spatial Joint Body Kin InvDyn FwdDyn Opspace OpspaceAba Deriv Sim Ops Control Discrete Json App Specs SpecCache SpecDyn SpecOps SpecControl.
Import ListNotations.

Section SpecAppTask.
Context {S : Scal}.
Local Open Scope k_scope.
(** What an iteration measures and asks: the rows of the Jacobian of the end effector,
    3 cm out along z, linear rows first, its position, orientation and velocities,
    whether the rows are singular, the torques and the nullspace of the main task, the
    torques of the posture task, and gravity. *)
Record measure := Measure {
  e_J : list (list K); e_x : v3; e_R : m3; e_dx : list K; e_w : list K; e_sing : bool;
  e_N : option (list (list K)); e_main : list K; e_joint : list K; e_grav : list K }.
(** Rows and accelerations of the main task: position and orientation, or the position
    alone at a singularity. *)
Definition main_rows (e : measure) : list (list K) := if e_sing e then firstn 3 (e_J e) else e_J e.
Definition main_acc (pd_pos : v3 -> v3 -> list K -> K * K -> list K) (pd_ori : m3 -> m3 -> list K -> K * K -> list K)
    (gains_x gains_R : K * K) (x_des : v3) (R_des : m3) (e : measure) : list K :=
  let ddx := pd_pos (e_x e) x_des (e_dx e) gains_x in
  if e_sing e then ddx else ddx ++ pd_ori (e_R e) R_des (e_w e) gains_R.
Definition tip : v3 := V3 0 0 (klit 3 100).
(** [e] holds the answers of the library, each asked on the robot [ab] itself. *)
Record measured solve pinv (acc ddq : measure -> list K) (ab : body) (e : measure) : Prop := {
  ms_J : exists cols, outcome (ask solve pinv (QJac (-1) tip) ab) = Ok (AMots cols) /\ e_J e = task_rows None cols;
  ms_x : outcome (ask solve pinv (QPos (-1) tip) ab) = Ok (AV3 (e_x e));
  ms_R : outcome (ask solve pinv (QOri (-1)) ab) = Ok (AM3 (e_R e));
  ms_dx : e_dx e = map (rate (ab_dof ab) (ab_dq ab)) (firstn 3 (e_J e));
  ms_w : e_w e = map (rate (ab_dof ab) (ab_dq ab)) (skipn 3 (e_J e));
  ms_sing : outcome (ask solve pinv (QoSing (e_J e) 0) ab) = Ok (ABool (e_sing e));
  ms_main : outcome (ask solve pinv (QoID (main_rows e) (acc e) (Some []) (fun _ => None) true
                      (OpsOpts false false false 0 (klit 1 100) 0)) ab) = Ok (ANull (e_N e) (e_main e));
  ms_joint : exists N', outcome (ask solve pinv (QoID (identity (ab_dof ab)) (ddq e) (e_N e) (fun _ => None) true
                      (OpsOpts false false false 0 (klit 1 100) 0)) ab) = Ok (ANull N' (e_joint e));
  ms_grav : outcome (ask solve pinv QGrav ab) = Ok (AVec (e_grav e)) }.
End SpecAppTask.
