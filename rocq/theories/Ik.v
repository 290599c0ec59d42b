(** src/algorithms/inverse_kinematics.cc *)
From Coq Require Import List Arith ZArith Bool.
From Verif Require Import Scalar Base Spatial Joint Body Kin InvDyn FwdDyn Opspace OpspaceAba Deriv Sim Ops Control.
Import ListNotations.

Section Ik.
Context {S : Scal}.
Local Open Scope k_scope.
Variable solve : lmat -> list K -> list K.
Variable pinv : lmat -> K -> lmat * bool.

(** The goal.  ctrl_utils::PdControl and NearQuaternion are external: [g_acc_pos],
    [g_acc_ori] and [g_acc_joint] are the accelerations that the three calls
    (inverse_kinematics.cc:51-52, 59-60, 84-85) return with their gains and, for the
    first two, their goals fixed, as functions of the measured position (orientation,
    desired and measured joint positions) and velocity; [g_err_pos] and [g_err_ori] are
    the errors the first two write, taken not to depend on the velocity. *)
Record ik_goal := IkGoal {
  g_acc_pos : v3 -> list K -> list K;
  g_err_pos : v3 -> list K;
  g_acc_ori : m3 -> list K -> list K;
  g_err_ori : m3 -> list K;
  g_acc_joint : list K -> list K -> list K -> list K }.

(** inverse_kinematics.cc:28-29 and 62-63 *)
Definition ik_close (g : ik_goal) (x : v3) (R : m3) : bool :=
  let t := klit 1 1000 in klt (sq_norm (g_err_pos g x)) (t * t) && klt (sq_norm (g_err_ori g R)) (t * t).

(** inverse_kinematics.cc:67-79: the task torques and the nullspace; N starts with
    size 0; IsSingular has its default threshold 0 (opspace_dynamics.h:22). *)
Definition ik_task (J : lmat) (ddx dw : list K) (ab : body) : res (body * (option lmat * list K)) :=
  bind (q_ops_IsSingular solve pinv J 0 ab) (fun '(ab, s) =>
  if s then q_ops_InverseDynamics solve pinv (firstn 3 J) ddx (Some nil) no_force true ops_default ab
  else q_ops_InverseDynamics solve pinv J (ddx ++ dw) (Some nil) no_force true ops_default ab).

(** inverse_kinematics.cc:82-83: the static matrix I is the identity of the size of the
    robot for which the line was first executed in the process; [sz] is that size, if it
    has been. *)
Definition ik_size (sz : option nat) (ab : body) : nat := match sz with Some n => n | None => ab_dof ab end.

(** inverse_kinematics.cc:81-90: the joint task in the nullspace and one step of the
    simulation (options.h:119-125: no gravity, the rest as by default). *)
Definition ik_advance (g : ik_goal) (n : nat) (q_des : list K) (N : option lmat) (tau : list K) (ab : body) : res body :=
  bind (q_ops_InverseDynamics solve pinv (lid n) (g_acc_joint g q_des (ab_q ab) (ab_dq ab)) N no_force true ops_default ab) (fun '(ab, (_, t)) =>
  integrate (sim_fd solve false (vadd tau t) no_force (IdOpts false true false (klit 1 100))) (IntOpts false MRk4) (1 / klit 1000 1) ab).

(** inverse_kinematics.cc:43-92: the loop, [fuel] iterations left.  Returns the size of
    I, whether the loop was left by [break], and the robot.  Line 56 asks for the
    orientation of the last link, whatever [link] is. *)
Fixpoint ik_loop (fuel : nat) (g : ik_goal) (link : Z) (off : v3) (q_des : list K) (sz : option nat) (ab : body) : res (option nat * bool * body) :=
  match fuel with
  | O => Ok (sz, false, ab)
  | Datatypes.S fuel =>
    bind (q_Jacobian link off ab) (fun '(ab, J) =>
    let J := jac_rows J in
    bind (q_Position link off ab) (fun '(ab, x) =>
    let ddx := g_acc_pos g x (lmulv 3 (ab_dof ab) (firstn 3 J) (ab_dq ab)) in
    bind (q_Orientation (-1) ab) (fun '(ab, R) =>
    let dw := g_acc_ori g R (lmulv 3 (ab_dof ab) (skipn 3 J) (ab_dq ab)) in
    if ik_close g x R then Ok (sz, true, ab)
    else
      bind (ik_task J ddx dw ab) (fun '(ab, (N, tau)) =>
      let n := ik_size sz ab in
      bind (ik_advance g n q_des N tau ab) (fun ab => ik_loop fuel g link off q_des (Some n) ab)))))
  end.

(** inverse_kinematics.cc:27 and 35-95.  The robot argument is const and copied; the result is
    the joint vector.  Besides it the model returns the process-wide size of I and
    whether the goal was met, which the C++ function does not report. *)
Definition ik_iterations : nat := Z.to_nat 10000.
(** inverse_kinematics.cc:35-95 *)
Definition inverse_kinematics (g : ik_goal) (link : Z) (off : v3) (sz : option nat) (ab : body) : res (option nat * bool * list K) :=
  bind (body_copy ab) (fun ab =>
  bind (ik_loop ik_iterations g link off (ab_q ab) sz ab) (fun '(sz, met, ab) => Ok (sz, met, ab_q ab))).
End Ik.
