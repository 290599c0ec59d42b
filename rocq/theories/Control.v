(** The task controller of the Python module: src/python/spatial_dyn.cc:35-136 and
    spatialdyn/opspace_control.py. *)
From Coq Require Import List Arith ZArith Bool.
From Verif Require Import Scalar Base Spatial Joint Body Kin InvDyn FwdDyn Opspace OpspaceAba Deriv Sim Ops.
Import ListNotations.

Section Control.
Context {S : Scal}.
Local Open Scope k_scope.
Variable solve : lmat -> list K -> list K.
Variable pinv : lmat -> K -> lmat * bool.

(** Eigen squaredNorm(), added from left to right (python/spatial_dyn.cc:46). *)
Definition sq_norm (x : list K) : K := fold_left (fun s a => s + a * a) x 0.
(** spatial_dyn.cc:44-47 *)
Definition is_converged (threshold : K) (x : list K) : bool :=
  if klt threshold 0 then true else klt (sq_norm x) (threshold * threshold).

(** The arguments.  ctrl_utils::PdControl, NearQuaternion and Eigen's quaternions are
    external: [c_pos], [c_ori] and [c_joint] are the three calls with their gains, goals
    and limits fixed, as functions of the measured position (orientation, joint
    positions) and velocity; the first two also return the error.  [c_rot] is the
    matrix of quat_ee_to_task, if given (python/spatial_dyn.cc:49-58). *)
Record controller := Controller {
  c_pos : v3 -> list K -> list K * list K;
  c_ori : m3 -> list K -> list K * list K;
  c_joint : list K -> list K -> list K;
  c_off : v3;
  c_rot : option m3;
  c_x : K; c_dx : K; c_ori_t : K; c_w : K;
  c_gravity : bool;
  c_dt : K }.

(** A 6 x n Jacobian by rows, spatial_dyn.cc:60-68 (rotated to the task frame). *)
Definition jac_rows (J : list motion) : lmat :=
  [map (fun m => vx (mlin m)) J; map (fun m => vy (mlin m)) J; map (fun m => vz (mlin m)) J;
   map (fun m => vx (mang m)) J; map (fun m => vy (mang m)) J; map (fun m => vz (mang m)) J].
(** python/spatial_dyn.cc:59-70 *)
Definition task_jacobian (r : option m3) (J : list motion) : lmat :=
  jac_rows (match r with
            | None => J
            | Some R => map (fun m => Mot (m3mulv R (mlin m)) (m3mulv R (mang m))) J
            end).

(** options.h:166-207 and 108-132, the defaults. *)
Definition ops_default : ops_opts := OpsOpts false false false 0 (klit 1 100) 0.
(** an empty std::map of external forces, the default argument *)
Definition no_force : fmap := fun _ => None.

(** spatial_dyn.cc:36-41, the bits. *)
Definition bit (n : Z) (b : bool) : Z := if b then Z.shiftl 1 n else 0%Z.

(** spatial_dyn.cc:93-103: the main task. *)
Definition main_task (J : lmat) (ddx dw : list K) (ab : body) : res (body * (option lmat * list K * bool * bool)) :=
  let n := ab_dof ab in
  bind (q_ops_IsSingular solve pinv J (klit 1 100) ab) (fun '(ab, s6) =>
  if s6 then
    bind (q_ops_InverseDynamics solve pinv (firstn 3 J) ddx (Some (lid n)) no_force true ops_default ab) (fun '(ab, (N, tau)) =>
    bind (q_ops_IsSingular solve pinv (firstn 3 J) (klit 1 100) ab) (fun '(ab, s3) => Ok (ab, (N, tau, s6, s3))))
  else
    bind (q_ops_InverseDynamics solve pinv J (ddx ++ dw) (Some (lid n)) no_force true ops_default ab) (fun '(ab, (N, tau)) =>
    Ok (ab, (N, tau, s6, false)))).

(** spatial_dyn.cc:49-136 *)
Definition compute_opspace_control (k : controller) (ab : body) : res (body * (list K * Z)) :=
  let n := ab_dof ab in
  bind (q_Jacobian (-1) (c_off k) ab) (fun '(ab, J) =>
  let J := task_jacobian (c_rot k) J in
  bind (q_Position (-1) (c_off k) ab) (fun '(ab, x) =>
  let dx := lmulv 3 n (firstn 3 J) (ab_dq ab) in
  let '(ddx, x_err) := c_pos k x dx in
  bind (q_Orientation (-1) ab) (fun '(ab, R) =>
  let w := lmulv 3 n (skipn 3 J) (ab_dq ab) in
  let '(dw, ori_err) := c_ori k R w in
  bind (main_task J ddx dw ab) (fun '(ab, (N, tau, s6, s3)) =>
  bind (q_ops_InverseDynamics solve pinv (lid n) (c_joint k (ab_q ab) (ab_dq ab)) N no_force true ops_default ab) (fun '(ab, (_, t)) =>
  let tau := vadd tau t in
  bind (if c_gravity k then bind (q_Gravity ab) (fun '(ab, G) => Ok (ab, vadd tau G)) else Ok (ab, tau)) (fun '(ab, tau) =>
  let status := fold_left Z.lor
    [bit 0 (is_converged (c_x k) x_err); bit 1 (is_converged (c_dx k) dx); bit 2 (is_converged (c_ori_t k) ori_err);
     bit 3 (is_converged (c_w k) w); bit 4 s6; bit 5 s3] 0%Z in
  if klt 0 (c_dt k) then
    bind (integrate (sim_fd solve false tau no_force (IdOpts true true false (klit 1 100))) (IntOpts false MRk4) (c_dt k) ab) (fun ab =>
    Ok (ab, (tau, status)))
  else Ok (ab, (tau, status)))))))).

(** spatialdyn/opspace_control.py:108-133 (what follows the first return is dead code).
    The thresholds are optional pairs; indexing None raises TypeError. *)
Definition py_opspace_control (pos_t ori_t : option (K * K)) (dt : option K) (k : controller) (ab : body) : res (body * (list K * Z)) :=
  match pos_t, ori_t with
  | Some (x, dx), Some (o, w) =>
    compute_opspace_control
      (Controller (c_pos k) (c_ori k) (c_joint k) (c_off k) (c_rot k) x dx o w (c_gravity k)
                  (match dt with None => 0 | Some d => d end)) ab
  | _, _ => Throw
  end.
(** The truth value of a Python int (python/spatial_dyn.cc). *)
Definition py_bool (z : Z) : bool := negb (Z.eqb z 0).
End Control.
