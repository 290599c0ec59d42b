(** spatialdyn/joint_space_control.py with the bindings src/python/spatial_dyn.cc:442-453
    (inverse_dynamics) and 476-502 (integrate). *)
From Coq Require Import List Arith ZArith Bool.
From Verif Require Import Scalar Base Spatial Joint Body Kin InvDyn FwdDyn Opspace OpspaceAba Deriv Sim Ops Control.
Import ListNotations.

Section JointControl.
Context {S : Scal}.
Local Open Scope k_scope.
Variable solve : lmat -> list K -> list K.

(** joint_space_control.py:79-87; numpy.linalg.norm is [lnorm], NaN compares false. *)
Definition js_converged (threshold : option (K * K)) (err dq : list K) : bool :=
  match threshold with
  | None => true
  | Some (x, dx) => klt (lnorm err) x && klt (lnorm dq) dx
  end.

(** joint_space_control.py:7-75.  ctrlutils.pd_control is external: [pd q q_des dq] is
    the pair (ddq, q_err) it returns with the gains and the limit fixed.  The keyword
    arguments of inverse_dynamics leave friction=False; integrate is called with its
    defaults (spatial_dyn.cc:497-502). *)
Definition joint_space_control (pd : list K -> list K -> list K -> list K * list K) (joint : option (list K))
    (threshold : option (K * K)) (gravity_comp : bool) (step : option K) (ab : body) : res (body * (list K * bool)) :=
  let q_des := match joint with Some q => q | None => ab_q ab end in
  let '(ddq, q_err) := pd (ab_q ab) q_des (ab_dq ab) in
  bind (q_InverseDynamics ddq no_force (IdOpts gravity_comp false false (klit 1 100)) ab) (fun '(ab, tau) =>
  let converged := js_converged threshold q_err (ab_dq ab) in
  match step with
  | None => Ok (ab, (tau, converged))
  | Some dt =>
    bind (integrate (sim_fd solve false tau no_force (IdOpts true true false (klit 1 100))) (IntOpts false MRk4) dt ab) (fun ab =>
    Ok (ab, (tau, converged)))
  end).
End JointControl.
