(** Specifications: inverse kinematics (C51). *)
From Coq Require Import List Arith ZArith Bool Reals.
From Verif Require Import Scalar Base Spatial Joint Body Kin InvDyn FwdDyn Opspace OpspaceAba Deriv Sim Ops Control Ik Specs SpecCache SpecDyn SpecOps SpecControl.
Import ListNotations.

Section SpecIk.
Context {S : Scal}.
Local Open Scope k_scope.
Variable solve : list (list K) -> list K -> list K.
Variable pinv : list (list K) -> K -> list (list K) * bool.

(** An error vector is small: the sum of its squares is below the square of a
    thousandth. *)
Definition small (e : list K) : Prop :=
  klt (fold_left kadd (map (fun a => a * a) e) 0) (klit 1 1000 * klit 1 1000) = true.
(** Link [link] of the robot has its point [off] within tolerance of the goal position,
    link [turn] has its orientation within tolerance of the goal orientation. *)
Definition on_goal (g : ik_goal) (link turn : Z) (off : v3) (ab : body) : Prop :=
  exists x R, outcome (ask solve pinv (QPos link off) ab) = Ok (AV3 x) /\ outcome (ask solve pinv (QOri turn) ab) = Ok (AM3 R) /\
    small (g_err_pos g x) /\ small (g_err_ori g R).

(** What one iteration asks of the robot. *)
Record ik_reading := IkReading {
  k_J : list (list K); k_x : v3; k_R : m3; k_singular : bool; k_N : option (list (list K)); k_main : list K; k_joint : list K }.
Definition ik_rows (r : ik_reading) : list (list K) := if k_singular r then firstn 3 (k_J r) else k_J r.
Definition ik_acc (g : ik_goal) (ab : body) (r : ik_reading) : list K :=
  let rates := map (rate (ab_dof ab) (ab_dq ab)) (k_J r) in
  let ddx := g_acc_pos g (k_x r) (firstn 3 rates) in
  if k_singular r then ddx else ddx ++ g_acc_ori g (k_R r) (skipn 3 rates).
Definition plain_task : ops_opts := OpsOpts false false false 0 (klit 1 100) 0.
Record ik_reads (g : ik_goal) (link : Z) (off : v3) (q_des : list K) (ab : body) (r : ik_reading) : Prop := {
  ik_J : exists cols, outcome (ask solve pinv (QJac link off) ab) = Ok (AMots cols) /\ k_J r = task_rows None cols;
  ik_x : outcome (ask solve pinv (QPos link off) ab) = Ok (AV3 (k_x r));
  ik_R : outcome (ask solve pinv (QOri (-1)) ab) = Ok (AM3 (k_R r));
  ik_s : outcome (ask solve pinv (QoSing (k_J r) 0) ab) = Ok (ABool (k_singular r));
  ik_main : outcome (ask solve pinv (QoID (ik_rows r) (ik_acc g ab r) (Some []) (fun _ => None) true plain_task) ab) = Ok (ANull (k_N r) (k_main r));
  ik_joint : exists N', outcome (ask solve pinv (QoID (identity (ab_dof ab)) (g_acc_joint g q_des (ab_q ab) (ab_dq ab)) (k_N r) (fun _ => None) true plain_task) ab)
                        = Ok (ANull N' (k_joint r)) }.

(** One iteration: the robot is not on its goal; the torques are those of the task plus
    those of the joint task in its nullspace; the robot moves for a millisecond without
    gravity.  [ab1] is the robot with other cached values. *)
Definition ik_next (g : ik_goal) (link : Z) (off : v3) (q_des : list K) (ab ab' : body) : Prop :=
  ~ on_goal g link (-1) off ab /\
  exists r tau ab1 c, ik_reads g link off q_des ab r /\
    List.length tau = ab_dof ab /\ (forall i, i < ab_dof ab -> coef tau i = coef (k_main r) i + coef (k_joint r) i) /\
    ab1 = set_cache ab (Some c) /\
    step solve pinv (OIntegrate false tau (fun _ => None) (IdOpts false true false (klit 1 100)) (IntOpts false MRk4) (1 / klit 1000 1)) ab1 = Some ab'.
Inductive iterates (next : body -> body -> Prop) : nat -> body -> body -> Prop :=
| it_none ab : iterates next 0 ab ab
| it_more n ab ab1 ab2 : next ab ab1 -> iterates next n ab1 ab2 -> iterates next (Datatypes.S n) ab ab2.
(** The robot with the joint positions [q]. *)
Definition at_q (ab : body) (q : list K) (ab' : body) : Prop := set_q q ab = Ret ab' tt.
End SpecIk.
