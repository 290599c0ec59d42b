(** Specifications: the task controller of the Python module (C44). *)
From Coq Require Import List Arith ZArith Bool Reals.
From Verif Require Import Scalar Base Spatial Joint Body Kin InvDyn FwdDyn Opspace OpspaceAba Deriv Sim Ops Control Specs SpecCache SpecDyn SpecOps.
Import ListNotations.

Section SpecControl.
Context {S : Scal}.
Local Open Scope k_scope.

(** The Jacobian used by the controller: both halves of every column turned by the
    matrix given, if any; three linear rows, three angular rows. *)
Definition turned (rot : option m3) (m : motion) : motion :=
  match rot with None => m | Some R => Mot (m3mulv R (mlin m)) (m3mulv R (mang m)) end.
Definition task_rows (rot : option m3) (columns : list motion) : list (list K) :=
  map (fun part : motion -> K => map (fun m => part (turned rot m)) columns)
      [fun m => vx (mlin m); fun m => vy (mlin m); fun m => vz (mlin m);
       fun m => vx (mang m); fun m => vy (mang m); fun m => vz (mang m)].
(** A row times the joint velocities, added from left to right. *)
Definition rate (n : nat) (dq row : list K) : K :=
  fold_left kadd (map (fun j => coef row j * coef dq j) (seq 0 n)) 0.
(** An error is within a threshold. *)
Definition within (t : K) (x : list K) : Prop :=
  klt t 0 = true \/ klt (fold_left kadd (map (fun a => a * a) x) 0) (t * t) = true.
Definition identity (n : nat) : list (list K) := map (fun i => map (fun j => delta i j) (seq 0 n)) (seq 0 n).

(** What the controller measures and asks. *)
Record reading := Reading {
  r_J : list (list K); r_x : v3; r_R : m3; r_dx : list K; r_w : list K;
  r_s6 : bool; r_s3 : bool; r_N : option (list (list K)); r_main : list K; r_joint : list K; r_grav : list K }.
(** The rows and the accelerations of the main task: position and orientation unless
    the six rows are singular, then position alone. *)
Definition goal_rows (r : reading) : list (list K) := if r_s6 r then firstn 3 (r_J r) else r_J r.
Definition goal_acc (k : controller) (r : reading) : list K :=
  let ddx := fst (c_pos k (r_x r) (r_dx r)) in
  if r_s6 r then ddx else ddx ++ fst (c_ori k (r_R r) (r_w r)).
(** [r] holds the answers of the library, each asked on the robot [ab] itself. *)
Record reads solve pinv (k : controller) (ab : body) (r : reading) : Prop := {
  reads_J : exists cols, outcome (ask solve pinv (QJac (-1) (c_off k)) ab) = Ok (AMots cols) /\ r_J r = task_rows (c_rot k) cols;
  reads_x : outcome (ask solve pinv (QPos (-1) (c_off k)) ab) = Ok (AV3 (r_x r));
  reads_R : outcome (ask solve pinv (QOri (-1)) ab) = Ok (AM3 (r_R r));
  reads_dx : r_dx r = map (rate (ab_dof ab) (ab_dq ab)) (firstn 3 (r_J r));
  reads_w : r_w r = map (rate (ab_dof ab) (ab_dq ab)) (skipn 3 (r_J r));
  reads_s6 : outcome (ask solve pinv (QoSing (r_J r) (klit 1 100)) ab) = Ok (ABool (r_s6 r));
  reads_s3 : if r_s6 r then outcome (ask solve pinv (QoSing (firstn 3 (r_J r)) (klit 1 100)) ab) = Ok (ABool (r_s3 r)) else r_s3 r = false;
  reads_main : outcome (ask solve pinv (QoID (goal_rows r) (goal_acc k r) (Some (identity (ab_dof ab))) (fun _ => None) true
                         (OpsOpts false false false 0 (klit 1 100) 0)) ab) = Ok (ANull (r_N r) (r_main r));
  reads_joint : exists N', outcome (ask solve pinv (QoID (identity (ab_dof ab)) (c_joint k (ab_q ab) (ab_dq ab)) (r_N r) (fun _ => None) true
                         (OpsOpts false false false 0 (klit 1 100) 0)) ab) = Ok (ANull N' (r_joint r));
  reads_grav : if c_gravity k then outcome (ask solve pinv QGrav ab) = Ok (AVec (r_grav r)) else r_grav r = [] }.
(** The status word has exactly these bits. *)
Definition status_of (k : controller) (r : reading) (st : Z) : Prop :=
  (0 <= st < 64)%Z /\
  (Z.testbit st 0 = true <-> within (c_x k) (snd (c_pos k (r_x r) (r_dx r)))) /\
  (Z.testbit st 1 = true <-> within (c_dx k) (r_dx r)) /\
  (Z.testbit st 2 = true <-> within (c_ori_t k) (snd (c_ori k (r_R r) (r_w r)))) /\
  (Z.testbit st 3 = true <-> within (c_w k) (r_w r)) /\
  Z.testbit st 4 = r_s6 r /\ Z.testbit st 5 = r_s3 r.
End SpecControl.
