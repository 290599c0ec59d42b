(** C52: the joint-space controller of the Python module *)
From Coq Require Import List Arith ZArith Bool String QArith Qcanon Reals Lia.
From Verif Require Import Scalar Base Spatial SpecGeo Joint Body Kin InvDyn FwdDyn Opspace OpspaceAba Deriv Sim Ops Control JointControl Instances Specs SpecCache SpecKin SpecDyn SpecOps SpecControl SpecJs Samples Checks
  ControlProofs JsProofs PropDyn.
Import ListNotations.
Local Open Scope nat_scope.

(** C52.  Whatever was cached, the torques are the inertia matrix times the acceleration
    of the PD law, plus gravity if asked; the flag is the documented test on the state
    given; the robot is left as it was, or integrated with these torques if a step is
    given. *)
Theorem C52_torques : forall {S : Scal} {L : ScalLaws S} {PL : PosLaws S} solve pinv h ab,
  reached solve pinv h ab -> base_fixed false h = true -> proper ab ->
  forall pd joint threshold grav st ab' tau conv,
  joint_space_control solve pd joint threshold grav st ab = Ok (ab', (tau, conv)) ->
  List.length (asked_acc pd joint ab) = ab_dof ab /\
  (exists A G, outcome (ask solve pinv QInertia ab) = Ok (AMat A) /\ outcome (ask solve pinv QGrav ab) = Ok (AVec G) /\ List.length tau = ab_dof ab /\
    forall i, i < ab_dof ab -> coef tau i = kadd (row_times (ab_dof ab) A (asked_acc pd joint ab) i) (if grav then coef G i else k0)) /\
  (conv = true <-> arrived threshold (position_error pd joint ab) (ab_dq ab)) /\
  exists ab1 c, ab1 = set_cache ab (Some c) /\
    match st with
    | None => ab' = ab1
    | Some dt => step solve pinv (OIntegrate false tau (fun _ => None) (IdOpts true true false (klit 1 100)) (IntOpts false MRk4) dt) ab1 = Some ab'
    end.
Proof. exact @c52_torques. Qed.
Print Assumptions C52_torques.

(** Having arrived means: each threshold given exceeds the Euclidean norm. *)
Theorem C52_arrived : forall (t : option (@K RScal * @K RScal)) (err dq : list (@K RScal)),
  arrived t err dq <-> forall x dx, t = Some (x, dx) -> (sqrt (sqsum err) < x /\ sqrt (sqsum dq) < dx)%R.
Proof. exact c52_arrived. Qed.
Print Assumptions C52_arrived.

(** It never fails, on any robot and for doubles too, if the PD law returns one
    acceleration per joint. *)
Theorem C52_total : forall {S : Scal} solve pinv h ab pd joint threshold grav st,
  reached solve pinv h ab -> List.length (asked_acc pd joint ab) = ab_dof ab ->
  exists r, joint_space_control solve pd joint threshold grav st ab = Ok r.
Proof. exact @c52_total. Qed.
Print Assumptions C52_total.

(** The torques, the flag and the state afterwards do not depend on what was cached. *)
Theorem C52_fresh : forall {S : Scal} {L : ScalLaws S} {PL : PosLaws S} solve pinv h ab mem pd joint threshold grav st,
  reached solve pinv h ab -> base_fixed false h = true -> proper ab ->
  bind (joint_space_control solve pd joint threshold grav st ab) (fun '(a, (tau, conv)) => Ok (ab_q a, ab_dq a, tau, conv)) =
  bind (joint_space_control solve pd joint threshold grav st (cold ab mem)) (fun '(a, (tau, conv)) => Ok (ab_q a, ab_dq a, tau, conv)).
Proof. exact @c52_fresh_out. Qed.
Print Assumptions C52_fresh.

(** Without velocity-dependent forces (and with gravity exactly when it is compensated)
    the torques produce the acceleration of the PD law. *)
Theorem C52_achieves : forall {S : Scal} {L : ScalLaws S} {PL : PosLaws S} solve pinv h ab,
  reached solve pinv h ab -> base_fixed false h = true -> proper ab ->
  forall pd joint threshold grav st ab' tau conv A e,
  outcome (ask solve pinv QInertia ab) = Ok (AMat A) -> solver_ok solve (ab_dof ab) A -> injective (ab_dof ab) A ->
  joint_space_control solve pd joint threshold grav st ab = Ok (ab', (tau, conv)) ->
  outcome (ask solve pinv (QFD tau (fun _ => None) (IdOpts grav false false e)) ab) = Ok (AVec (asked_acc pd joint ab)).
Proof. exact @c52_achieves. Qed.
Print Assumptions C52_achieves.

(** The forces acting in the integrated motion include gravity and the
    velocity-dependent forces: the accelerations differ from those asked for by the
    latter, and by gravity when it is not compensated. *)
Theorem C52_motion : forall {S : Scal} {L : ScalLaws S} {PL : PosLaws S} solve pinv h ab,
  reached solve pinv h ab -> base_fixed false h = true -> proper ab ->
  forall pd joint threshold grav st ab' tau conv A e,
  outcome (ask solve pinv QInertia ab) = Ok (AMat A) -> solver_ok solve (ab_dof ab) A ->
  joint_space_control solve pd joint threshold grav st ab = Ok (ab', (tau, conv)) ->
  exists C G ddq, outcome (ask solve pinv QCC ab) = Ok (AVec C) /\ outcome (ask solve pinv QGrav ab) = Ok (AVec G) /\
    outcome (ask solve pinv (QFD tau (fun _ => None) (IdOpts true true false e)) ab) = Ok (AVec ddq) /\ List.length ddq = ab_dof ab /\
    forall i, i < ab_dof ab ->
      row_times (ab_dof ab) A ddq i = ksub (ksub (row_times (ab_dof ab) A (asked_acc pd joint ab) i) (coef C i)) (if grav then k0 else coef G i).
Proof. exact @c52_motion. Qed.
Print Assumptions C52_motion.

(** Examples: the robot of C17, whose inertia matrix is invertible, and a PD law. *)
Definition pd_law (q des dq : list (@K QcScal)) : list (@K QcScal) * list (@K QcScal) :=
  (map (fun i => ksub (kmul (qz 25) (ksub (coef des i) (coef q i))) (kmul (qz 10) (coef dq i))) (seq 0 (List.length q)),
   map (fun i => ksub (coef q i) (coef des i)) (seq 0 (List.length q))).
Example C52_example : exists A, reached solve0 pinv0 two (robot_after two) /\ base_fixed false two = true /\ proper (robot_after two) /\
  outcome (ask solve0 pinv0 QInertia (robot_after two)) = Ok (AMat A) /\ solver_ok solve0 (ab_dof (robot_after two)) A /\ injective (ab_dof (robot_after two)) A /\
  (exists r, joint_space_control solve0 pd_law (Some [qz 2; qz 2]) (Some (qz 2, qz 1)) true (Some (qq 1 1000)) (robot_after two) = Ok r).
Proof.
  destruct C17_example as (A & R & B & P & HA & D & SO & IN). exists A. rewrite D. do 6 (split; [auto|]).
  apply (c52_total solve0 pinv0 two); [exact R|]. vm_compute. reflexivity.
Qed.
(** Here the velocity-dependent forces are not zero. *)
Example C52_motion_example : fracs (outcome (ask solve0 pinv0 QCC (robot_after two))) <> [(0, 1); (0, 1)]%Z.
Proof. vm_compute. discriminate. Qed.
(** Defect: the robot is moved for a step that is not positive, which the documentation
    excludes: here one second backwards. *)
Definition rail : list (@op QcScal) := [OAdd (q_link "x" JPx iso_id 2) (-1)].
Theorem C52_step_refuted : exists solve pinv h (ab : @body QcScal) pd dt ab' r,
  reached solve pinv h ab /\ klt dt k0 = true /\
  joint_space_control solve pd (Some [qz 1]) None true (Some dt) ab = Ok (ab', r) /\ ab_q ab' <> ab_q ab.
Proof.
  destruct (c52_total solve0 pinv0 rail (robot_after rail) pd_law (Some [qz 1]) None true (Some (qz (-1)))) as [[ab' r] E];
    [apply robot_after_reached; vm_compute; reflexivity|vm_compute; reflexivity|].
  exists solve0, pinv0, rail, (robot_after rail), pd_law, (qz (-1)), ab', r.
  split; [apply robot_after_reached; vm_compute; reflexivity|]. split; [reflexivity|]. split; [exact E|].
  intros X. assert (F : match joint_space_control solve0 pd_law (Some [qz 1]) None true (Some (qz (-1))) (robot_after rail) with
                        | Ok (a, _) => map frac (ab_q a) | _ => [] end <> map frac (ab_q (robot_after rail))) by (vm_compute; discriminate).
  rewrite E in F. apply F. rewrite X. reflexivity.
Qed.
Print Assumptions C52_step_refuted.
