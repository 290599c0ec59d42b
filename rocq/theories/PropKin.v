(** C07, C08, C31, C26 (robot part) *)
From Coq Require Import List Arith ZArith Bool String.
From Verif Require Import Scalar Base Spatial SpecGeo Joint Body Kin InvDyn FwdDyn Opspace OpspaceAba Deriv Sim Ops Instances Specs SpecCache SpecKin Samples TreeProofs CacheProofs CacheOps KinProofs PropCache.
Import ListNotations.

(** C07.  The world transform is the base placement times the link-to-parent
    transforms along the path from the base; Position, Orientation and CartesianPose
    are read off it. *)
Theorem C07_world : forall {S : Scal} solve pinv {AC : AddComm S} h ab z i,
  reached solve pinv h ab -> base_fixed false h = true -> idx (ab_dof ab) z = Some i ->
  exists path T, is_path (requested_parent (accepted h)) path i /\ product_along ab (ab_q ab) path T /\
    outcome (ask solve pinv (QTw z) ab) = Ok (AIso T) /\ outcome (ask solve pinv (QOri z) ab) = Ok (AM3 (rot T)) /\
    (forall off, outcome (ask solve pinv (QPos z off) ab) = Ok (AV3 (iso_app T off)) /\
                 outcome (ask solve pinv (QPose z off) ab) = Ok (AIso (Iso (rot T) (iso_app T off)))) /\
    exists t, T_to_parent_q ab z (nth i (ab_q ab) k0) = Ok t /\ outcome (ask solve pinv (QTp z) ab) = Ok (AIso t).
Proof. exact @c07_world. Qed.
Print Assumptions C07_world.
(** The explicit-q overloads (functions of the robot, which they cannot change) agree
    with the stored-q ones at the stored q. *)
Theorem C07_explicit : forall {S : Scal} solve pinv {L : ScalLaws S} h ab z off,
  reached solve pinv h ab -> base_fixed false h = true ->
  outcome (ask solve pinv (QPos z off) ab) = bind (Position_q ab (ab_q ab) z off) (fun p => Ok (AV3 p)) /\
  outcome (ask solve pinv (QOri z) ab) = bind (Orientation_q ab (ab_q ab) z) (fun R => Ok (AM3 R)).
Proof. exact @c07_explicit. Qed.
Print Assumptions C07_explicit.
(** Which indices are valid, and what happens otherwise. *)
Theorem C07_index : forall n z i, idx n z = Some i <->
  i < n /\ (z = Z.of_nat i \/ z = Z.of_nat i - Z.of_nat n)%Z.
Proof. exact idx_spec. Qed.
Print Assumptions C07_index.
Theorem C07_range : forall {S : Scal} solve pinv {AC : AddComm S} h ab z off,
  reached solve pinv h ab -> idx (ab_dof ab) z = None ->
  (ask solve pinv (QTw z) ab = UB /\ ask solve pinv (QTp z) ab = UB /\ ask solve pinv (QPos z off) ab = UB /\
   ask solve pinv (QOri z) ab = UB /\ ask solve pinv (QPose z off) ab = UB /\ ask solve pinv (QJac z off) ab = UB) /\
  forall q, Position_q ab q z off = UB /\ Orientation_q ab q z = UB /\ Jacobian_q ab q z off = UB.
Proof. exact @c07_range. Qed.
Print Assumptions C07_range.
Example C07_example : fracs (outcome (ask solve0 pinv0 (QPos (-2) (QV 1 0 0)) (robot_after busy))) =
  fracs (bind (Position_q (robot_after busy) (ab_q (robot_after busy)) 3 (QV 1 0 0)) (fun p => Ok (AV3 p))).
Proof. vm_compute. reflexivity. Qed.

(** C08 *)
Theorem C08_overloads : forall {S : Scal} solve pinv {AC : AddComm S} {E : EqSound S} h ab z off,
  reached solve pinv h ab -> base_fixed false h = true ->
  outcome (ask solve pinv (QJac z off) ab) = bind (Jacobian_q ab (ab_q ab) z off) (fun J => Ok (AMots J)).
Proof. exact @c08_overloads. Qed.
Print Assumptions C08_overloads.
Theorem C08_sparsity : forall {S : Scal} solve pinv h ab ab' z i off J,
  reached solve pinv h ab -> base_fixed false h = true -> AddComm S ->
  idx (ab_dof ab) z = Some i -> ask solve pinv (QJac z off) ab = Ok (ab', AMots J) ->
  List.length J = ab_dof ab /\
  forall path j, is_path (requested_parent (accepted h)) path i -> ~ In j path -> nth j J mzero = mzero.
Proof. exact @c08_sparse. Qed.
Print Assumptions C08_sparsity.
(** The right-hand sides make no reference to the cached offset: AngularJacobian is
    the lower half of the Jacobian at any offset. *)
Theorem C08_halves : forall {S : Scal} solve pinv {AC : AddComm S} h ab z off,
  reached solve pinv h ab -> base_fixed false h = true ->
  match outcome (ask solve pinv (QJac z off) ab) with
  | Ok (AMots J) => outcome (ask solve pinv (QLin z off) ab) = Ok (AV3s (map mlin J)) /\
                    outcome (ask solve pinv (QAng z) ab) = Ok (AV3s (map mang J))
  | Ok _ => False
  | Throw => False
  | UB => idx (ab_dof ab) z = None
  end.
Proof. exact @c08_halves. Qed.
Print Assumptions C08_halves.
Example C08_example : fracs (outcome (ask solve0 pinv0 (QJac 4 (QV 1 0 0)) (robot_after busy))) =
  map (fun n => (n, 1)%Z)
    [0; 2; 0; 0; 0; 1;  0; -1; 0; 0; 0; 0;  0; 0; 0; 0; 0; 0;  0; 0; 0; 0; 0; 0;  0; 1; 0; 0; 0; 0]%Z.
Proof. vm_compute. reflexivity. Qed.

(** C31 *)
Theorem C31_T_to_world_q : forall {S : Scal} (ab : body) z q, T_to_world_q ab z q = UB.
Proof. exact @c31. Qed.
Print Assumptions C31_T_to_world_q.
Theorem C31_CartesianPose_q : forall {S : Scal} (ab : body) z q off, CartesianPose_q ab q z off = UB.
Proof. exact @c31_pose. Qed.
Print Assumptions C31_CartesianPose_q.

(** C26, robot part. *)
Theorem C26_robot : forall {S : Scal} solve pinv {L : ScalLaws S} h ab z,
  reached solve pinv h ab -> base_fixed false h = true -> rigid_robot ab ->
  match outcome (ask solve pinv (QTw z) ab), outcome (ask solve pinv (QTp z) ab) with
  | Ok (AIso T), Ok (AIso t) => rigid T /\ rigid t
  | UB, UB => idx (ab_dof ab) z = None
  | _, _ => False
  end.
Proof. exact @c26_world. Qed.
Print Assumptions C26_robot.
