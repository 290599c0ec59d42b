(** C73: adding a link to a robot in use *)
From Coq Require Import List Arith ZArith Bool String QArith Qcanon.
From Verif Require Import Scalar Base Spatial SpecGeo Joint Body Kin InvDyn FwdDyn Opspace OpspaceAba Deriv Sim Ops Instances Specs SpecCache SpecKin SpecDyn Samples Checks PropCache GrowProofs.
Import ListNotations.

(** The state grows by zeros. *)
Theorem C73_state : forall {S : Scal} solve pinv h ab ab' rb p,
  reached solve pinv h ab -> step solve pinv (OAdd rb p) ab = Some ab' -> (-1 <= p < Z.of_nat (ab_dof ab))%Z ->
  ab_q ab' = ab_q ab ++ [k0] /\ ab_dq ab' = ab_dq ab ++ [k0].
Proof. exact @g_q. Qed.
Print Assumptions C73_state.
(** Every pose of the links that were there is what it was. *)
Theorem C73_pose : forall {S : Scal} solve pinv h ab ab' rb p,
  reached solve pinv h ab -> step solve pinv (OAdd rb p) ab = Some ab' -> (-1 <= p < Z.of_nat (ab_dof ab))%Z ->
  forall {AC : AddComm S} i off, base_fixed false h = true -> (i < ab_dof ab)%nat ->
  forall q, In q [QTp (Z.of_nat i); QTw (Z.of_nat i); QPos (Z.of_nat i) off; QOri (Z.of_nat i); QPose (Z.of_nat i) off] ->
  outcome (ask solve pinv q ab') = outcome (ask solve pinv q ab).
Proof. exact @c73_pose. Qed.
Print Assumptions C73_pose.
(** Their Jacobians get one zero column. *)
Theorem C73_jacobian : forall {S : Scal} solve pinv h ab ab' rb p,
  reached solve pinv h ab -> step solve pinv (OAdd rb p) ab = Some ab' -> (-1 <= p < Z.of_nat (ab_dof ab))%Z ->
  forall {AC : AddComm S} k off, (k < ab_dof ab)%nat ->
  exists J, Jacobian_q ab (ab_q ab) (Z.of_nat k) off = Ok J /\ Jacobian_q ab' (ab_q ab') (Z.of_nat k) off = Ok (J ++ [mzero]).
Proof. exact @c73_jacobian. Qed.
Print Assumptions C73_jacobian.
(** The gravity torque of a joint that was there changes by the weight of the new link
    seen through its Jacobian, ... *)
Theorem C73_gravity : forall {S : Scal} solve pinv h ab ab' rb p,
  reached solve pinv h ab -> step solve pinv (OAdd rb p) ab = Some ab' -> (-1 <= p < Z.of_nat (ab_dof ab))%Z ->
  forall {L : ScalLaws S} {PL : PosLaws S}, base_fixed false h = true -> proper ab -> proper ab' ->
  exists J' G G', jacobians ab' J' /\ outcome (ask solve pinv QGrav ab) = Ok (AVec G) /\ outcome (ask solve pinv QGrav ab') = Ok (AVec G') /\
    (forall i, (i < ab_dof ab)%nat -> coef G' i =
       (coef G i - total (map (fun B => imass B * v3dot (mlin (ab_g ab)) (mlin (col (J' (ab_dof ab) (icom B)) i))) (bodies_on ab' (ab_dof ab))))%k).
Proof. exact @c73_gravity. Qed.
Print Assumptions C73_gravity.
(** ... and the inertia matrix of those joints by the kinetic energy of the new link. *)
Theorem C73_inertia : forall {S : Scal} solve pinv h ab ab' rb p,
  reached solve pinv h ab -> step solve pinv (OAdd rb p) ab = Some ab' -> (-1 <= p < Z.of_nat (ab_dof ab))%Z ->
  forall {L : ScalLaws S} {PL : PosLaws S}, base_fixed false h = true -> proper ab -> proper ab' ->
  exists J' O' A A', jacobians ab' J' /\ orientations ab' O' /\ outcome (ask solve pinv QInertia ab) = Ok (AMat A) /\ outcome (ask solve pinv QInertia ab') = Ok (AMat A') /\
    (forall i j, (i < ab_dof ab)%nat -> (j < ab_dof ab)%nat -> entry A' i j = (entry A i j +
      total (map (fun B => kinetic (O' (ab_dof ab)) B (col (J' (ab_dof ab) (icom B)) i) (col (J' (ab_dof ab) (icom B)) j)) (bodies_on ab' (ab_dof ab))))%k).
Proof. exact @c73_inertia. Qed.
Print Assumptions C73_inertia.
(** Forces on the links that were there load those joints as before, and not the new one. *)
Theorem C73_external : forall {S : Scal} solve pinv h ab ab' rb p,
  reached solve pinv h ab -> step solve pinv (OAdd rb p) ab = Some ab' -> (-1 <= p < Z.of_nat (ab_dof ab))%Z ->
  forall {L : ScalLaws S} fe, base_fixed false h = true -> rigid_robot ab -> rigid_robot ab' -> fe (ab_dof ab) = None ->
  exists E E', outcome (ask solve pinv (QExt fe) ab) = Ok (AVec E) /\ outcome (ask solve pinv (QExt fe) ab') = Ok (AVec E') /\
    (forall i, (i < ab_dof ab)%nat -> coef E' i = coef E i) /\ coef E' (ab_dof ab) = 0%k.
Proof. exact @c73_external. Qed.
Print Assumptions C73_external.
(** A load may be put on a link number before that link is there: the robot is the same as
    when the load comes after the link, and every pose and dynamics query answers alike. *)
Theorem C73_load_first : forall {S : Scal} solve pinv {AC : AddComm S} h ab rb p J z,
  reached solve pinv h ab -> (0 <= z)%Z -> (-1 <= p < Z.of_nat (ab_dof ab))%Z ->
  exists a b, run solve pinv [OAddLoad J z; OAdd rb p] ab = Some a /\ run solve pinv [OAdd rb p; OAddLoad J z] ab = Some b /\
    (forall mem, cold a mem = cold b mem) /\
    (base_fixed false h = true -> forall q, pose_query q || dynamics_query q = true -> outcome (ask solve pinv q a) = outcome (ask solve pinv q b)).
Proof. exact @c73_early. Qed.
Print Assumptions C73_load_first.

(** A link added to link 2 of the robot of [busy], which has been asked everything.  The
    gravity torques of the joints that were there change. *)
Definition added : @op QcScal := OAdd (q_link "f" JPy q_iso 2) 2.
Definition asked_g (h : list (@op QcScal)) : list (Z * Z) := fracs (outcome (ask solve0 pinv0 QGrav (robot_after h))).
Example C73_example : reached solve0 pinv0 busy (robot_after busy) /\ base_fixed false busy = true /\ ab_dof (robot_after busy) = 5%nat /\
  is_some (step solve0 pinv0 added (robot_after busy)) = true /\ proper (robot_after busy) /\ proper (robot_after (busy ++ [added])) /\
  List.length (asked_g (busy ++ [added])) = 6%nat /\ firstn 5 (asked_g (busy ++ [added])) <> asked_g busy.
Proof.
  split; [exact busy_reached|]. split; [reflexivity|]. split; [vm_compute; reflexivity|]. split; [vm_compute; reflexivity|].
  split; [apply properb_ok; vm_compute; reflexivity|]. split; [apply properb_ok; vm_compute; reflexivity|]. split; [vm_compute; reflexivity|vm_compute; discriminate].
Qed.

(** Number 5 is the link that comes next.  The load on it changes nothing until the link is
    there, and the order does not matter; for number -1, the last link, it does. *)
Definition early (z : Z) : @op QcScal := OAddLoad (q_inertia 3) z.
Example C73_load_example : asked_g (busy ++ [early 5]) = asked_g busy /\
  asked_g (busy ++ [early 5; added]) = asked_g (busy ++ [added; early 5]) /\ asked_g (busy ++ [early 5; added]) <> asked_g (busy ++ [added]) /\
  asked_g (busy ++ [early (-1); added]) <> asked_g (busy ++ [added; early (-1)]).
Proof.
  split; [vm_compute; reflexivity|]. split; [vm_compute; reflexivity|]. split; [vm_compute; discriminate|vm_compute; discriminate].
Qed.
