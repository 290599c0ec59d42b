(** C71, and T_from_world of C31 *)
From Coq Require Import List Arith ZArith QArith Bool String.
From Verif Require Import Scalar Base Spatial SpecGeo Joint Body Kin KinInv InvDyn FwdDyn Opspace OpspaceAba Deriv Sim Ops Instances Specs SpecCache SpecKin SpecKinInv Samples Checks TreeProofs CacheProofs CacheOps KinProofs PropCache KinInvProofs.
Import ListNotations.

(** T_from_world undoes T_to_world. *)
Theorem C71_world : forall {S : Scal} solve pinv {L : ScalLaws S} h ab z i,
  reached solve pinv h ab -> base_fixed false h = true -> rigid_robot ab -> idx (ab_dof ab) z = Some i ->
  exists T F, outcome (py_T_to_world z None ab) = Ok T /\ outcome (py_T_from_world z None ab) = Ok F /\ undoes F T.
Proof. exact @c71_world. Qed.
Print Assumptions C71_world.
(** T_from_parent undoes T_to_parent: both at the joint position of the robot, or both at
    a joint position given. *)
Theorem C71_parent : forall {S : Scal} solve pinv {L : ScalLaws S} h ab z i q,
  reached solve pinv h ab -> base_fixed false h = true -> rigid_robot ab -> idx (ab_dof ab) z = Some i ->
  exists T F, outcome (py_T_to_parent z q ab) = Ok T /\ outcome (py_T_from_parent z q ab) = Ok F /\ undoes F T.
Proof. exact @c71_parent. Qed.
Print Assumptions C71_parent.
(** From a link to the world and down to the link it was attached to is T_to_parent. *)
Theorem C71_between : forall {S : Scal} solve pinv {L : ScalLaws S} h ab i p,
  reached solve pinv h ab -> base_fixed false h = true -> rigid_robot ab -> (i < ab_dof ab)%nat ->
  requested_parent (accepted h) i = Some p ->
  exists T F t, outcome (py_T_to_world (Z.of_nat i) None ab) = Ok T /\ outcome (py_T_from_world (Z.of_nat p) None ab) = Ok F /\
    outcome (py_T_to_parent (Z.of_nat i) None ab) = Ok t /\ forall x, iso_app F (iso_app T x) = iso_app t x.
Proof. exact @c71_between. Qed.
Print Assumptions C71_between.
(** Indices out of range. *)
Theorem C71_range : forall {S : Scal} solve pinv {AC : AddComm S} h ab z,
  reached solve pinv h ab -> idx (ab_dof ab) z = None ->
  (forall q, py_T_from_parent z q ab = UB) /\ (forall q, py_T_from_world z q ab = UB).
Proof. exact @c71_range. Qed.
Print Assumptions C71_range.
(** What was asked before makes no difference: the answer is that of a robot whose cache
    holds nothing. *)
Theorem C71_fresh : forall {S : Scal} solve pinv {AC : AddComm S} h ab mem z,
  reached solve pinv h ab -> base_fixed false h = true ->
  outcome (py_T_from_world z None ab) = outcome (py_T_from_world z None (cold ab mem)) /\
  forall q, outcome (py_T_from_parent z q ab) = outcome (py_T_from_parent z q (cold ab mem)).
Proof. exact @c71_fresh. Qed.
Print Assumptions C71_fresh.
(** The hypothesis that the fixed transforms are rigid is needed: nothing checks the
    matrix given to set_T_to_parent, and the inverse taken is that of an isometry. *)
Definition scaled : @iso QcScal := Iso (M3 (QV 2 0 0) (QV 0 2 0) (QV 0 0 2)) (QV 0 0 0).
Definition stretched : list (@op QcScal) := [OAdd (q_link "a" JPx scaled 1) (-1)].
Theorem C71_scaled_refuted : exists (h : list (@op QcScal)) ab T F, reached solve0 pinv0 h ab /\ base_fixed false h = true /\
  outcome (py_T_to_world 0 None ab) = Ok T /\ outcome (py_T_from_world 0 None ab) = Ok F /\ ~ undoes F T.
Proof.
  exists stretched, (robot_after stretched). eexists. eexists. split; [apply robot_after_reached; vm_compute; reflexivity|].
  split; [reflexivity|]. split; [reflexivity|]. split; [reflexivity|].
  intros U. destruct (U (QV 1 0 0)) as [A _]. apply (f_equal (fun v => frac (vx v))) in A. vm_compute in A. discriminate A.
Qed.
Print Assumptions C71_scaled_refuted.

(** Map calls the function on every link in order and returns what it returned, one
    number per link; if the function throws on some link, so does Map. *)
Theorem C71_map : forall {S : Scal} solve pinv h (ab : body) (f : rigid_body -> res K) xs, reached solve pinv h ab ->
  (Map f ab = Ok xs <-> Forall2 (fun rb x => f rb = Ok x) (ab_rbs ab) xs).
Proof. exact @c71_map. Qed.
Print Assumptions C71_map.
Theorem C71_map_throws : forall {S : Scal} solve pinv h (ab : body) (f : rigid_body -> res K), reached solve pinv h ab ->
  (forall rb, f rb <> UB) -> (Map f ab = Throw <-> exists rb, In rb (ab_rbs ab) /\ f rb = Throw).
Proof. exact @c71_map_throw. Qed.
Print Assumptions C71_map_throws.

(** On the robot of [busy]: it meets the hypotheses; link 3 is attached to link 2; a point
    taken to the world and back; and the masses of its links by Map. *)
Definition there_and_back (z : Z) : list (Z * Z) :=
  match outcome (py_T_to_world z None (robot_after busy)), outcome (py_T_from_world z None (robot_after busy)) with
  | Ok T, Ok F => fracs3 (iso_app T (QV 5 6 7)) ++ fracs3 (iso_app F (iso_app T (QV 5 6 7))) | _, _ => [] end.
Example C71_example : reached solve0 pinv0 busy (robot_after busy) /\ base_fixed false busy = true /\ rigid_robot (robot_after busy) /\
  idx (ab_dof (robot_after busy)) (-2) = Some 3%nat /\ requested_parent (accepted busy) 3 = Some 2%nat /\
  skipn 3 (there_and_back (-2)) = [(5, 1); (6, 1); (7, 1)]%Z /\ firstn 3 (there_and_back (-2)) <> skipn 3 (there_and_back (-2)) /\
  match Map (fun rb => Ok (imass (rb_inertia rb))) (robot_after busy) with Ok l => map frac l = [(2, 1); (1, 1); (3, 1); (1, 1); (2, 1)]%Z | _ => False end.
Proof.
  split; [exact busy_reached|]. split; [reflexivity|]. split; [apply rigid_robotb_ok; vm_compute; reflexivity|].
  split; [vm_compute; reflexivity|]. split; [vm_compute; reflexivity|]. split; [vm_compute; reflexivity|]. split; [vm_compute; discriminate|].
  vm_compute. reflexivity.
Qed.

(** C31 *)
Theorem C31_T_from_world_q : forall {S : Scal} (ab : body) z q,
  T_from_world_q ab z q = UB /\ py_T_to_world z (Some q) ab = UB /\ py_T_from_world z (Some q) ab = UB.
Proof. exact @c31_from. Qed.
Print Assumptions C31_T_from_world_q.
