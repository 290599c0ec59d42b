(** C03, C04, C06, C30 *)
From Coq Require Import List Arith ZArith Bool String.
From Verif Require Import Scalar Base Spatial Joint Body Kin InvDyn FwdDyn Opspace OpspaceAba Deriv Sim Ops Instances Specs SpecCache Samples TreeProofs CacheProofs CacheOps KinProofs IbProofs.
Import ListNotations.

(** A history mixing construction, state changes, loads, queries, simulation steps
    and a copy; the base is placed before the first query. *)
Definition busy : list (@op QcScal) :=
  OSetBase q_iso :: build ++ pose ++
  [ OAsk (QTw 1); OAsk (QJac 3 (QV 1 2 3)); OAsk QInertia; OAsk QCC; OAsk QGrav;
    OAddLoad (q_inertia 2) 1; OAsk (QAinv [qz 1; qz 2; qz 3; qz 4]); OSetG (QV 0 1 2);
    OAdd (q_link "e" JPy q_iso 2) 1; OSetQ [qz 1; qz 0; qz 2; qz 1; qz 3]; OCopy;
    OAsk (QHess 3 (QV 0 0 1)); OSetDq [qz 1; qz 1; qz 0; qz 1; qz 3]; OAsk (QExt (fun _ => None)) ].
Example busy_reached : reached solve0 pinv0 busy (robot_after busy).
Proof. apply robot_after_reached. vm_compute. reflexivity. Qed.
Example busy_base_fixed : base_fixed false busy = true.
Proof. reflexivity. Qed.
(** What the robot answers afterwards is not trivial. *)
Example busy_answer : fracs (outcome (ask solve0 pinv0 (QPos 3 (QV 1 0 0)) (robot_after busy))) = [(3, 1); (-9, 5); (17, 5)]%Z.
Proof. vm_compute. reflexivity. Qed.

(** C03.  [cold ab mem] is the robot with [ab]'s observable state whose cache was
    just allocated over arbitrary memory. *)
Theorem C03_pose : forall {S : Scal} solve pinv {AC : AddComm S} h ab mem q,
  reached solve pinv h ab -> base_fixed false h = true -> pose_query q = true ->
  outcome (ask solve pinv q ab) = outcome (ask solve pinv q (cold ab mem)).
Proof. exact @c03_pose. Qed.
Print Assumptions C03_pose.

Theorem C03_jacobian : forall {S : Scal} solve pinv {AC : AddComm S} {E : EqSound S} h ab mem q,
  reached solve pinv h ab -> base_fixed false h = true -> jacobian_query q = true ->
  outcome (ask solve pinv q ab) = outcome (ask solve pinv q (cold ab mem)).
Proof. exact @c03_jac_exact. Qed.
Print Assumptions C03_jacobian.

(** Where == does not imply equality (doubles: 0 == -0), the offset used may be
    another one that compares equal. *)
Theorem C03_jacobian_doubles : forall {S : Scal} solve pinv {AC : AddComm S} h ab mem q,
  reached solve pinv h ab -> base_fixed false h = true -> jacobian_query q = true ->
  exists o', (o' = offset_of q \/ v3eqb o' (offset_of q) = true) /\
  outcome (ask solve pinv q ab) = outcome (ask solve pinv (with_offset q o') (cold ab mem)).
Proof. exact @c03_jac. Qed.
Print Assumptions C03_jacobian_doubles.

(** The hypothesis on arithmetic holds of IEEE doubles. *)
Theorem C03_doubles : forall sn cs tr, AddComm (F64of sn cs tr).
Proof. exact F64_comm. Qed.
Print Assumptions C03_doubles.

(** C04 *)
Theorem C04_dynamics : forall {S : Scal} solve pinv {AC : AddComm S} h ab mem q,
  reached solve pinv h ab -> base_fixed false h = true -> dynamics_query q = true ->
  outcome (ask solve pinv q ab) = outcome (ask solve pinv q (cold ab mem)).
Proof. exact @c04. Qed.
Print Assumptions C04_dynamics.

Example C04_example : fracs (outcome (ask solve0 pinv0 QGrav (robot_after busy))) =
  fracs (outcome (ask solve0 pinv0 QGrav (cold (robot_after busy) (junk (qz 5))))) /\
  fracs (outcome (ask solve0 pinv0 QGrav (robot_after busy))) <> map (fun _ => (0, 1)%Z) (seq 0 5).
Proof. split; [vm_compute; reflexivity|vm_compute; discriminate]. Qed.

(** C06.  Once T_to_world has been asked, moving the base changes no world
    quantity ... *)
Theorem C06_world_stale : forall {S : Scal} solve pinv ab z ab1 x T ab2 q,
  ask solve pinv (QTw z) ab = Ok (ab1, x) -> set_T_base T ab1 = Ret ab2 tt -> world_query q = true ->
  outcome (ask solve pinv q ab2) = outcome (ask solve pinv q ab1).
Proof. exact @c06_world. Qed.
Print Assumptions C06_world_stale.
(** ... nor the gravity torques and the Jacobian once they have been asked. *)
Theorem C06_gravity_stale : forall {S : Scal} solve pinv ab ab1 x T ab2,
  ask solve pinv QGrav ab = Ok (ab1, x) -> set_T_base T ab1 = Ret ab2 tt ->
  outcome (ask solve pinv QGrav ab2) = Ok x.
Proof. exact @c06_gravity. Qed.
Print Assumptions C06_gravity_stale.
Theorem C06_jacobian_stale : forall {S : Scal} solve pinv ab z off ab1 x T ab2, v3eqb off off = true ->
  ask solve pinv (QJac z off) ab = Ok (ab1, x) -> set_T_base T ab1 = Ret ab2 tt ->
  outcome (ask solve pinv (QJac z off) ab2) = outcome (ask solve pinv (QJac z off) ab1).
Proof. exact @c06_jacobian. Qed.
Print Assumptions C06_jacobian_stale.

(** Hence C03 and C04 fail without [base_fixed]; the explicit-q overload disagrees
    with the stored-q one. *)
Definition moved : list (@op QcScal) :=
  build ++ pose ++ [OAsk (QTw 0); OAsk QGrav; OAsk (QJac 3 (QV 1 2 3)); OSetBase (Iso (M3 (QV 1 0 0) (QV 0 0 (-1)) (QV 0 1 0)) (QV 5 5 5))].
Theorem C06_refuted : exists (ab : @body QcScal) mem, reached solve0 pinv0 moved ab /\
  (forall q, In q [QTw 3; QPos 3 (QV 1 2 3); QGrav; QJac 3 (QV 1 2 3)] ->
     outcome (ask solve0 pinv0 q ab) <> outcome (ask solve0 pinv0 q (cold ab mem))) /\
  outcome (ask solve0 pinv0 (QPos 3 (QV 1 2 3)) ab) <> bind (Position_q ab (ab_q ab) 3 (QV 1 2 3)) (fun p => Ok (AV3 p)).
Proof.
  exists (robot_after moved), (junk (qz 0)). split; [apply robot_after_reached; vm_compute; reflexivity|]. split.
  - intros q Hq. apply fracs_neq. destruct Hq as [<-|[<-|[<-|[<-|[]]]]]; vm_compute; discriminate.
  - apply fracs_neq. vm_compute. discriminate.
Qed.
Print Assumptions C06_refuted.

(** C30.  (Objects are values in the model: a copy shares nothing with its source,
    as in articulated_body.cc:22-34, which copies every container and allocates a new
    cache.) *)
Theorem C30_copy : forall {S : Scal} solve pinv ab, reachable solve pinv ab ->
  exists ab', body_copy ab = Ok ab' /\ behave_alike solve pinv ab ab' /\ ab_Ibase ab' = unit_mass.
Proof. exact @c30_copy. Qed.
Print Assumptions C30_copy.
Theorem C30_assign : forall {S : Scal} solve pinv dst ab, reachable solve pinv ab ->
  exists ab', body_assign dst ab = Ok ab' /\ behave_alike solve pinv ab ab' /\ ab_Ibase ab' = ab_Ibase dst.
Proof. exact @c30_assign. Qed.
Print Assumptions C30_assign.
Theorem C30_move : forall {S : Scal} solve pinv ab,
  behave_alike solve pinv ab (fst (body_move ab)) /\ ab_Ibase (fst (body_move ab)) = unit_mass.
Proof. exact @c30_move. Qed.
Print Assumptions C30_move.
(** The object moved from: no query returns, load changes and copying are undefined,
    set_g works; set_q and set_dq throw on a wrong length and compare vectors of
    different sizes on the right one. *)
Theorem C30_moved_from : forall {S : Scal} solve pinv ab, let m := snd (body_move ab) in
  (forall q, ask solve pinv q m = UB \/ ask solve pinv q m = Throw) /\
  (forall J i, add_load J i m = Bad /\ replace_load J i m = Bad /\ clear_load i m = Bad) /\
  body_copy m = UB /\ (forall dst, body_assign dst m = UB) /\
  (forall g, exists m', set_g g m = Ret m' tt) /\
  (0 < ab_dof ab -> forall q, set_q q m = Exn m /\ List.length q <> ab_dof ab \/ set_q q m = Bad /\ List.length q = ab_dof ab) /\
  (0 < ab_dof ab -> forall q, set_dq q m = Exn m /\ List.length q <> ab_dof ab \/ set_dq q m = Bad /\ List.length q = ab_dof ab).
Proof. exact @c30_moved_from. Qed.
Print Assumptions C30_moved_from.
(** The base inertia really is lost. *)
Lemma ib_neq (a b : @inertia QcScal) : frac (imass a) <> frac (imass b) -> a <> b.
Proof. intros H E. apply H. rewrite E. reflexivity. Qed.
Theorem C30_base_inertia_refuted : exists (ab ab' : @body QcScal), reachable solve0 pinv0 ab /\
  body_copy ab = Ok ab' /\ ab_Ibase ab' <> ab_Ibase ab.
Proof.
  assert (R : reachable solve0 pinv0 (robot_after (OSetIbase (q_inertia 9) :: build))) by (eexists; apply robot_after_reached; vm_compute; reflexivity).
  destruct (C30_copy _ _ _ R) as (ab' & E & _ & I). do 2 eexists. split; [exact R|]. split; [exact E|]. rewrite I.
  apply ib_neq. clear. vm_compute. intros X. discriminate X.
Qed.
Print Assumptions C30_base_inertia_refuted.
