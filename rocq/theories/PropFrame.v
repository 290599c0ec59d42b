(** C66: the position task of opspace_control and the orientation of the task frame *)
From Coq Require Import List Arith ZArith Bool String QArith Qcanon Lia.
From Verif Require Import Scalar Base Spatial SpecGeo Joint Body Kin InvDyn FwdDyn Opspace OpspaceAba Deriv Sim Ops Control Instances Specs SpecCache SpecKin SpecDyn SpecOps SpecControl SpecFrame Samples Checks
  SpatialProofs DynApi ControlProofs FrameProofs PropOps PropControl.
Import ListNotations.
Local Open Scope nat_scope.

(** C66.  Without a task orientation the torques accelerate the end-effector (beyond what
    its velocity does) as the documented law says: toward the goal, axis by axis, and
    against its velocity. *)
Theorem C66_plain : forall {S : Scal} {L : ScalLaws S} {PL : PosLaws S} {ES : EqSound S} solve pinv h ab k ab' tau st r A Li goal kp kv,
  reached solve pinv h ab -> base_fixed false h = true -> one_threshold k0 h -> proper ab ->
  outcome (ask solve pinv QInertia ab) = Ok (AMat A) -> solver_ok solve (ab_dof ab) A ->
  compute_opspace_control solve pinv k ab = Ok (ab', (tau, st)) -> reads solve pinv k ab r ->
  outcome (ask solve pinv (QoLinv (goal_rows r)) ab) = Ok (AMat Li) -> inverse_of (List.length (goal_rows r)) Li (fst (pinv Li k0)) ->
  drives_to goal kp kv (c_pos k) -> c_rot k = None ->
  forall e, exists ddq cols, outcome (ask solve pinv (QFD tau (fun _ => None) (IdOpts (c_gravity k) false false e)) ab) = Ok (AVec ddq) /\
    outcome (ask solve pinv (QJac (-1) (c_off k)) ab) = Ok (AMots cols) /\
    carried (ab_dof ab) cols ddq = spring kp kv (v3sub goal (r_x r)) (carried (ab_dof ab) cols (ab_dq ab)).
Proof. exact @c66_plain. Qed.
Print Assumptions C66_plain.
(** With a task orientation [R] and the same gains on all axes, when the law should be the
    same, the pull is turned by the inverse of [R]; the damping is not. *)
Theorem C66_frame : forall {S : Scal} {L : ScalLaws S} {PL : PosLaws S} {ES : EqSound S} solve pinv h ab k ab' tau st r A Li goal p d R,
  reached solve pinv h ab -> base_fixed false h = true -> one_threshold k0 h -> proper ab ->
  outcome (ask solve pinv QInertia ab) = Ok (AMat A) -> solver_ok solve (ab_dof ab) A ->
  compute_opspace_control solve pinv k ab = Ok (ab', (tau, st)) -> reads solve pinv k ab r ->
  outcome (ask solve pinv (QoLinv (goal_rows r)) ab) = Ok (AMat Li) -> inverse_of (List.length (goal_rows r)) Li (fst (pinv Li k0)) ->
  drives_to goal (on_axes p) (on_axes d) (c_pos k) -> c_rot k = Some R -> is_rot R ->
  forall e, exists ddq cols, outcome (ask solve pinv (QFD tau (fun _ => None) (IdOpts (c_gravity k) false false e)) ab) = Ok (AVec ddq) /\
    outcome (ask solve pinv (QJac (-1) (c_off k)) ab) = Ok (AMots cols) /\
    carried (ab_dof ab) cols ddq = v3sub (v3scale p (m3mulv (m3tr R) (v3sub goal (r_x r)))) (v3scale d (carried (ab_dof ab) cols (ab_dq ab))).
Proof. exact @c66_frame. Qed.
Print Assumptions C66_frame.
(** Defect: if the task frame is turned half a turn about an axis across the way to the
    goal, the end-effector is pushed straight away from the goal. *)
Theorem C66_away : forall {S : Scal} {L : ScalLaws S} {PL : PosLaws S} {ES : EqSound S} solve pinv h ab k ab' tau st r A Li goal p d R,
  reached solve pinv h ab -> base_fixed false h = true -> one_threshold k0 h -> proper ab ->
  outcome (ask solve pinv QInertia ab) = Ok (AMat A) -> solver_ok solve (ab_dof ab) A ->
  compute_opspace_control solve pinv k ab = Ok (ab', (tau, st)) -> reads solve pinv k ab r ->
  outcome (ask solve pinv (QoLinv (goal_rows r)) ab) = Ok (AMat Li) -> inverse_of (List.length (goal_rows r)) Li (fst (pinv Li k0)) ->
  drives_to goal (on_axes p) (on_axes d) (c_pos k) -> c_rot k = Some R -> is_rot R -> m3mulv R (v3sub goal (r_x r)) = v3sub (r_x r) goal ->
  forall e, exists ddq cols, outcome (ask solve pinv (QFD tau (fun _ => None) (IdOpts (c_gravity k) false false e)) ab) = Ok (AVec ddq) /\
    outcome (ask solve pinv (QJac (-1) (c_off k)) ab) = Ok (AMots cols) /\
    carried (ab_dof ab) cols ddq = v3sub (v3scale p (v3sub (r_x r) goal)) (v3scale d (carried (ab_dof ab) cols (ab_dq ab))).
Proof. exact @c66_away. Qed.
Print Assumptions C66_away.

(** Six joints, at a goal away by (1, 2, 0), the task frame turned by half a turn about z. *)
Definition law (goal : v3) (p d : @K QcScal) (x : v3) (dx : list (@K QcScal)) : list (@K QcScal) * list (@K QcScal) :=
  let e := v3sub goal x in
  ([ksub (kmul p (vx e)) (kmul d (coef dx 0)); ksub (kmul p (vy e)) (kmul d (coef dx 1)); ksub (kmul p (vz e)) (kmul d (coef dx 2))], [vx e; vy e; vz e]).
Definition where_is (ab : @body QcScal) : v3 := match outcome (ask solve_i pinv0 (QPos (-1) (QV 1 0 2)) ab) with Ok (AV3 x) => x | _ => v3zero end.
Definition there : v3 := v3add (where_is (after pinv0 six)) (QV 1 2 0).
Definition half_turn : @m3 QcScal := turn_z.
Definition chase (R : option m3) : @controller QcScal :=
  Controller (law there (qz 80) (qz 18)) (c_ori (pd 6)) (c_joint (pd 6)) (QV 1 0 2) R (qq 1 10) (qq 1 10) (qq 1 10) (qq 1 10) true (qz 0).
Lemma law_drives goal p d : drives_to goal (on_axes p) (on_axes d) (law goal p d).
Proof. intros x dx. split; reflexivity. Qed.
Example C66_example : meets pinv0 six (chase None) false /\ meets pinv0 six (chase (Some half_turn)) false /\
  drives_to there (on_axes (qz 80)) (on_axes (qz 18)) (c_pos (chase None)) /\ is_rot half_turn /\
  forall r, reads solve_i pinv0 (chase (Some half_turn)) (after pinv0 six) r -> m3mulv half_turn (v3sub there (r_x r)) = v3sub (r_x r) there.
Proof.
  split; [|split; [|split; [apply law_drives|split]]].
  1, 2: apply checks_ok; [reflexivity|apply no_threshold; reflexivity|vm_compute; reflexivity].
  - exact (@turn_rot QcScal QcLaws).
  - intros r RD. pose proof (reads_x _ _ _ _ _ RD) as E. cbn [chase c_off] in E.
    assert (X : r_x r = where_is (after pinv0 six)) by (unfold where_is; rewrite E; reflexivity). unfold there. rewrite X, (@ahead QcScal QcLaws), (@behind QcScal QcLaws). exact (@turn_back QcScal QcLaws (qz 1) (qz 2)).
Qed.
