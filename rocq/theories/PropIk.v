(** C51: inverse kinematics *)
From Coq Require Import List Arith ZArith Bool String QArith Qcanon Reals Lia.
From Verif Require Import Scalar Base Spatial SpecGeo Joint Body Kin InvDyn FwdDyn Opspace OpspaceAba Deriv Sim Ops Control Ik Instances Specs SpecCache SpecKin SpecDyn SpecOps SpecControl SpecIk Samples Checks
  TreeProofs CacheProofs CacheOps OpsApi ControlProofs IkProofs PropOps.
Import ListNotations.
Local Open Scope nat_scope.

(** C51.  An error is small when its Euclidean norm is below a thousandth. *)
Theorem C51_tolerance : forall e : list (@K RScal), small e <-> (sqrt (sqsum e) < 1 / 1000)%R.
Proof. exact c51_small. Qed.
Print Assumptions C51_tolerance.

(** The returned joint vector is where the robot is after n steps of the controlled
    motion, started on a copy of the robot; either it is on the goal and n < 10000, or n
    is 10000.  The process-wide identity matrix [sz] has the size of the robot when
    a step was made. *)
Theorem C51_steps : forall {S : Scal} {AC : AddComm S} {ES : EqSound S} solve pinv h ab,
  reached solve pinv h ab -> base_fixed false h = true -> one_threshold k0 h ->
  forall g link off sz sz' met q, sz <> Some 0 ->
  inverse_kinematics solve pinv g link off sz ab = Ok (sz', met, q) ->
  exists n a b, body_copy ab = Ok a /\ iterates (ik_next solve pinv g link off (ab_q ab)) n a b /\ q = ab_q b /\
    (n = 0 \/ sz = None \/ sz = Some (ab_dof ab)) /\ sz' = (if Nat.eqb n 0 then sz else Some (ab_dof ab)) /\
    (if met then n < Z.to_nat 10000 /\ on_goal solve pinv g link (-1) off b else n = Z.to_nat 10000).
Proof. exact @c51_steps. Qed.
Print Assumptions C51_steps.

(** The result is a joint vector of the robot; when the goal was met, setting it puts
    the point on link [link], and the orientation of the last link, on the goal. *)
Theorem C51_result : forall {S : Scal} {AC : AddComm S} {ES : EqSound S} solve pinv h ab,
  reached solve pinv h ab -> base_fixed false h = true -> one_threshold k0 h ->
  forall g link off sz sz' met q, sz <> Some 0 ->
  inverse_kinematics solve pinv g link off sz ab = Ok (sz', met, q) ->
  List.length q = ab_dof ab /\
  exists ab', at_q ab q ab' /\ ab_q ab' = q /\ (met = true -> on_goal solve pinv g link (-1) off ab').
Proof. exact @c51_result. Qed.
Print Assumptions C51_result.

(** It returns, whatever the goal, for a valid link. *)
Theorem C51_total : forall {S : Scal} {AC : AddComm S} {ES : EqSound S} solve pinv h ab,
  reached solve pinv h ab -> base_fixed false h = true -> one_threshold k0 h ->
  forall g link off sz l, idx (ab_dof ab) link = Some l ->
  (forall x dx, List.length (g_acc_pos g x dx) = 3) -> (forall R w, List.length (g_acc_ori g R w) = 3) ->
  (forall a b c, List.length (g_acc_joint g a b c) = ab_dof ab) -> sz = None \/ sz = Some (ab_dof ab) ->
  exists r, inverse_kinematics solve pinv g link off sz ab = Ok r.
Proof. exact @c51_total. Qed.
Print Assumptions C51_total.

(** A robot on the goal is left where it is. *)
Theorem C51_at_goal : forall {S : Scal} {AC : AddComm S} {ES : EqSound S} solve pinv h ab,
  reached solve pinv h ab -> base_fixed false h = true -> one_threshold k0 h ->
  forall g link off sz, on_goal solve pinv g link (-1) off ab ->
  inverse_kinematics solve pinv g link off sz ab = Ok (sz, true, ab_q ab).
Proof. exact @c51_at_goal. Qed.
Print Assumptions C51_at_goal.

(** The result does not depend on what was cached. *)
Theorem C51_fresh : forall {S : Scal} {L : ScalLaws S} {PL : PosLaws S} {ES : EqSound S} solve pinv h ab mem g link off sz,
  reached solve pinv h ab -> base_fixed false h = true -> one_threshold k0 h -> proper ab ->
  inverse_kinematics solve pinv g link off sz ab = inverse_kinematics solve pinv g link off sz (cold ab mem).
Proof. exact @c51_fresh. Qed.
Print Assumptions C51_fresh.

(** Defect: a goal that no configuration meets still gets a joint vector, and the C++
    function returns nothing else ([met] exists in the model only). *)
Theorem C51_unreachable : forall {S : Scal} {AC : AddComm S} {ES : EqSound S} solve pinv h ab g link off sz l,
  reached solve pinv h ab -> base_fixed false h = true -> one_threshold k0 h -> idx (ab_dof ab) link = Some l ->
  (forall x dx, List.length (g_acc_pos g x dx) = 3) -> (forall R w, List.length (g_acc_ori g R w) = 3) ->
  (forall a b c, List.length (g_acc_joint g a b c) = ab_dof ab) -> sz = None \/ sz = Some (ab_dof ab) ->
  (forall q ab', at_q ab q ab' -> ~ on_goal solve pinv g link (-1) off ab') ->
  exists sz' q, inverse_kinematics solve pinv g link off sz ab = Ok (sz', false, q) /\ List.length q = ab_dof ab.
Proof. exact @c51_unreachable. Qed.
Print Assumptions C51_unreachable.

(** Defect: once the function has moved one robot in the process ([Some n]), it never
    returns for a robot with another number of joints, unless that robot is on its
    goal from the start. *)
Theorem C51_second_robot : forall {S : Scal} {AC : AddComm S} {ES : EqSound S} solve pinv h ab,
  reached solve pinv h ab -> base_fixed false h = true -> one_threshold k0 h ->
  forall g link off n r, n <> 0 -> n <> ab_dof ab -> ~ on_goal solve pinv g link (-1) off ab ->
  inverse_kinematics solve pinv g link off (Some n) ab <> Ok r.
Proof. exact @c51_second. Qed.
Print Assumptions C51_second_robot.

(** Examples.  A goal position and orientation for a robot of [n] joints. *)
Definition goal_at (n : nat) (x0 : @v3 QcScal) (R0 : @m3 QcScal) : @ik_goal QcScal :=
  let d (a b : @v3 QcScal) := [ksub (vx a) (vx b); ksub (vy a) (vy b); ksub (vz a) (vz b)] in
  IkGoal (fun x dx => [ksub (ksub (vx x0) (vx x)) (coef dx 0); ksub (ksub (vy x0) (vy x)) (coef dx 1); ksub (ksub (vz x0) (vz x)) (coef dx 2)])
         (fun x => d x0 x) (fun R w => [kopp (coef w 0); kopp (coef w 1); kopp (coef w 2)])
         (fun R => d (r0 R0) (r0 R) ++ d (r1 R0) (r1 R) ++ d (r2 R0) (r2 R))
         (fun a b c => map (fun i => ksub (ksub (coef a i) (coef b i)) (coef c i)) (seq 0 n)).
Definition pos_of (ab : @body QcScal) link off := match outcome (ask solve0 pinv0 (QPos link off) ab) with Ok (AV3 x) => x | _ => v3zero end.
Definition ori_of (ab : @body QcScal) link := match outcome (ask solve0 pinv0 (QOri link) ab) with Ok (AM3 x) => x | _ => m3id end.
Definition smallb (e : list (@K QcScal)) : bool := klt (fold_left kadd (map (fun a => kmul a a) e) k0) (kmul (klit 1 1000) (klit 1 1000)).
Definition goalb (g : @ik_goal QcScal) link turn off (ab : @body QcScal) : bool :=
  match outcome (ask solve0 pinv0 (QPos link off) ab), outcome (ask solve0 pinv0 (QOri turn) ab) with
  | Ok (AV3 x), Ok (AM3 R) => smallb (g_err_pos g x) && smallb (g_err_ori g R)
  | _, _ => false
  end.
Lemma goalb_ok g link turn off ab : goalb g link turn off ab = true <-> on_goal solve0 pinv0 g link turn off ab.
Proof.
  unfold goalb, on_goal. split.
  - destruct (outcome (ask solve0 pinv0 (QPos link off) ab)) as [[]| |], (outcome (ask solve0 pinv0 (QOri turn) ab)) as [[]| |]; try discriminate.
    intros H. apply andb_prop in H. destruct H. eexists _, _. split; [reflexivity|]. split; [reflexivity|]. split; assumption.
  - intros (x & R & -> & -> & H1 & H2). unfold small in *. unfold smallb. rewrite H1, H2. reflexivity.
Qed.
(** Two joints, the second turned; a goal for the first link, with the orientation of the second. *)
Definition turned : list (@op QcScal) := [OAdd (q_link "a" JPx q_iso 2) (-1); OAdd (q_link "b" JRz iso_id 1) 0; OSetQ [qz 1; qq 1 2]].
Definition arm : @body QcScal := robot_after turned.
Lemma arm_reached : reached solve0 pinv0 turned arm.
Proof. apply robot_after_reached. vm_compute. reflexivity. Qed.
Lemma turned_ok : base_fixed false turned = true /\ one_threshold k0 turned.
Proof. split; [reflexivity|apply no_threshold; reflexivity]. Qed.
Definition here : @ik_goal QcScal := goal_at 2 (pos_of arm 0 (QV 1 0 2)) (ori_of arm (-1)).

(** Defect: the orientation asked for is compared with that of the last link, whichever
    link was named: the function reports a goal as met that the named link does not
    meet. *)
Theorem C51_link_refuted : exists solve pinv h (ab : @body QcScal) g link off,
  reached solve pinv h ab /\ base_fixed false h = true /\ one_threshold k0 h /\
  inverse_kinematics solve pinv g link off None ab = Ok (None, true, ab_q ab) /\ ~ on_goal solve pinv g link link off ab.
Proof.
  exists solve0, pinv0, turned, arm, here, 0%Z, (QV 1 0 2). split; [exact arm_reached|]. split; [apply turned_ok|]. split; [apply turned_ok|]. split.
  - apply (c51_at_goal solve0 pinv0 turned arm arm_reached (proj1 turned_ok) (proj2 turned_ok)). apply goalb_ok. vm_compute. reflexivity.
  - intros H. apply goalb_ok in H. revert H. vm_compute. discriminate.
Qed.
Print Assumptions C51_link_refuted.

(** The hypotheses hold of this robot; it is on the goal [here], not on [there]. *)
Definition there : @ik_goal QcScal := goal_at 2 (QV 5 5 5) (ori_of arm (-1)).
Example C51_example : reached solve0 pinv0 turned arm /\ base_fixed false turned = true /\ one_threshold k0 turned /\ proper arm /\
  idx (ab_dof arm) 0 = Some 0 /\ on_goal solve0 pinv0 here 0 (-1) (QV 1 0 2) arm /\ ~ on_goal solve0 pinv0 there 0 (-1) (QV 1 0 2) arm /\
  (forall x dx, List.length (g_acc_pos there x dx) = 3) /\ (forall R w, List.length (g_acc_ori there R w) = 3) /\
  (forall a b c, List.length (g_acc_joint there a b c) = ab_dof arm).
Proof.
  split; [exact arm_reached|]. split; [apply turned_ok|]. split; [apply turned_ok|]. split; [apply properb_ok; vm_compute; reflexivity|].
  split; [vm_compute; reflexivity|]. split; [apply goalb_ok; vm_compute; reflexivity|]. split; [intros H; apply goalb_ok in H; revert H; vm_compute; discriminate|].
  split; [reflexivity|]. split; [reflexivity|]. intros a b c. vm_compute. reflexivity.
Qed.
(** A step of the motion exists: the robot of the example makes one towards [there]. *)
Example C51_step_example : exists a b, body_copy arm = Ok a /\ ik_next solve0 pinv0 there 0 (QV 1 0 2) (ab_q arm) a b.
Proof.
  destruct (c51_total solve0 pinv0 turned arm arm_reached (proj1 turned_ok) (proj2 turned_ok) there 0%Z (QV 1 0 2) None 0) as [[[sz met] q] E];
    [vm_compute; reflexivity|reflexivity|reflexivity|intros; vm_compute; reflexivity|auto|].
  destruct (c51_steps solve0 pinv0 turned arm arm_reached (proj1 turned_ok) (proj2 turned_ok) there 0%Z (QV 1 0 2) None sz met q ltac:(discriminate) E) as (n & a & b & C & I & _ & _ & _ & H).
  exists a. destruct n as [|n].
  - exfalso. destruct met; [|discriminate H]. destruct H as [_ H]. inversion I; subst b.
    assert (CA : body_copy arm = Ok (copied arm)) by (apply copy_ok; apply (proj1 (reached_wfc solve0 pinv0 turned arm arm_reached (proj1 turned_ok)))).
    rewrite CA in C. injection C as <-. apply (goal_copied solve0 pinv0 turned arm arm_reached (proj1 turned_ok) (proj2 turned_ok)) in H.
    apply goalb_ok in H. revert H. vm_compute. discriminate.
  - inversion I; subst. eauto.
Qed.
(** A joint that only slides, asked to turn. *)
Definition slide : list (@op QcScal) := [OAdd (q_link "x" JPx q_iso 2) (-1)].
Definition turn_it : @ik_goal QcScal := goal_at 1 (QV 1 2 3) m3id.
Example C51_unreachable_example : reached solve0 pinv0 slide (robot_after slide) /\ base_fixed false slide = true /\ one_threshold k0 slide /\
  idx (ab_dof (robot_after slide)) 0 = Some 0 /\
  (forall q ab', at_q (robot_after slide) q ab' -> ~ on_goal solve0 pinv0 turn_it 0 (-1) (QV 0 0 0) ab').
Proof.
  assert (R : reached solve0 pinv0 slide (robot_after slide)) by (apply robot_after_reached; vm_compute; reflexivity).
  split; [exact R|]. split; [reflexivity|]. split; [apply no_threshold; reflexivity|]. split; [vm_compute; reflexivity|].
  intros q ab' E H. destruct (reached_wfc solve0 pinv0 slide _ R eq_refl) as [T W].
  pose proof (tree_set_q _ _ _ T E) as T'. pose proof (inv_set_q _ _ _ W E) as W'.
  rewrite (on_goal_tw solve0 pinv0 turn_it 0 (-1) (QV 0 0 0) ab' T' W') in H. destruct H as (l & t & _ & I2 & _ & H).
  assert (X : exists x, q = [x] /\ ab_rbs ab' = ab_rbs (robot_after slide) /\ ab_Tbase ab' = ab_Tbase (robot_after slide) /\ ab_dof ab' = 1).
  { assert (D : ab_dof (robot_after slide) = 1) by (vm_compute; reflexivity). revert E. unfold at_q, set_q. rewrite D. destruct q as [|x [|y q]]; try discriminate. cbn [List.length Nat.eqb negb].
    destruct (negb _); [discriminate|]. destruct (veqb _ _); intros E; inversion E; subst ab'; exists x; auto. }
  destruct X as (x & -> & E1 & E2 & E3). rewrite E3 in I2. assert (t = 0) by (apply idx_spec in I2; lia). subst t.
  assert (RT : rot (twv ab' 0) = rot (twv (robot_after slide) 0)).
  { unfold twv, tval, trec, tpv, T_par_q, par. unfold rb_at. rewrite E1, E2. cbn. reflexivity. }
  rewrite RT in H. revert H. vm_compute. discriminate.
Qed.
