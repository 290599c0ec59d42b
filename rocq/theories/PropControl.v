(** C44: the task controller of the Python module *)
From Coq Require Import List Arith ZArith Bool String QArith Qcanon Reals Lia Field.
From Verif Require Import Scalar Base Spatial SpecGeo Joint Body Kin InvDyn FwdDyn Opspace OpspaceAba Deriv Sim Ops Control Instances Specs SpecCache SpecKin SpecDyn SpecOps SpecControl Samples Checks
  BigSum DynProofs DynApi OpsTask ControlProofs PropOps.
Import ListNotations.
Local Open Scope nat_scope.

(** C44.  An error is within a threshold when the threshold is negative or the Euclidean
    norm is below it. *)
Theorem C44_within : forall (t : @K RScal) (x : list (@K RScal)), within t x <-> (t < 0 \/ sqrt (sqsum x) < t)%R.
Proof. exact c44_within. Qed.
Print Assumptions C44_within.

(** Whatever was cached, the torques are the sum of those of the main task, of the joint
    task and of gravity (if asked), the status bits are the documented tests, each
    computed from answers of the library on the robot as it was; the robot itself is
    left as it was, or integrated with those torques when the time step is positive. *)
Theorem C44_status : forall {S : Scal} {AC : AddComm S} {ES : EqSound S} solve pinv h ab k ab' tau st,
  reached solve pinv h ab -> base_fixed false h = true -> one_threshold k0 h ->
  compute_opspace_control solve pinv k ab = Ok (ab', (tau, st)) ->
  exists r, reads solve pinv k ab r /\ status_of k r st /\ List.length tau = ab_dof ab /\
    (forall i, i < ab_dof ab -> coef tau i = if c_gravity k then kadd (kadd (coef (r_main r) i) (coef (r_joint r) i)) (coef (r_grav r) i)
                                             else kadd (coef (r_main r) i) (coef (r_joint r) i)) /\
    exists ab1 h1 c, reached solve pinv h1 ab1 /\ base_fixed false h1 = true /\ ab1 = set_cache ab (Some c) /\
      if klt k0 (c_dt k) then step solve pinv (OIntegrate false tau (fun _ => None) (IdOpts true true false (klit 1 100)) (IntOpts false MRk4) (c_dt k)) ab1 = Some ab'
      else ab' = ab1.
Proof. exact @c44_status. Qed.
Print Assumptions C44_status.

(** It never fails on a robot with a link, given vectors of the right lengths. *)
Theorem C44_total : forall {S : Scal} {AC : AddComm S} {ES : EqSound S} solve pinv h ab k,
  reached solve pinv h ab -> base_fixed false h = true -> one_threshold k0 h -> 0 < ab_dof ab ->
  (forall x dx, List.length (fst (c_pos k x dx)) = 3) -> (forall R w, List.length (fst (c_ori k R w)) = 3) ->
  (forall q dq, List.length (c_joint k q dq) = ab_dof ab) -> klt k0 (c_dt k) = false ->
  exists ab' tau st, compute_opspace_control solve pinv k ab = Ok (ab', (tau, st)).
Proof. exact @c44_total. Qed.
Print Assumptions C44_total.

(** The torques produce the commanded task acceleration, whatever the joint task asks
    for: all six components, or the three linear ones when the six are singular. *)
Theorem C44_task : forall {S : Scal} {L : ScalLaws S} {PL : PosLaws S} {ES : EqSound S} solve pinv h ab k ab' tau st r A Li,
  reached solve pinv h ab -> base_fixed false h = true -> one_threshold k0 h -> proper ab ->
  outcome (ask solve pinv QInertia ab) = Ok (AMat A) -> solver_ok solve (ab_dof ab) A ->
  compute_opspace_control solve pinv k ab = Ok (ab', (tau, st)) -> reads solve pinv k ab r ->
  outcome (ask solve pinv (QoLinv (goal_rows r)) ab) = Ok (AMat Li) -> inverse_of (List.length (goal_rows r)) Li (fst (pinv Li k0)) ->
  forall e, exists ddq, outcome (ask solve pinv (QFD tau (fun _ => None) (IdOpts (c_gravity k) false false e)) ab) = Ok (AVec ddq) /\
    List.length ddq = ab_dof ab /\ List.length (goal_acc k r) = List.length (goal_rows r) /\
    forall i, i < List.length (goal_rows r) -> row_times (ab_dof ab) (goal_rows r) ddq i = coef (goal_acc k r) i.
Proof. exact @c44_task. Qed.
Print Assumptions C44_task.

(** Defect: opspace_control documents a boolean, but the status of a robot at rest is
    true as a Python value however far from the goal it is. *)
Theorem C44_boolean : forall {S : Scal} {L : ScalLaws S} {ES : EqSound S} solve pinv h ab k ab' tau st,
  reached solve pinv h ab -> base_fixed false h = true -> one_threshold k0 h ->
  compute_opspace_control solve pinv k ab = Ok (ab', (tau, st)) ->
  (forall i, coef (ab_dq ab) i = k0) -> klt k0 (kmul (c_dx k) (c_dx k)) = true -> py_bool st = true.
Proof. exact @c44_rest. Qed.
Print Assumptions C44_boolean.
(** Defect: with a threshold left at its default (None) it always raises. *)
Theorem C44_defaults : forall {S : Scal} solve pinv dt k (ab : body) t,
  py_opspace_control solve pinv None t dt k ab = Throw /\ py_opspace_control solve pinv t None dt k ab = Throw.
Proof. exact @c44_defaults. Qed.
Print Assumptions C44_defaults.

(** Examples: a robot of three prismatic and three revolute joints (six rows, not
    singular), and one of three prismatic joints, with a pseudo-inverse that calls
    every 6 x 6 matrix singular. *)
Definition solve_i (A : list (list (@K QcScal))) (b : list (@K QcScal)) : list (@K QcScal) := lmulv (List.length A) (List.length A) (inv0 A) b.
Definition pinv_s (A : list (list (@K QcScal))) (e : @K QcScal) : list (list (@K QcScal)) * bool := (inv0 A, Nat.eqb (List.length A) 6).
Definition slides : list (@op QcScal) :=
  [OAdd (q_link "x" JPx q_iso 2) (-1); OAdd (q_link "y" JPy iso_id 1) 0; OAdd (q_link "z" JPz iso_id 3) 1].
Definition six : list (@op QcScal) :=
  slides ++ [OAdd (q_link "rx" JRx q_iso 1) 2; OAdd (q_link "ry" JRy iso_id 2) 3; OAdd (q_link "rz" JRz iso_id 1) 4;
             OSetQ [qz 1; qz 2; qz 0; qz 1; qz 0; qz 2]; OSetDq [qz 1; qz 0; qz 2; qz 1; qz 3; qz (-1)]].
Definition three : list (@op QcScal) := slides ++ [OSetQ [qz 1; qz 2; qz 0]].
Definition pd (n : nat) : @controller QcScal :=
  Controller (fun x dx => ([ksub (qz 1) (kadd (vx x) (coef dx 0)); ksub (qz 2) (kadd (vy x) (coef dx 1)); ksub (qz 3) (kadd (vz x) (coef dx 2))],
                           [ksub (qz 1) (vx x); ksub (qz 2) (vy x); ksub (qz 3) (vz x)]))
             (fun R w => ([ksub (vy (r0 R)) (coef w 0); ksub (vz (r1 R)) (coef w 1); ksub (vx (r2 R)) (coef w 2)], [vy (r0 R); vz (r1 R); vx (r2 R)]))
             (fun q dq => map (fun i => kopp (kadd (coef q i) (coef dq i))) (seq 0 n))
             (QV 1 0 2) None (qq 1 10) (qq 1 10) (qq 1 10) (qq 1 10) true (qz 0).
Definition inverseb (m : nat) (A B : list (list (@K QcScal))) : bool :=
  forallb (fun i => forallb (fun j => keq (prod_at m A B i j) (delta i j) && keq (prod_at m B A i j) (delta i j)) (seq 0 m)) (seq 0 m).
Lemma inverseb_ok m A B : inverseb m A B = true -> inverse_of m A B.
Proof.
  intros H i j Hi Hj. unfold inverseb in H. rewrite forallb_forall in H. specialize (H i ltac:(apply in_seq; lia)). rewrite forallb_forall in H.
  specialize (H j ltac:(apply in_seq; lia)). apply andb_prop in H. destruct H. split; apply keq_sound; auto.
Qed.
Definition after pinv (h : list (@op QcScal)) : @body QcScal :=
  match run solve_i pinv h (body_new "r" (junk (qz 7))) with Some ab => ab | None => body_new "none" (junk (qz 7)) end.
Lemma after_reached pinv (h : list (@op QcScal)) :
  is_some (run solve_i pinv h (body_new "r" (junk (qz 7)))) = true -> reached solve_i pinv h (after pinv h).
Proof. intros H. exists "r"%string, (junk (qz 7)). unfold after. destruct (run _ _ _ _); [auto|discriminate]. Qed.
Definition flag (r : res (@body QcScal * @answer QcScal)) : option bool := match outcome r with Ok (ABool b) => Some b | _ => None end.
(** All hypotheses of the theorems above, for a history, a controller and a
    pseudo-inverse. *)
Definition meets pinv (h : list (@op QcScal)) (k : @controller QcScal) (s6 : bool) : Prop :=
  let ab := after pinv h in
  reached solve_i pinv h ab /\ base_fixed false h = true /\ one_threshold k0 h /\ proper ab /\ 0 < ab_dof ab /\
  (exists A, outcome (ask solve_i pinv QInertia ab) = Ok (AMat A) /\ solver_ok solve_i (ab_dof ab) A) /\
  (exists ab' tau st r, compute_opspace_control solve_i pinv k ab = Ok (ab', (tau, st)) /\ reads solve_i pinv k ab r /\ r_s6 r = s6 /\
    exists Li, outcome (ask solve_i pinv (QoLinv (goal_rows r)) ab) = Ok (AMat Li) /\ inverse_of (List.length (goal_rows r)) Li (fst (pinv Li k0))).
Definition s6_of pinv k (ab : @body QcScal) : bool :=
  match outcome (ask solve_i pinv (QJac (-1) (c_off k)) ab) with
  | Ok (AMots cols) => match outcome (ask solve_i pinv (QoSing (task_rows (c_rot k) cols) (klit 1 100)) ab) with Ok (ABool b) => b | _ => false end
  | _ => false
  end.
Definition rows_of pinv k (ab : @body QcScal) : list (list (@K QcScal)) :=
  match outcome (ask solve_i pinv (QJac (-1) (c_off k)) ab) with
  | Ok (AMots cols) => let J := task_rows (c_rot k) cols in if s6_of pinv k ab then firstn 3 J else J
  | _ => []
  end.
Definition checks pinv (h : list (@op QcScal)) (k : @controller QcScal) (s6 : bool) : bool :=
  let ab := after pinv h in
  let A := answer_mat (outcome (ask solve_i pinv QInertia ab)) in
  let J := rows_of pinv k ab in
  let Li := outcome (ask solve_i pinv (QoLinv J) ab) in
  is_some (run solve_i pinv h (body_new "r" (junk (qz 7)))) && properb ab && Nat.ltb 0 (ab_dof ab) &&
  match outcome (ask solve_i pinv QInertia ab) with Ok (AMat _) => true | _ => false end &&
  inverseb (ab_dof ab) A (inv0 A) && Nat.eqb (List.length A) (ab_dof ab) &&
  match compute_opspace_control solve_i pinv k ab with Ok _ => true | _ => false end &&
  Bool.eqb (s6_of pinv k ab) s6 && match Li with Ok (AMat _) => true | _ => false end &&
  inverseb (List.length J) (answer_mat Li) (fst (pinv (answer_mat Li) k0)).
Lemma checks_ok pinv h k s6 : base_fixed false h = true -> one_threshold k0 h -> checks pinv h k s6 = true -> meets pinv h k s6.
Proof.
  intros B OT H. unfold checks in H. unfold meets. set (ab := after pinv h) in *. cbn zeta in *.
  repeat (apply andb_prop in H; destruct H as [H ?]).
  assert (R : reached solve_i pinv h ab) by (apply after_reached; auto).
  split; [auto|]. split; [auto|]. split; [auto|]. split; [apply properb_ok; auto|]. split; [apply Nat.ltb_lt; auto|]. split.
  - exists (answer_mat (outcome (ask solve_i pinv QInertia ab))). split; [apply answer_mat_ok; auto|].
    apply (solver_inverse inv0); [apply Nat.eqb_eq; auto|]. intros i j Hi Hj. match goal with X : inverseb (ab_dof ab) _ _ = true |- _ => exact (proj1 (inverseb_ok _ _ _ X i j Hi Hj)) end.
  - destruct (compute_opspace_control solve_i pinv k ab) as [[ab' [tau st]]| |] eqn:E; try discriminate.
    destruct (c44_status solve_i pinv h ab k ab' tau st R B OT E) as (r & RD & _).
    exists ab', tau, st, r. split; [auto|]. split; [auto|].
    destruct (reads_J _ _ _ _ _ RD) as (cols & E1 & E2).
    assert (S6 : s6_of pinv k ab = r_s6 r) by (unfold s6_of; rewrite E1, <- E2, (reads_s6 _ _ _ _ _ RD); reflexivity).
    assert (RW : rows_of pinv k ab = goal_rows r) by (unfold rows_of, goal_rows; rewrite E1, S6, <- E2; reflexivity).
    split; [rewrite <- S6; apply eqb_prop; auto|]. rewrite <- RW.
    exists (answer_mat (outcome (ask solve_i pinv (QoLinv (rows_of pinv k ab)) ab))). split; [apply answer_mat_ok; auto|apply inverseb_ok; auto].
Qed.
Example C44_example : meets pinv0 six (pd 6) false /\ meets pinv_s three (pd 3) true.
Proof. split; (apply checks_ok; [reflexivity|apply no_threshold; reflexivity|vm_compute; reflexivity]). Qed.
(** The slides are at rest. *)
Example C44_boolean_example : (forall i, coef (ab_dq (after pinv_s three)) i = k0) /\ klt k0 (kmul (c_dx (pd 3)) (c_dx (pd 3))) = true.
Proof.
  split; [|reflexivity]. assert (E : ab_dq (after pinv_s three) = [k0; k0; k0]) by (vm_compute; reflexivity). rewrite E. intros [|[|[|[|i]]]]; reflexivity.
Qed.
