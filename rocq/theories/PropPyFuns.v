(** C65: functions of the Python module *)
From Coq Require Import List Arith ZArith Bool String Ascii QArith Qcanon Lia.
From Verif Require Import Scalar Base Spatial SpecGeo Joint Body Kin InvDyn FwdDyn Opspace OpspaceAba Deriv Sim Ops Matlab PyFuns Instances
  Specs SpecCache SpecKin SpecDyn SpecOps SpecControl SpecMatlab SpecPy Samples Checks PropDyn PropOps PyProofs.
Import ListNotations.
Local Open Scope nat_scope.

(** C65.  opspace.inverse_dynamics with an array of doubles, however it lies in memory:
    the torques, robot and failures are those of the C++ function given the matrix in the
    array; afterwards the array holds the new matrix and no other memory has changed. *)
Theorem C65_nullspace : forall {S : Scal} solve pinv J ddx v A fe b o m ab,
  square_array (ab_dof ab) v -> separate v -> sized (ab_dof ab) (ab_dof ab) A -> holds v m A ->
  match ask solve pinv (QoID J ddx (Some A) fe b o) ab with
  | Ok (ab', ANull (Some N) tau) => exists m', py_ops_id solve pinv J ddx (NView v) fe b o m ab = Ok (ab', (m', tau)) /\ holds v m' N /\ forall a, beside v a -> m' a = m a
  | Ok _ => False
  | Throw => py_ops_id solve pinv J ddx (NView v) fe b o m ab = Throw
  | UB => py_ops_id solve pinv J ddx (NView v) fe b o m ab = UB
  end.
Proof. exact @c65_nullspace. Qed.
Print Assumptions C65_nullspace.
(** An array of another shape, also an empty one, and whatever its type, never works. *)
Theorem C65_shape : forall {S : Scal} solve pinv J ddx N fe b o m ab r,
  py_ops_id solve pinv J ddx N fe b o m ab = Ok r -> acceptable (ab_dof ab) N.
Proof. exact @c65_shape. Qed.
Print Assumptions C65_shape.
(** Tasks given one after another with one array, at first the identity: the total torque
    is that of the C++ calls that start with an empty matrix. *)
Theorem C65_stack : forall {S : Scal} {L : ScalLaws S} solve pinv v m t rest tau ab,
  0 < ab_dof ab -> square_array (ab_dof ab) v -> separate v -> holds v m (identity (ab_dof ab)) ->
  match py_stack solve pinv (NView v) (t :: rest) m tau ab with
  | Some (ab', (_, tau')) => control solve pinv (t :: rest) nil tau ab = Some (ab', tau')
  | None => control solve pinv (t :: rest) nil tau ab = None
  end.
Proof. exact @c65_stack. Qed.
Print Assumptions C65_stack.
(** So the first task is accelerated as commanded, whatever the later ones are. *)
Theorem C65_priority : forall {S : Scal} {L : ScalLaws S} {PL : PosLaws S} {ES : EqSound S} solve pinv h ab e t0 rest ab' tau A Li m v mem mem',
  reached solve pinv h ab -> base_fixed false h = true -> one_threshold e h -> proper ab ->
  outcome (ask solve pinv QInertia ab) = Ok (AMat A) -> solver_ok solve (ab_dof ab) A ->
  sized m (ab_dof ab) (t_J t0) -> List.length (t_ddx t0) = m ->
  outcome (ask solve pinv (QoLinv (t_J t0)) ab) = Ok (AMat Li) -> inverse_of m Li (fst (pinv Li e)) ->
  p_svd (t_o t0) = e -> p_cc (t_o t0) = false -> p_fric (t_o t0) = false -> klt k0 (p_facc (t_o t0)) = false ->
  (t_fe_empty t0 = true -> forall k, t_fe t0 k = None) ->
  0 < ab_dof ab -> square_array (ab_dof ab) v -> separate v -> holds v mem (identity (ab_dof ab)) ->
  py_stack solve pinv (NView v) (t0 :: rest) mem (repeat k0 (ab_dof ab)) ab = Some (ab', (mem', tau)) ->
  forall st, exists ddq, outcome (ask solve pinv (QFD tau (t_fe t0) (IdOpts (p_grav (t_o t0)) false false st)) ab') = Ok (AVec ddq) /\
    List.length ddq = ab_dof ab /\
    forall i, i < m -> row_times (ab_dof ab) (t_J t0) ddq i = coef (t_ddx t0) i.
Proof. exact @c65_priority. Qed.
Print Assumptions C65_priority.

(** The identity in an array whose rows run backwards in memory, between other numbers;
    the tasks of C36_example. *)
Definition eye : view := View 12 2 2 (-3) 2.
Definition desk : @store QcScal := fun a => if (Z.eqb a 12 || Z.eqb a 11)%bool then qz 1 else if (Z.eqb a 14 || Z.eqb a 9)%bool then qz 0 else qz 8.
Definition stacked (v : @narg QcScal) := py_stack solve0 pinv0 v [task1; task2] desk (repeat k0 2) (robot_after two).
Lemma eye_separate : separate eye.
Proof. intros i j i' j' H1 H2 H3 H4 E. unfold place, eye in E. cbn [v_ptr v_down v_right v_rows v_cols eye] in *. lia. Qed.
Lemma eye_holds : holds eye desk (identity 2).
Proof. intros [|[|i]] [|[|j]] Hi Hj; cbn in Hi, Hj; try lia; reflexivity. Qed.
Example C65_priority_example : exists A Li ab' mem' tau,
  reached solve0 pinv0 two (robot_after two) /\ base_fixed false two = true /\ one_threshold (qz 0) two /\ proper (robot_after two) /\
  outcome (ask solve0 pinv0 QInertia (robot_after two)) = Ok (AMat A) /\ solver_ok solve0 (ab_dof (robot_after two)) A /\
  sized 1 (ab_dof (robot_after two)) row1 /\
  outcome (ask solve0 pinv0 (QoLinv row1) (robot_after two)) = Ok (AMat Li) /\ inverse_of 1 Li (fst (pinv0 Li (qz 0))) /\
  0 < ab_dof (robot_after two) /\ square_array (ab_dof (robot_after two)) eye /\ separate eye /\ holds eye desk (identity (ab_dof (robot_after two))) /\
  stacked (NView eye) = Some (ab', (mem', tau)) /\ mem' 13%Z = qz 8.
Proof.
  destruct C36_example as (A & Li & ab1 & tau1 & R & B & OT & P & EA & SO & SJ & EL & IV & _). destruct C17_example as (_ & _ & _ & _ & _ & D & _). rewrite D in *.
  assert (X : match stacked (NView eye) with Some (_, (m, _)) => keq (m 13%Z) (qz 8) | None => false end = true) by (vm_compute; reflexivity).
  destruct (stacked (NView eye)) as [[ab' [mem' tau]]|]; [|discriminate]. apply keq_sound in X.
  exists A, Li, ab', mem', tau. do 9 (split; [assumption|]). split; [lia|]. split; [split; reflexivity|]. split; [apply eye_separate|]. split; [apply eye_holds|]. auto.
Qed.

(** Defect: an array of integers (or of float32) is converted to a new array, and the new
    nullspace matrix is written to that one.  The caller's array stays as it was, so for
    the identity the torques are those of a call without a nullspace matrix. *)
Theorem C65_converted : forall {S : Scal} {L : ScalLaws S} solve pinv J ddx fe b o m ab, 0 < ab_dof ab ->
  match py_ops_id solve pinv J ddx (NCopy (identity (ab_dof ab))) fe b o m ab with
  | Ok (_, (m', tau)) => m' = m /\ exists ab', py_ops_id solve pinv J ddx NNone fe b o m ab = Ok (ab', (m, tau))
  | r => py_ops_id solve pinv J ddx NNone fe b o m ab = r
  end.
Proof. exact @c65_other. Qed.
Print Assumptions C65_converted.
Example C65_converted_example : 0 < ab_dof (robot_after two) /\
  match py_ops_id solve0 pinv0 row1 [qz 5] (NCopy (identity (ab_dof (robot_after two)))) push false (t_o task1) desk (robot_after two) with Ok _ => True | _ => False end.
Proof. vm_compute. auto. Qed.
(** A task missed. *)
Definition missed (solve : list (list (@K QcScal)) -> list Qc -> list Qc) pinv v t0 rest mem (n : nat) (ab : @body QcScal) : bool :=
  match py_stack solve pinv v (t0 :: rest) mem (repeat k0 n) ab with
  | Some (ab', (_, tau)) =>
    match outcome (ask solve pinv (QFD tau (t_fe t0) (IdOpts (p_grav (t_o t0)) false false (qz 0))) ab') with
    | Ok (AVec ddq) => negb (keq (row_times n (t_J t0) ddq 0) (coef (t_ddx t0) 0))
    | _ => false
    end
  | None => false
  end.
Lemma qz_keq (x : Qc) : @keq QcScal x x = true.
Proof. cbn. unfold Qc_eq_bool. destruct (Qc_eq_dec x x); congruence. Qed.
Lemma missed_ex solve pinv v t0 rest mem n ab : missed solve pinv v t0 rest mem n ab = true ->
  exists ab' mem' tau ddq, py_stack solve pinv v (t0 :: rest) mem (repeat k0 n) ab = Some (ab', (mem', tau)) /\
    outcome (ask solve pinv (QFD tau (t_fe t0) (IdOpts (p_grav (t_o t0)) false false (qz 0))) ab') = Ok (AVec ddq) /\
    row_times n (t_J t0) ddq 0 <> coef (t_ddx t0) 0.
Proof.
  unfold missed. destruct (py_stack _ _ _ _ _ _ _) as [[ab' [mem' tau]]|]; [|discriminate]. intros H. exists ab', mem', tau.
  destruct (outcome _) as [[]| |]; try discriminate H. eexists. split; [reflexivity|]. split; [reflexivity|]. intros G. rewrite G in H. rewrite qz_keq in H. discriminate H.
Qed.
(** There the first task is not accelerated as commanded: with the same robot and tasks
    as above, the command 5 is not met. *)
Theorem C65_priority_refuted : exists solve pinv h (ab : @body QcScal) t0 rest mem ab' mem' tau ddq,
  reached solve pinv h ab /\ base_fixed false h = true /\ 0 < ab_dof ab /\ sized 1 (ab_dof ab) (t_J t0) /\
  py_stack solve pinv (NCopy (identity (ab_dof ab))) (t0 :: rest) mem (repeat k0 (ab_dof ab)) ab = Some (ab', (mem', tau)) /\
  outcome (ask solve pinv (QFD tau (t_fe t0) (IdOpts (p_grav (t_o t0)) false false (qz 0))) ab') = Ok (AVec ddq) /\
  row_times (ab_dof ab) (t_J t0) ddq 0 <> coef (t_ddx t0) 0.
Proof.
  destruct C17_example as (_ & R & B & _ & _ & D & _).
  assert (X : missed solve0 pinv0 (NCopy (identity 2)) task1 [task2] desk 2 (robot_after two) = true) by (vm_compute; reflexivity).
  apply missed_ex in X. destruct X as (ab' & mem' & tau & ddq & E & F & G).
  exists solve0, pinv0, two, (robot_after two), task1, [task2], desk, ab', mem', tau, ddq. rewrite D. split; [exact R|]. split; [exact B|]. split; [lia|].
  split; [split; [reflexivity|repeat constructor]|]. split; [exact E|]. split; [exact F|exact G].
Qed.
Print Assumptions C65_priority_refuted.

(** hessian: entry (i, j, k) of the array is component k (linear, then angular) of the
    second derivative with respect to joints i and j. *)
Theorem C65_hessian : forall {S : Scal} solve pinv link off ab ab' H, ask solve pinv (QHess link off) ab = Ok (ab', AHess H) ->
  exists f, py_hessian link off ab = Ok (ab', f) /\ forall i j k, i < ab_dof ab -> j < ab_dof ab -> k < 6 -> f i j k = six_of (nth j (nth i H nil) mzero) k.
Proof. exact @c65_hessian. Qed.
Print Assumptions C65_hessian.
Example C65_hessian_example : exists ab' H, ask solve0 pinv0 (QHess 1 (QV 1 2 3)) (robot_after two) = Ok (ab', AHess H) /\ 1 < ab_dof (robot_after two).
Proof.
  assert (X : match ask solve0 pinv0 (QHess 1 (QV 1 2 3)) (robot_after two) with Ok (_, AHess _) => true | _ => false end = true) by (vm_compute; reflexivity).
  destruct (ask solve0 pinv0 (QHess 1 (QV 1 2 3)) (robot_after two)) as [[a []]| |]; try discriminate. do 2 eexists. split; [reflexivity|]. vm_compute. auto.
Qed.

(** integrate: the method is found by its name in letters of any case, and the step is that
    of the C++ function; any other name is refused and the robot keeps its state. *)
Theorem C65_integrate : forall {S : Scal} solve pinv tau dt fe gravity cc friction limits method aba stiction ab,
  (forall w, same_ci method (method_name w) ->
     forall ab', py_integrate solve tau dt fe gravity cc friction limits method aba stiction ab = Ret ab' tt <->
       step solve pinv (OIntegrate aba tau fe (IdOpts gravity cc friction stiction) (IntOpts limits w) dt) ab = Some ab') /\
  ((forall w, ~ same_ci method (method_name w)) -> py_integrate solve tau dt fe gravity cc friction limits method aba stiction ab = Exn ab).
Proof. exact @c65_integrate. Qed.
Print Assumptions C65_integrate.
Example C65_integrate_example : same_ci "Heuns" (method_name MHeun) /\ forall w, ~ same_ci "heun" (method_name w).
Proof. split; [apply method_spec; reflexivity|]. intros w H. apply method_spec in H. discriminate. Qed.

(** Passing q is as good as setting it first, except for cartesian_pose. *)
Theorem C65_q : forall {S : Scal} {L : ScalLaws S} {ES : EqSound S} solve pinv h ab q ab1 f link,
  reached solve pinv h ab -> base_fixed false h = true -> set_q q ab = Ret ab1 tt -> (forall off, f <> PyPose off) ->
  outcome (py_kin solve pinv f link (Some q) ab) = outcome (py_kin solve pinv f link None ab1).
Proof. exact @c65_q. Qed.
Print Assumptions C65_q.
Example C65_q_example : exists ab1 a, set_q [qz 3; qz 4] (robot_after two) = Ret ab1 tt /\ 
  outcome (py_kin solve0 pinv0 (PyLinear (QV 1 2 3)) 1 None ab1) = Ok a /\ ab_q (robot_after two) <> [qz 3; qz 4].
Proof.
  assert (X : match set_q [qz 3; qz 4] (robot_after two) with Ret ab1 tt => match outcome (py_kin solve0 pinv0 (PyLinear (QV 1 2 3)) 1 None ab1) with Ok _ => true | _ => false end | _ => false end = true) by (vm_compute; reflexivity).
  destruct (set_q [qz 3; qz 4] (robot_after two)) as [ab1 []| |]; try discriminate. destruct (outcome _) as [a| |] eqn:E; try discriminate. exists ab1, a. split; [reflexivity|]. split; [exact E|].
  intros F. assert (Y : veqb (ab_q (robot_after two)) [qz 3; qz 4] = false) by (vm_compute; reflexivity). rewrite F in Y. vm_compute in Y. discriminate.
Qed.
(** cartesian_pose is made of orientation and position; with q it is undefined behaviour
    (C31). *)
Theorem C65_pose : forall {S : Scal} solve pinv link off ab q,
  match outcome (py_kin solve pinv (PyPosition off) link None ab), outcome (py_kin solve pinv PyOrientation link None ab), outcome (py_kin solve pinv (PyPose off) link None ab) with
  | Ok (AV3 x), Ok (AM3 R), Ok (AIso T) => rot T = R /\ tra T = x
  | UB, UB, UB => True
  | _, _, _ => False
  end /\ py_kin solve pinv (PyPose off) link (Some q) ab = UB.
Proof. exact @c65_pose. Qed.
Print Assumptions C65_pose.
Example C65_pose_example : match outcome (py_kin solve0 pinv0 (PyPose (QV 1 2 3)) 1 None (robot_after two)) with Ok (AIso _) => True | _ => False end.
Proof. vm_compute. exact I. Qed.
